(** * Concrete cases for the spline theorems *)
From Coquelicot Require Import Coquelicot.
From Verif Require Import Np NpLemmas Interp OdeSpec InterpProofs Sparse SparseSpec IntegrateSpec Spline SplineSpec SplineLists SplineGlue SplineEval SplineSystem SplineQuad SplineLinear SplineSolve SplineProofs SplineUnique SplineFinal.

Definition sx : list R := [0; 1; 2; 3].
Definition sy : list R := [0; 0; 0; 1].
Lemma sx_incr : incr sx.
Proof. intros [ | [ | [ | [ | i]]]] [ | [ | [ | [ | j]]]] H; simpl in H; try lia; unfold sx, el; simpl; lra. Qed.
(** a solver meeting [solve_ok] exists *)
Example ex_solver : solve_ok solve_mx.
Proof. exact solve_mx_ok. Qed.
(** and with it all degrees and endpoint conditions can be constructed on these data *)
Lemma ex_construct k e : (k = 1 \/ k = 2 \/ k = 3)%nat -> (k = 2%nat -> e = "not-a-knot"%string) -> exists s, spline_init solve_mx (Array1 sx) (Array1 sy) (Z.of_nat k) e None = Ok s.
Proof. intros Hk He. apply spline_validation. simpl. split; [ lia | split; [ reflexivity | split; [ lia | intros; apply He; lia ]]]. Qed.
Example ex_linear : exists s, spline_init solve_mx (Array1 sx) (Array1 sy) (Z.of_nat 1) "not-a-knot" None = Ok s. Proof. apply ex_construct; [ lia | lia ]. Qed.
Example ex_quadratic : exists s, spline_init solve_mx (Array1 sx) (Array1 sy) (Z.of_nat 2) "not-a-knot" None = Ok s. Proof. apply ex_construct; [ lia | reflexivity ]. Qed.
Example ex_cubic : exists s, spline_init solve_mx (Array1 sx) (Array1 sy) (Z.of_nat 3) "not-a-knot" None = Ok s. Proof. apply ex_construct; [ lia | lia ]. Qed.
Example ex_natural : exists s, spline_init solve_mx (Array1 sx) (Array1 sy) 3 "natural" None = Ok s. Proof. apply (ex_construct 3 "natural"); [ lia | lia ]. Qed.
(** a point that is not an interior knot, for every degree *)
Example ex_not_breakpoint k : ~ breakpoint k sx (3 / 4).
Proof.
  intros [i [Hi E]]. unfold n_pieces, knot in *. destruct (Nat.eqb k 2); simpl in Hi.
  - assert (C : (i = 0 \/ i = 1 \/ i = 2)%nat) by lia. destruct C as [-> | [-> | ->]]; unfold sx, el in E; simpl in E; lra.
  - assert (C : (i = 0 \/ i = 1)%nat) by lia. destruct C as [-> | ->]; unfold sx, el in E; simpl in E; lra.
Qed.
(** data from a genuine cubic: y = x^3 - x *)
Example ex_poly : forall i, (i < length sx)%nat -> el [0; 0; 6; 24] i = poly (fun j => match j with 1%nat => -1 | 3%nat => 1 | _ => 0 end) 3 (el sx i).
Proof. intros i Hi. simpl in Hi. assert (C : (i = 0 \/ i = 1 \/ i = 2 \/ i = 3)%nat) by lia. destruct C as [-> | [-> | [-> | ->]]]; unfold sx, el, poly; simpl; ring. Qed.
(** data from a line *)
Example ex_line : forall i, (i < length sx)%nat -> el [1; 3; 5; 7] i = 1 + 2 * el sx i.
Proof. intros i Hi. simpl in Hi. assert (C : (i = 0 \/ i = 1 \/ i = 2 \/ i = 3)%nat) by lia. destruct C as [-> | [-> | [-> | ->]]]; unfold sx, el; simpl; ring. Qed.

(** the natural end condition fails on the right *)
Lemma natural_right_end solve s : solve_ok solve -> spline_init solve (Array1 sx) (Array1 sy) 3 "natural" None = Ok s ->
  spline_derivative s 3 2 = Ok (24 / 19) /\ forall q, 2 < q -> is_derive_n (spline_call s) 2 q (24 / 19).
Proof.
  intros HS E. change 3%Z with (Z.of_nat 3) in E. destruct (built_of _ _ _ _ _ _ HS sx_incr E) as (co & e' & -> & HB & _). simpl negb in HB.
  pose proof HB as (_ & _ & (F & L & Mi)). pose proof (Mi 0%nat ltac:(simpl; lia)) as M0. pose proof (Mi 1%nat ltac:(simpl; lia)) as M1. clear Mi.
  unfold first_row in F. unfold last_row in L. unfold mid_row, mid_rhs in M0, M1. simpl in F, L, M0, M1. unfold sx, sy in M0, M1; simpl in M0, M1; unfold el at 1 2 4 5 7 8 in M0.
  assert (E0 : el co 0 = 0) by exact F. assert (E3 : el co 3 = el co 2) by (change (el co 3 - el co 2 = 0) in L; lra).
  change (el [0; 1; 2; 3] 0) with 0 in *. change (el [0; 1; 2; 3] 1) with 1 in *. change (el [0; 1; 2; 3] 2) with 2 in *. change (el [0; 1; 2; 3] 3) with 3 in *.
  change (el [0; 0; 0; 1] 0) with 0 in *. change (el [0; 0; 0; 1] 1) with 0 in *. change (el [0; 0; 0; 1] 2) with 0 in *. change (el [0; 0; 0; 1] 3) with 1 in *.
  simpl in M0.
  assert (A : el co 2 = 12 / 19) by (unfold el in *; simpl in *; lra).
  assert (X : forall q, 2 < q -> G 3 sx sy co 2 q = 24 / 19).
  { intros q Hq. unfold G. pose proof (index_spec 3 sx q ltac:(simpl; lia) sx_incr) as (I0 & I1 & I2). unfold n_pieces in *. simpl in I0, I2.
    assert (EI : index 3 sx q = 2%nat).
    { destruct (index 3 sx q) as [ | [ | [ | i]]]; [ | | reflexivity | lia ]; exfalso; (destruct I2 as [I2 | I2]; [ lia | ]); unfold knot, sx, el in I2; simpl in I2; lra. }
    rewrite EI. unfold P, cubic_d, cC, cD. rewrite E3, A. unfold hh, knot, sx, el. simpl. field. }
  split.
  - change (spline_derivative {| sp_k := kz 3; sp_x := sx; sp_y := sy; sp_coef := co; sp_end := e' |} 3 (Z.of_nat 2) = Ok (24 / 19)).
    rewrite (deriv_G _ _ _ _ _ _ _ _ HB) by lia. f_equal. apply X. lra.
  - intros q Hq. rewrite <- (X q Hq). apply (is_derive_n_fext (G 3 sx sy co 0)); [ intros; symmetry; apply (call_G _ _ _ _ _ _ _ HB) | ]. apply (G_derive_n _ _ _ _ _ HB). lia.
Qed.
Lemma natural_refuted : exists x y, incr x /\ (exists solve s, solve_ok solve /\ spline_init solve (Array1 x) (Array1 y) 3 "natural" None = Ok s) /\
  forall solve s, solve_ok solve -> spline_init solve (Array1 x) (Array1 y) 3 "natural" None = Ok s ->
    exists v, spline_derivative s (el x (length x - 1)) 2 = Ok v /\ is_derive_n (spline_call s) 2 (el x (length x - 1)) v /\ v <> 0.
Proof.
  exists sx, sy. split; [ exact sx_incr | split ].
  - destruct ex_natural as [s Hs]. exists solve_mx, s. split; [ exact solve_mx_ok | exact Hs ].
  - intros solve s HS E. destruct (natural_right_end solve s HS E) as [A B]. exists (24 / 19). simpl length. simpl Nat.sub. change (el sx 3) with 3. split; [ exact A | split; [ apply B; lra | lra ]].
Qed.
