(** * Proofs about splines on arrays of any rank *)
From Coq Require Import Reals Lra Lia ZArith String List.
From Coquelicot Require Import Coquelicot.
From Verif Require Import Np NpLemmas Interp OdeSpec SparseSpec Spline SplineSpec SplineFinal Nd NdSpec NdProofs NzArr NzArrProofs PowerNd PowerNdSpec NdBroadcast SplineNd.
Import ListNotations.
Local Open Scope R_scope.

Definition has (s : list nat) (r : nd) (g : list nat -> R) : Prop := shp r = s /\ forall i, inside s i -> get r i = g i.
Lemma bshape_rev_same t : bshape_rev t t = Some t.
Proof. induction t as [ | n t IH]; [ reflexivity | ]. cbn [bshape_rev]. now rewrite IH, Nat.eqb_refl. Qed.
Lemma bshape_same t : bshape t t = Some t.
Proof. unfold bshape. now rewrite bshape_rev_same, rev_involutive. Qed.
Lemma has_bop s h x y f g : has s x f -> has s y g -> exists z, bop2 h x y = Ok z /\ has s z (fun i => h (f i) (g i)).
Proof.
  intros [Sx Hx] [Sy Hy]. unfold bop2. rewrite Sx, Sy, bshape_same. eexists. split; [ reflexivity | ]. split; [ reflexivity | ]. cbn [get]. intros i Hi.
  rewrite !bidx_self by exact Hi. now rewrite Hx, Hy.
Qed.
Lemma has_uop s h x f : has s x f -> has s (uop1 h x) (fun i => h (f i)).
Proof. intros [Sx Hx]. split; [ exact Sx | ]. cbn [uop1 get]. intros i Hi. now rewrite Hx. Qed.
Lemma has_take s v ind : ishp ind = s -> has s (take v ind) (fun i => getZ 0 v (iget ind i)).
Proof. intros E. split; [ exact E | reflexivity ]. Qed.
Lemma has_self x : has (shp x) x (get x).
Proof. split; reflexivity. Qed.

Ltac solve_has := first [ eassumption | apply has_uop; solve_has | apply has_take; reflexivity | apply has_self ].
Ltac bstep s :=
  match goal with
  | |- context [bop2 ?h ?x ?y] =>
      let z := fresh "z" in let E := fresh "E" in let H := fresh "H" in
      edestruct (has_bop s h x y) as (z & E & H); [ solve_has | solve_has | rewrite E; clear E; cbn [bind]; cbv beta ]
  end.
Ltac finish H := eexists; split; [ reflexivity | split; [ exact (proj1 H) | intros i Hi; rewrite (proj2 H i Hi) ] ].

Lemma call_nd s q : exists r, spline_call_nd s q = Ok r /\ elementwise (spline_call s) q r.
Proof.
  unfold spline_call_nd, compute_coeffs_nd, elementwise. cbv zeta. set (ind := piece_indices (spline_knots (sp_k s) (sp_x s)) q).
  assert (I0 : ishp ind = shp q) by reflexivity. bstep (shp q).
  destruct (Z.eqb (sp_k s) 1) eqn:E1; [ | destruct (Z.eqb (sp_k s) 2) eqn:E2 ]; cbn [bind]; cbv beta; repeat bstep (shp q);
    match goal with Z : has _ ?z _ |- exists r, Ok ?z = Ok r /\ _ => finish Z end; unfold spline_call, compute_coeffs; rewrite ?E1, ?E2; reflexivity.
Qed.
Lemma derivative_nd s q n : (0 <= n <= sp_k s)%Z -> exists r, spline_derivative_nd s q n = Ok r /\ shp r = shp q /\ forall i, inside (shp q) i -> spline_derivative s (get q i) n = Ok (get r i).
Proof.
  intros Hn. unfold spline_derivative_nd. assert (En : ((0 <=? n)%Z && (n <? sp_k s + 1)%Z)%bool = true) by (apply andb_true_intro; split; [ apply Z.leb_le | apply Z.ltb_lt ]; lia).
  rewrite En. cbn [negb]. destruct (Z.eqb n 0) eqn:E0.
  { destruct (call_nd s q) as (r & E & Hs & Hr). exists r. split; [ exact E | split; [ exact Hs | ] ]. intros i Hi. unfold spline_derivative. rewrite En. cbn [negb]. rewrite E0. f_equal. symmetry. now apply Hr. }
  unfold compute_coeffs_nd. cbv zeta. set (ind := piece_indices (spline_knots (sp_k s) (sp_x s)) q).
  assert (I0 : ishp ind = shp q) by reflexivity. bstep (shp q).
  destruct (Z.eqb (sp_k s) 1) eqn:E1; [ | destruct (Z.eqb (sp_k s) 2) eqn:E2 ]; cbn [bind]; cbv beta; repeat bstep (shp q).
  - eexists. split; [ reflexivity | ]. split; [ reflexivity | ]. intros i Hi. unfold spline_derivative, compute_coeffs. rewrite En. cbn [negb]. rewrite E0, E1. reflexivity.
  - destruct (Z.eqb n 1) eqn:F1; repeat bstep (shp q).
    + match goal with Z : has _ ?z _ |- exists r, Ok ?z = Ok r /\ _ => finish Z end. unfold spline_derivative, compute_coeffs. rewrite En. cbn [negb]. rewrite E0, E1, E2, F1. reflexivity.
    + match goal with |- exists r, Ok (uop1 ?h ?x) = Ok r /\ _ => assert (Z : has (shp q) (uop1 h x) _) by (apply has_uop; eassumption) end.
      finish Z. unfold spline_derivative, compute_coeffs. rewrite En. cbn [negb]. rewrite E0, E1, E2, F1. reflexivity.
  - destruct (Z.eqb n 1) eqn:F1; [ | destruct (Z.eqb n 2) eqn:F2 ]; repeat bstep (shp q).
    + match goal with Z : has _ ?z _ |- exists r, Ok ?z = Ok r /\ _ => finish Z end. unfold spline_derivative, compute_coeffs. rewrite En. cbn [negb]. rewrite E0, E1, E2, F1. reflexivity.
    + match goal with Z : has _ ?z _ |- exists r, Ok ?z = Ok r /\ _ => finish Z end. unfold spline_derivative, compute_coeffs. rewrite En. cbn [negb]. rewrite E0, E1, E2, F1, F2. reflexivity.
    + match goal with |- exists r, Ok (uop1 ?h ?x) = Ok r /\ _ => assert (Z : has (shp q) (uop1 h x) _) by (apply has_uop; eassumption) end.
      finish Z. unfold spline_derivative, compute_coeffs. rewrite En. cbn [negb]. rewrite E0, E1, E2, F1, F2. reflexivity.
Qed.
Lemma derivative_nd_order s q n : (n < 0 \/ sp_k s < n)%Z -> spline_derivative_nd s q n = Err AssertionError.
Proof.
  intros H. unfold spline_derivative_nd. assert (((0 <=? n)%Z && (n <? sp_k s + 1)%Z)%bool = false) as ->; [ | reflexivity ].
  apply andb_false_iff. destruct H as [H | H]; [ left; apply Z.leb_gt; lia | right; apply Z.ltb_ge; lia ].
Qed.
Lemma antiderivative_nd s q : exists r, spline_antiderivative_nd s q = Ok r /\ elementwise (spline_antiderivative s) q r.
Proof.
  unfold spline_antiderivative_nd, elementwise. cbv zeta. set (ind := piece_indices (spline_knots (sp_k s) (sp_x s)) q).
  assert (I0 : ishp ind = shp q) by reflexivity. bstep (shp q).
  destruct (Z.eqb (sp_k s) 1) eqn:E1; [ | destruct (Z.eqb (sp_k s) 2) eqn:E2 ]; repeat bstep (shp q);
    match goal with Z : has _ ?z _ |- exists r, Ok ?z = Ok r /\ _ => finish Z end; unfold spline_antiderivative; cbv zeta; rewrite ?E1, ?E2; reflexivity.
Qed.

Section Built.
Context (solve : solve_t) (x y : list R) (k : nat) (e : string) (s : spline).
Context (HS : solve_ok solve) (Hx : incr x) (HI : spline_init solve (Array1 x) (Array1 y) (Z.of_nat k) e None = Ok s).
Lemma derivatives_nd q n : (n < k)%nat \/ (n = k /\ forall i, inside (shp q) i -> ~ breakpoint k x (get q i)) ->
  exists r, spline_derivative_nd s q (Z.of_nat n) = Ok r /\ shp r = shp q /\ forall i, inside (shp q) i -> is_derive_n (spline_call s) n (get q i) (get r i).
Proof.
  intros Hn. destruct (spline_derivative_order _ _ _ _ _ _ 0 (Z.of_nat k) HS Hx HI) as [[_ A] _].
  assert (Kk : sp_k s = Z.of_nat k).
  { destruct (init_size _ _ _ _ _ _ HI) as (Hk & _). revert HI. unfold spline_init. destruct Hk as [-> | [-> | ->]]; cbn [Z.of_nat Z.eqb negb orb Pos.of_succ_nat Pos.succ Pos.eqb];
    repeat match goal with |- (if ?b then _ else _) = _ -> _ => destruct b; try discriminate end; cbv zeta; repeat match goal with |- (if ?b then _ else _) = _ -> _ => destruct b; try discriminate end; intros E; injection E as <-; reflexivity. }
  destruct (derivative_nd s q (Z.of_nat n)) as (r & E & Er & Hr). { rewrite Kk. lia. }
  exists r. split; [ exact E | split; [ exact Er | ] ]. intros i Hi. specialize (Hr i Hi).
  destruct (spline_derivative_correct _ _ _ _ _ _ n (get q i) HS Hx HI) as (v & Ev & Dv). { destruct Hn as [Hn | [Hn B]]; [ now left | right; split; [ exact Hn | now apply B ] ]. }
  assert (get r i = v) as -> by congruence. exact Dv.
Qed.
Lemma primitive (a b : R) : is_RInt (spline_call s) a b (spline_antiderivative s b - spline_antiderivative s a).
Proof.
  destruct (spline_antiderivative_correct _ _ _ _ _ _ HS Hx HI) as [HD _]. pose proof (spline_call_continuous _ _ _ _ _ _ HS Hx HI) as HC.
  apply (is_RInt_derive (V := R_CompleteNormedModule) (spline_antiderivative s)); intros; [ apply HD | apply HC ].
Qed.
Lemma antiderivatives_nd q : exists r, spline_antiderivative_nd s q = Ok r /\ shp r = shp q /\ forall i, inside (shp q) i -> is_RInt (spline_call s) (knot k x 0) (get q i) (get r i).
Proof.
  destruct (antiderivative_nd s q) as (r & E & Hs & Hr). exists r. split; [ exact E | split; [ exact Hs | ] ]. intros i Hi. rewrite (Hr i Hi).
  destruct (spline_antiderivative_correct _ _ _ _ _ _ HS Hx HI) as [_ A]. pose proof (primitive (knot k x 0) (get q i)) as P. rewrite A, Rminus_0_r in P. exact P.
Qed.
Lemma integral_numbers a b : exists r, spline_integral_nd s (num0 a) (num0 b) = Ok r /\ shp r = [1%nat] /\ is_RInt (spline_call s) a b (get r [0%nat]).
Proof.
  unfold spline_integral_nd. cbn [bop2 num0 shp get bshape rev bshape_rev bind truth indices].
  match goal with |- context [if Req_EM_T ?u 0 then false else true] => destruct (Req_EM_T u 0) end.
  all: unfold stack2; cbn [shp num0].
  all: destruct (list_eq_dec Nat.eq_dec (@nil nat) []) as [_ | N]; [ cbn [bind] | now destruct N ].
  all: match goal with |- context [spline_antiderivative_nd s ?q] => destruct (antiderivative_nd s q) as (r & E & Hs & Hr) end; rewrite E; cbn [bind].
  all: eexists; split; [ reflexivity | ]; cbn [uop1 diff_last shp get]; rewrite Hs; cbn [shp removelast last app Nat.sub]; split; [ reflexivity | ].
  all: assert (I0 : inside [2%nat] [0%nat]) by (repeat constructor; lia); assert (I1 : inside [2%nat] [1%nat]) by (repeat constructor; lia).
  all: cbn [shp] in Hr; rewrite (Hr _ I0), (Hr _ I1); cbn [hd tl Nat.eqb num0 get].
  - rewrite Rmult_1_l. apply primitive.
  - replace (-1 * (spline_antiderivative s a - spline_antiderivative s b)) with (spline_antiderivative s b - spline_antiderivative s a) by ring. apply primitive.
Qed.
End Built.

Lemma integral_arrays s a b t : bshape (shp b) (shp a) = Some t -> (1 < length (indices t))%nat -> spline_integral_nd s a b = Err ValueError.
Proof.
  intros E L. unfold spline_integral_nd, bop2. rewrite E. cbn [bind]. unfold truth. cbn [shp get]. destruct (indices t) as [ | i [ | j l ]]; cbn [length] in L; try lia. reflexivity.
Qed.
Lemma indices_ones j : exists i, indices (repeat 1%nat j) = [i].
Proof. induction j as [ | j [i IH]]; [ now exists [] | ]. exists (0%nat :: i). cbn [repeat indices seq flat_map]. now rewrite IH. Qed.
Lemma indices_last0 t : indices (t ++ [0%nat]) = [].
Proof.
  induction t as [ | n t IH]; [ reflexivity | ]. cbn [app indices]. rewrite IH. induction (seq 0 n) as [ | m l IHl]; [ reflexivity | exact IHl ].
Qed.
Lemma integral_one s a b j : shp a = repeat 1%nat (Datatypes.S j) -> shp b = repeat 1%nat (Datatypes.S j) -> exists r, spline_integral_nd s a b = Ok r /\ indices (shp r) = [].
Proof.
  intros Sa Sb. unfold spline_integral_nd, bop2. rewrite Sa, Sb, bshape_same. cbn [bind]. unfold truth. cbn [shp get]. destruct (indices_ones (Datatypes.S j)) as [i Ei]. rewrite Ei. cbn [bind].
  assert (G : forall u v sg, shp u = repeat 1%nat (Datatypes.S j) -> shp v = repeat 1%nat (Datatypes.S j) ->
    exists r, bind (stack2 u v) (fun xs => bind (spline_antiderivative_nd s xs) (fun w => Ok (uop1 (fun q => sg * q) (diff_last w)))) = Ok r /\ indices (shp r) = []).
  { intros u v sg Su Sv. unfold stack2. rewrite Su, Sv. destruct (list_eq_dec Nat.eq_dec (repeat 1%nat (Datatypes.S j)) (repeat 1%nat (Datatypes.S j))) as [_ | N]; [ cbn [bind] | now destruct N ].
    match goal with |- context [spline_antiderivative_nd s ?q] => destruct (antiderivative_nd s q) as (r & E & Hs & Hr) end. rewrite E. cbn [bind]. eexists. split; [ reflexivity | ].
    cbn [uop1 diff_last shp]. rewrite Hs. cbn [shp]. replace (last (2%nat :: repeat 1%nat (Datatypes.S j)) 0%nat) with 1%nat; [ apply indices_last0 | ].
    clear. induction j as [ | j IH]; [ reflexivity | exact IH ]. }
  match goal with |- context [if Req_EM_T ?u 0 then false else true] => destruct (Req_EM_T u 0) end; apply G; assumption.
Qed.

Lemma init_nd_vectors solve v w k e co : spline_init_nd solve (vec v) (vec w) k e co = spline_init solve (Array1 v) (Array1 w) k e co.
Proof.
  unfold spline_init_nd. destruct (negb (Z.eqb k 1 || Z.eqb k 2 || Z.eqb k 3)) eqn:K; [ unfold spline_init; now rewrite K | ]. cbn [atleast1 vec shp hd length Nat.eqb andb negb].
  fold (vec v) (vec w). rewrite !flat_vec. destruct (Nat.eqb (length v) (length w)) eqn:L; [ reflexivity | ]. cbn [negb]. unfold spline_init. rewrite K. cbn [atleast_1d]. now rewrite L.
Qed.
Lemma init_nd_rank solve x y k e co : (2 <= length (shp x))%nat \/ (2 <= length (shp y))%nat -> spline_init_nd solve x y k e co = Err AssertionError.
Proof.
  intros H. unfold spline_init_nd. destruct (negb _); [ reflexivity | ]. destruct (negb (Nat.eqb (hd 0%nat (shp (atleast1 x))) (hd 0%nat (shp (atleast1 y))))); [ reflexivity | ].
  assert (A : forall u, (2 <= length (shp u))%nat -> Nat.eqb (length (shp (atleast1 u))) 1 = false).
  { intros u Hu. unfold atleast1. destruct (shp u) as [ | n [ | m t ]] eqn:E; cbn [length] in Hu; try lia. rewrite E. reflexivity. }
  destruct H as [H | H]; rewrite (A _ H); [ reflexivity | now rewrite andb_false_r ].
Qed.
Lemma init_nd_numbers solve a b k e : spline_init_nd solve (num0 a) (num0 b) k e None = Err AssertionError.
Proof.
  unfold spline_init_nd. destruct (negb (Z.eqb k 1 || Z.eqb k 2 || Z.eqb k 3)) eqn:K; [ reflexivity | ]. cbn [atleast1 num0 shp hd length Nat.eqb andb negb].
  unfold flat. cbn [shp get indices seq flat_map map app]. unfold spline_init. rewrite K. cbn [atleast_1d length Nat.eqb negb Nat.ltb Nat.leb].
  destruct (Z.eqb k 1); [ reflexivity | ]. destruct (Z.eqb k 2); reflexivity.
Qed.
