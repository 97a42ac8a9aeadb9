(** * Proofs about InterpolatedUnivariateSpline *)
From Coquelicot Require Import Coquelicot.
From Verif Require Import Np NpLemmas Interp OdeSpec InterpProofs Sparse SparseSpec Spline SplineSpec SplineLists SplineGlue SplineEval SplineSystem SplineQuad SplineLinear SplineSolve.

(** ** polynomials *)
Lemma cubic_d_derive n a b c d t q : is_derive (fun q => cubic_d n a b c d (q - t)) q (cubic_d (S n) a b c d (q - t)).
Proof.
  destruct n as [ | [ | [ | [ | n]]]]; unfold cubic_d, cubic; auto_derive; trivial; ring.
Qed.
Lemma cubic_is_derive_n n a b c d t q : is_derive_n (fun q => cubic a b c d (q - t)) n q (cubic_d n a b c d (q - t)).
Proof.
  revert q. induction n as [ | n IH]; intros q; [ reflexivity | ]. simpl is_derive_n. apply (is_derive_ext (fun q => cubic_d n a b c d (q - t))); [ | apply cubic_d_derive ].
  intros r. symmetry. apply is_derive_n_unique, IH.
Qed.
Lemma cubic_Derive_n n a b c d t q : Derive_n (fun q => cubic a b c d (q - t)) n q = cubic_d n a b c d (q - t).
Proof. apply is_derive_n_unique, cubic_is_derive_n. Qed.
Lemma cubic_d_continuous n a b c d t (q : R) : continuous (fun q => cubic_d n a b c d (q - t)) q.
Proof. apply (ex_derive_continuous (V := R_NormedModule)). eexists. apply cubic_d_derive. Qed.

(** ** what the constructor produces *)
Definition built (k : nat) (natural : bool) (x y co : list R) : Prop :=
  shape k x y co /\ incr x /\
  match k with
  | 1%nat => forall i, (S i < length x)%nat -> el co i = (el y (S i) - el y i) / (el x (S i) - el x i)
  | 2%nat => quad_system x y (el co)
  | _ => cubic_system x y natural (el co)
  end.
Lemma init_built solve k x y e s : solve_ok solve -> degree k -> enough k x y ->
  spline_init solve (Array1 x) (Array1 y) (kz k) e None = Ok s ->
  exists co e', s = Spline (kz k) x y co e' /\ built k (negb (String.eqb e "not-a-knot")) x y co /\ (k = 2%nat -> e = "not-a-knot"%string).
Proof.
  intros HS Hk (Hy & HN & Hx) E. unfold spline_init in E. simpl atleast_1d in E.
  destruct Hk as [-> | [-> | ->]]; [ change (kz 1) with 1%Z in * | change (kz 2) with 2%Z in * | change (kz 3) with 3%Z in * ];
    cbv beta iota delta [Z.eqb Pos.eqb orb negb] in E; rewrite Hy, Nat.eqb_refl in E.
  - destruct (Nat.ltb_spec 1 (length x)); [ | lia ]. injection E as <-. exists (vdiv (diff y) (diff x)), e. split; [ reflexivity | split; [ | intros; lia ]].
    split; [ | split; [ exact Hx | ]].
    + split; [ left; reflexivity | split; [ exact Hy | split; [ exact HN | ]]]. unfold n_coef, vdiv. rewrite len_map2; rewrite !length_diff; lia.
    + intros i Hi. unfold vdiv. rewrite el_map2 by (rewrite !length_diff; lia). rewrite !el_diff by lia. reflexivity.
  - destruct (Nat.ltb_spec 2 (length x)); [ | lia ]. destruct (String.eqb_spec e "not-a-knot") as [-> | ne]; [ | discriminate ]. cbv iota in E.
    rewrite length_quad_knots in E by lia. assert (Es : s = Spline 2 x y (solve (S (length x)) (quad_matrix x) (quad_rhs y)) "not-a-knot") by congruence. subst s. clear E.
    eexists. eexists. split; [ reflexivity | split; [ | reflexivity ]].
    destruct (quad_matrix_rows x ltac:(lia)) as [W _]. destruct (quad_rhs_rows x y ltac:(lia) ltac:(lia)) as [L _].
    destruct (HS (S (length x)) (quad_matrix x) (quad_rhs y) W (quad_invertible x ltac:(lia) Hx) L) as [L' Mv].
    split; [ | split; [ exact Hx | ]].
    + split; [ right; left; reflexivity | split; [ exact Hy | split; [ exact HN | exact L' ]]].
    + apply quad_matvec; (lia || assumption).
  - destruct (Nat.ltb_spec 3 (length x)); [ | lia ]. 
    change (Ok (let e' := if (String.eqb e "natural" || String.eqb e "not-a-knot")%bool then e else "natural"%string in
      Spline 3 x y (solve (length x) (cubic_matrix (String.eqb e' "natural") x) (cubic_rhs x y)) e') = Ok s) in E. cbv zeta in E.
    set (e' := if (String.eqb e "natural" || String.eqb e "not-a-knot")%bool then e else "natural"%string) in *.
    assert (Ee : String.eqb e' "natural" = negb (String.eqb e "not-a-knot")).
    { unfold e'. destruct (String.eqb_spec e "natural") as [-> | n1]; [ reflexivity | ]. simpl. destruct (String.eqb_spec e "not-a-knot") as [-> | n2]; reflexivity. }
    rewrite Ee in E. set (nat := negb (String.eqb e "not-a-knot")) in *. injection E as <-.
    eexists. eexists. split; [ reflexivity | split; [ | intros; lia ]].
    destruct (cubic_matrix_rows x ltac:(lia) nat) as [W _]. destruct (cubic_rhs_rows x y ltac:(lia) ltac:(lia)) as [L _].
    destruct (HS (length x) (cubic_matrix nat x) (cubic_rhs x y) W (cubic_invertible nat x ltac:(lia) Hx) L) as [L' Mv].
    split; [ | split; [ exact Hx | ]].
    + split; [ right; right; reflexivity | split; [ exact Hy | split; [ exact HN | exact L' ]]].
    + apply cubic_matvec; (lia || assumption).
Qed.

Lemma hh_pos k x i : incr x -> (2 <= length x)%nat -> (i < n_pieces k x)%nat -> 0 < hh k x i.
Proof. intros Hx H2 Hi. unfold hh. pose proof (incr_knot k x i (S i) Hx H2 ltac:(lia) ltac:(lia)). lra. Qed.

Section Built.
Variables (k : nat) (natural : bool) (x y co : list R).
Hypothesis HB : built k natural x y co.
Let Hk : degree k. Proof. apply HB. Qed.
Let Hx : incr x. Proof. apply HB. Qed.
Let Hy : length y = length x. Proof. apply HB. Qed.
Let HN : (k < length x)%nat. Proof. apply HB. Qed.
Let H2 : (2 <= length x)%nat. Proof. pose proof Hk as [-> | [-> | ->]]; pose proof HN; lia. Qed.
Let Hs : shape k x y co. Proof. apply HB. Qed.
Let M := n_pieces k x.
Let t := knot k x.
Let PP := P k x y co.

Lemma P_derive n i q : is_derive (PP n i) q (PP (S n) i q).
Proof. apply cubic_d_derive. Qed.
Lemma P_continuous n i (q : R) : continuous (PP n i) q.
Proof. apply cubic_d_continuous. Qed.

(** neighbouring pieces agree up to order k-1 *)
Lemma P_match n i : (n < k)%nat -> (S i < M)%nat -> PP n i (t (S i)) = PP n (S i) (t (S i)).
Proof.
  intros Hn Hi. unfold PP, P, t. replace (knot k x (S i) - knot k x (S i)) with 0 by ring.
  change (knot k x (S i) - knot k x i) with (hh k x i).
  pose proof (hh_pos k x i Hx H2 ltac:(lia)) as P0. pose proof (hh_pos k x (S i) Hx H2 Hi) as P1.
  destruct HB as (_ & _ & Sy). unfold M in Hi. pose proof Hk as [e | [e | e]]; rewrite e in *; unfold n_pieces in Hi; simpl Nat.eqb in Hi; cbv iota in Hi.
  - destruct n as [ | n]; [ | lia ]. simpl. unfold cubic. rewrite Sy by lia. change (el x (S i) - el x i) with (hh 1 x i). field. lra.
  - destruct n as [ | [ | n]]; [ | | lia ].
    + destruct Sy as (_ & _ & Sy). pose proof (Sy i ltac:(lia)) as E. unfold qmid, qrhs in E. simpl. unfold cubic.
      set (h := hh 2 x i) in *. set (h1 := hh 2 x (S i)) in *. set (d0 := dd x i) in *. set (d1 := dd x (S i)) in *. set (b0 := el co i) in *. set (b1 := el co (S i)) in *. set (b2 := el co (S (S i))) in *.
      replace (b1 - b0) with (b1 - b0) by ring. apply Rmult_eq_reg_l with 2; [ | lra ].
      transitivity (2 * el y i - 2 * b0 * d0 - (b1 - b0) * d0 ^ 2 / h + 2 * b0 * h + (b1 - b0) * h); [ field; lra | ].
      transitivity (2 * el y (S i) - 2 * b1 * d1 - (b2 - b1) * d1 ^ 2 / h1); [ | field; lra ].
      replace (2 * el y (S i)) with (2 * el y i + 2 * (el y (S i) - el y i)) by ring. rewrite <- E. field. lra.
    + simpl. field; lra.
  - destruct n as [ | [ | [ | n]]]; [ | | | lia ].
    + simpl. unfold cubic. field. lra.
    + destruct Sy as (_ & _ & Sy). pose proof (Sy i ltac:(lia)) as E. unfold mid_row, mid_rhs in E. change (el x (S (S i)) - el x (S i)) with (hh 3 x (S i)) in E. change (el x (S i) - el x i) with (hh 3 x i) in E.
      simpl. set (h := hh 3 x i) in *. set (h1 := hh 3 x (S i)) in *.
      set (p0 := (el y (S i) - el y i) / h) in *. set (p1 := (el y (S (S i)) - el y (S i)) / h1) in *.
      transitivity (p0 + (el co i + 2 * el co (S i)) * h / 3); [ field; lra | ]. transitivity (p1 - (2 * el co (S i) + el co (S (S i))) * h1 / 3); [ lra | field; lra ].
    + simpl. field; lra.
Qed.

Definition G (n : nat) (q : R) : R := PP n (index k x q) q.
Let Ht : forall i j, (i < j)%nat -> (j <= M)%nat -> t i < t j.
Proof. intros. now apply incr_knot. Qed.
Let Hidx := fun q => index_spec k x q H2 Hx.

Lemma G_continuous n (q : R) : (n < k)%nat -> continuous (G n) q.
Proof. intros Hn. apply (glued_continuous t M (pieces_pos k x H2) Ht (index k x) Hidx (PP n)); [ intros; apply P_continuous | intros; now apply P_match ]. Qed.
Lemma G_derive n q : (S n < k)%nat -> is_derive (G n) q (G (S n) q).
Proof.
  intros Hn. apply (glued_derive t M (pieces_pos k x H2) Ht (index k x) Hidx (PP n) (PP (S n))); [ intros; apply P_derive | intros; apply P_match; (assumption || lia) | intros; apply P_match; (assumption || lia) ].
Qed.
Lemma G_derive_off n q : (n < k)%nat -> ~ breakpoint k x q -> is_derive (G n) q (G (S n) q).
Proof. intros Hn NB. apply (glued_derive_off t M (pieces_pos k x H2) Ht (index k x) Hidx (PP n) (PP (S n))); [ intros; apply P_derive | exact NB ]. Qed.
Lemma G_derive_n n q : (n < k)%nat -> is_derive_n (G 0) n q (G n q).
Proof.
  revert q. induction n as [ | n IH]; intros q Hn; [ reflexivity | ]. simpl is_derive_n. apply (is_derive_ext (G n)); [ | now apply G_derive ].
  intros r. symmetry. apply is_derive_n_unique, IH. lia.
Qed.
Lemma G_derive_n_off q : ~ breakpoint k x q -> is_derive_n (G 0) k q (G k q).
Proof.
  intros NB. pose proof Hk as HK. assert (E : exists m, k = S m) by (destruct HK as [-> | [-> | ->]]; eauto). destruct E as [m E].
  replace (is_derive_n (G 0) k q (G k q)) with (is_derive_n (G 0) (S m) q (G (S m) q)) by now rewrite E.
  simpl is_derive_n. apply (is_derive_ext (G m)); [ | apply G_derive_off; [ lia | exact NB ] ]. intros r. symmetry. apply is_derive_n_unique, G_derive_n. lia.
Qed.
Lemma G_smooth : smooth (k - 1) (G 0).
Proof.
  intros m Hm q. assert (Hmk : (m < k)%nat) by (pose proof Hk as [E | [E | E]]; lia). split.
  - destruct m as [ | m]; [ exact I | ]. exists (G (S m) q). change (is_derive_n (G 0) (S m) q (G (S m) q)). now apply G_derive_n.
  - apply (continuous_ext (G m)); [ intros r; symmetry; now apply is_derive_n_unique, G_derive_n | now apply G_continuous ].
Qed.
(** on the closed piece i the spline is its polynomial *)
Lemma G_piece i q : in_piece k x i q -> G 0 q = PP 0 i q.
Proof.
  intros (Hi & HL & HR). destruct HR as [HR | HR].
  - unfold G. rewrite (idx_unique t M (pieces_pos k x H2) Ht (index k x) Hidx i q); [ reflexivity | exact Hi | exact HL | now left ].
  - destruct (Rle_lt_or_eq_dec _ _ HR) as [L | E].
    + unfold G. rewrite (idx_unique t M (pieces_pos k x H2) Ht (index k x) Hidx i q); [ reflexivity | exact Hi | exact HL | now right ].
    + destruct (Nat.eq_dec (S i) M) as [e | ne].
      * unfold G. rewrite (idx_unique t M (pieces_pos k x H2) Ht (index k x) Hidx i q); [ reflexivity | exact Hi | exact HL | now left ].
      * fold M in Hi. unfold G. rewrite (idx_unique t M (pieces_pos k x H2) Ht (index k x) Hidx (S i) q); [ | lia | right; unfold t; lra | ].
        -- rewrite E. symmetry. apply P_match; [ pose proof Hk as [e | [e | e]]; lia | lia ].
        -- right. rewrite E. apply Ht; lia.
Qed.
Lemma G_piecewise : piecewise k x (G 0).
Proof.
  exists (cA k x y co), (cB k x y co), (cC k x y co), (cD k x y co). split; [ | split ].
  - intros i Hle. unfold cD. pose proof Hk as [-> | [-> | ->]]; [ reflexivity | reflexivity | lia ].
  - intros i Hle. unfold cC. pose proof Hk as [-> | [-> | ->]]; [ reflexivity | lia | lia ].
  - intros i q Hp. rewrite (G_piece i q Hp). reflexivity.
Qed.
Lemma G_interpolates : interpolates x y (G 0).
Proof.
  intros i Hi. pose proof Hk as HK. pose proof HN as HN'.
  destruct (Nat.eq_dec k 2) as [e | ne].
  - assert (IP : in_piece k x i (el x i)). { unfold in_piece. pose proof (knot2_between x i Hx H2 Hi) as B. unfold hh, dd in B. rewrite e. unfold n_pieces. simpl. split; [ exact Hi | split; right; lra ]. }
    rewrite (G_piece i _ IP). pose proof (knot2_between x i Hx H2 Hi) as B. unfold PP, P, cubic_d, cubic, cA, cB, cC, cD. rewrite e. fold (dd x i). field. lra.
  - assert (EM : M = (length x - 1)%nat) by (unfold M, n_pieces; destruct (Nat.eqb_spec k 2); [ contradiction | reflexivity ]).
    assert (EK : forall j, knot k x j = el x j) by (intros j; unfold knot; destruct (Nat.eqb_spec k 2); [ contradiction | reflexivity ]).
    destruct (Nat.eq_dec i (length x - 1)) as [el_ | nl].
    + destruct i as [ | i]; [ lia | ].
      assert (IP : in_piece k x i (el x (S i))). { unfold in_piece. fold M. rewrite EM, !EK. split; [ lia | split; [ right; apply incr_le; (assumption || lia) | left; lia ]]. }
      rewrite (G_piece _ _ IP). unfold PP, P. rewrite EK. pose proof (Hx i (S i) ltac:(lia)) as L.
      pose proof HB as (_ & _ & Sy). destruct HK as [e | [e | e]]; [ | contradiction | ].
      * rewrite e in *. simpl. unfold cubic. rewrite Sy by lia. field. lra.
      * rewrite e in *. simpl. unfold cubic, hh, knot. simpl Nat.eqb. cbv iota. field. lra.
    + assert (IP : in_piece k x i (el x i)). { unfold in_piece. fold M. rewrite EM, !EK. split; [ lia | split; [ right; lra | right; apply incr_le; (assumption || lia) ]]. }
      rewrite (G_piece _ _ IP). unfold PP, P. rewrite EK. destruct HK as [e | [e | e]]; [ | contradiction | ]; rewrite e; simpl; unfold cubic; ring.
Qed.
(** the antiderivative *)
Let QQ := Q k x y co.
Definition GI (q : R) : R := QQ (index k x q) q.
Lemma Q_derive i q : is_derive (QQ i) q (PP 0 i q).
Proof. unfold QQ, Q, w, quart, PP, P, cubic_d, cubic. set (c := Rsum _ _). clearbody c. auto_derive; [ trivial | ]. field. Qed.
Lemma GI_derive q : is_derive GI q (G 0 q).
Proof.
  apply (glued_derive t M (pieces_pos k x H2) Ht (index k x) Hidx QQ (PP 0)); [ intros; apply Q_derive | | intros; apply P_match; [ pose proof Hk as [E | [E | E]]; lia | assumption ] ].
  intros i Hi. unfold QQ, Q. change (Rsum (S i) ?g) with (Rsum i g + g i). unfold t. replace (knot k x (S i) - knot k x (S i)) with 0 by ring. assert (W0 : w k x y co (S i) 0 = 0) by (unfold w, quart; field). rewrite W0. fold (hh k x i). ring.
Qed.
Lemma GI_first : GI (knot k x 0) = 0.
Proof.
  unfold GI. rewrite (idx_unique t M (pieces_pos k x H2) Ht (index k x) Hidx 0); [ | apply pieces_pos, H2 | now left | right; apply Ht; [ lia | pose proof (pieces_pos k x H2); unfold M; lia ] ].
  unfold QQ, Q, w, quart. simpl. field.
Qed.
End Built.
