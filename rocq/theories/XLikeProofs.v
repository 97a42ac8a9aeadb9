(** * The linear algebra of the likelihood is exact on finite matrices *)
From Coquelicot Require Import Coquelicot.
From Verif Require Import FinRules.
From Verif Require Import Np NpLemmas Sparse SparseSpec SparseProofs Likelihood LikelihoodSpec DetProofs2 SparseX HalofitX Ad AdSpec AdLike AdLikeSpec AdLikeFinal AdRel AdJac AdBack AdNan AdNanSpec AdNanProofs FinOps FinNz FinLike XBack XBackSpec XBackProofs XLike.
Import ListNotations.
Local Open Scope R_scope.

(** ** finite arrays *)
Lemma xsum_fins l : xsum (fins l) = Fin (Np.vsum l).
Proof. induction l as [ | x l IH]; [ reflexivity | ]. unfold xsum, fins in *. cbn [map fold_right]. rewrite IH. reflexivity. Qed.
Lemma xel_fins v i : (i < length v)%nat -> xel (fins v) i = Fin (el v i).
Proof. intros H. unfold xel, fins, el. rewrite (nth_indep _ NaN (Fin 0)) by (now rewrite map_length). apply map_nth. Qed.
Lemma xel2_fins n k m i j : wf2 n k m -> (i < n)%nat -> (j < k)%nat -> xel2 (map fins m) i j = Fin (el2 m i j).
Proof.
  intros W Hi Hj. unfold xel2, el2. change (@nil XR) with (fins []). rewrite map_nth. apply xel_fins. now rewrite (wf2_row n k m i W Hi).
Qed.
Lemma fins_tab n f : fins (tab n f) = tab n (fun i => Fin (f i)). Proof. apply map_tab. Qed.
Lemma xmmul_fins n A B : wf2 n n A -> wf2 n n B -> xmmul n (map fins A) (map fins B) = map fins (mmul n A B).
Proof.
  intros WA WB. unfold xmmul, mmul. rewrite map_tab. apply tab_ext. intros i Hi. rewrite fins_tab. apply tab_ext. intros j Hj.
  rewrite <- xsum_fins, fins_tab. f_equal. apply tab_ext. intros k Hk. now rewrite (xel2_fins n n A), (xel2_fins n n B).
Qed.
Lemma wf2_mmul n A B : wf2 n n (mmul n A B). Proof. apply wf2_tab2. Qed.
Lemma xmv_fins M v : xmv (map fins M) (fins v) = fins (mv M v).
Proof.
  unfold xmv, mv, fins at 3. rewrite !map_map. apply map_ext. intros r. unfold vdot. rewrite <- xsum_fins. f_equal. unfold vmul, fins. revert v.
  induction r as [ | x r IH]; intros [ | y v]; try reflexivity. cbn [map map2]. now rewrite IH.
Qed.
Lemma xsub_fins u v : map2 xsub (fins u) (fins v) = fins (vsub u v).
Proof. unfold vsub, fins. revert v. induction u as [ | x u IH]; intros [ | y v]; try reflexivity. cbn [map map2]. now rewrite IH. Qed.

(** ** the solution of a positive definite system is linear in the right-hand side *)
Lemma cho_entries la n m r i : linalg_ok la -> wf2 n n m -> symmetric n m -> pos_def n m -> wf1 n r -> (i < n)%nat ->
  el (la_cho_solve la n m r) i = Rsum n (fun j => el2 (la_inv la n m) i j * el r j).
Proof.
  intros (HI & _ & HC) W S PD Wr Hi. destruct (HC n m r W S PD Wr) as [[_ E] Wy]. destruct (HI n m W (pos_def_invertible PD)) as (_ & _ & H2).
  set (y := la_cho_solve la n m r) in *. set (P := la_inv la n m) in *.
  rewrite (Rsum_ext n _ (fun j => Rsum n (fun l => el2 P i j * el2 m j l * el y l))).
  2:{ intros j Hj. rewrite E by exact Hj. rewrite <- Rsum_scal. apply Rsum_ext. intros l Hl. ring. }
  rewrite Rsum_swap. rewrite (Rsum_ext n _ (fun l => if Nat.eqb l i then el y l else 0)).
  2:{ intros l Hl. rewrite Rsum_scal_r, (H2 i l Hi Hl), Nat.eqb_sym. destruct (Nat.eqb l i); ring. }
  now rewrite Rsum_delta.
Qed.

(** ** jax.jvp *)
Local Notation rd := (fl_rd (floats := floats_x)).
Lemma x_fst x : finite x -> xval x = Fin (x_val x). Proof. intros [[a E] _]. unfold x_val, xval. now rewrite E. Qed.
Lemma x_xtan x : finite x -> xtan x = Fin (x_tan x). Proof. intros [_ [E | [t E]]]; unfold xtan, x_tan; now rewrite E. Qed.
Lemma x_row (f : xdual -> XR) (h : xdual -> R) r : (forall x, finite x -> f x = Fin (h x)) -> (forall y, In y r -> finite y) -> map f r = fins (map h r).
Proof. intros E H. unfold fins. rewrite map_map. apply map_ext_in. intros y Hy. now apply E, H. Qed.
Lemma x_rows (f : xdual -> XR) (h : xdual -> R) M : (forall x, finite x -> f x = Fin (h x)) -> every finite M -> map (map f) M = map fins (map (map h) M).
Proof. intros E H. rewrite map_map. apply map_ext_in. intros r Hr. apply x_row; [ exact E | now apply H ]. Qed.
Lemma rd_v M : map (map (fst (A := R) (B := R))) (map (map rd) M) = map (map x_val) M. Proof. rewrite map_map. apply map_ext. intros r. now rewrite map_map. Qed.
Lemma rd_t M : map (map (snd (A := R) (B := R))) (map (map rd) M) = map (map x_tan) M. Proof. rewrite map_map. apply map_ext. intros r. now rewrite map_map. Qed.
Lemma wf2_map {A} (f g : A -> R) n k (M : list (list A)) : wf2 n k (map (map f) M) -> wf2 n k (map (map g) M).
Proof.
  intros [W1 W2]. rewrite map_length in W1. split; [ now rewrite map_length | ]. intros r Hr. apply in_map_iff in Hr. destruct Hr as (q & <- & Hq).
  rewrite map_length. rewrite <- (map_length f q). apply W2. now apply in_map.
Qed.
Lemma dead_row r j : existsb live r = false -> el (map x_tan r) j = 0.
Proof.
  intros H. unfold el. destruct (Nat.lt_ge_cases j (length (map x_tan r))) as [L | L]; [ | now apply nth_overflow ].
  assert (I := nth_In _ 0 L). apply in_map_iff in I. destruct I as (x & <- & Hx). unfold x_tan. destruct (snd x) as [t | ] eqn:E; [ | reflexivity ].
  exfalso. assert (existsb live r = true); [ | congruence ]. apply existsb_exists. exists x. split; [ exact Hx | unfold live; now rewrite E ].
Qed.
Lemma dead_rows M i j : existsb (existsb live) M = false -> el2 (map (map x_tan) M) i j = 0.
Proof.
  intros H. unfold el2. change (@nil R) with (map x_tan []). rewrite map_nth. destruct (Nat.lt_ge_cases i (length M)) as [L | L]; [ | rewrite (nth_overflow M) by exact L; now destruct j ].
  apply dead_row. destruct (existsb live (nth i M [])) eqn:E; [ | reflexivity ]. assert (existsb (existsb live) M = true); [ | congruence ].
  apply existsb_exists. exists (nth i M []). split; [ now apply nth_In | exact E ].
Qed.
Lemma mmul_0_r n P T i j : (forall i j, (i < n)%nat -> (j < n)%nat -> el2 T i j = 0) -> (i < n)%nat -> (j < n)%nat -> el2 (mmul n P T) i j = 0.
Proof. intros Z Hi Hj. unfold mmul. rewrite el2_tab, vsum_tab by assumption. apply Rsum_0_ext. intros k Hk. rewrite (Z k j) by assumption. ring. Qed.
Lemma mmul_0_l n P T i j : (forall i j, (i < n)%nat -> (j < n)%nat -> el2 T i j = 0) -> (i < n)%nat -> (j < n)%nat -> el2 (mmul n T P) i j = 0.
Proof. intros Z Hi Hj. unfold mmul. rewrite el2_tab, vsum_tab by assumption. apply Rsum_0_ext. intros k Hk. rewrite (Z i k) by assumption. ring. Qed.
Lemma vdot_0 u y : (forall k, el u k = 0) -> vdot u y = 0.
Proof.
  unfold vdot, vmul, Np.vsum. revert y. induction u as [ | a u IH]; intros [ | b y] Z; try reflexivity. cbn [map2 fold_right].
  rewrite IH by (intros k; exact (Z (Datatypes.S k))). specialize (Z 0%nat). cbn in Z. rewrite Z. ring.
Qed.
(** a finite value with a tangent that is there or not *)
Lemma x_pair v (b : bool) t : (b = false -> t = 0) -> finite (Fin v, when b (Fin t)) /\ rd (Fin v, when b (Fin t)) = (v, t).
Proof.
  intros H. destruct b; cbn [when]; (split; [ split; [ now exists v | ] | ]); [ right; now exists t | reflexivity | now left | now rewrite (H eq_refl) ].
Qed.
Lemma map_rd_tab n (f : nat -> xdual) (h : nat -> dual) : (forall i, (i < n)%nat -> finite (f i) /\ rd (f i) = h i) -> every finite [tab n f] /\ map rd (tab n f) = tab n h.
Proof.
  intros H. split.
  - intros r [<- | []] y Hy. apply In_tab in Hy. destruct Hy as (i & Hi & <-). now apply H.
  - rewrite map_tab. apply tab_ext. intros i Hi. now apply H.
Qed.
Lemma map_rd_tab2 n (f : nat -> nat -> xdual) (h : nat -> nat -> dual) : (forall i j, (i < n)%nat -> (j < n)%nat -> finite (f i j) /\ rd (f i j) = h i j) ->
  every finite (tab n (fun i => tab n (f i))) /\ map (map rd) (tab n (fun i => tab n (f i))) = tab n (fun i => tab n (h i)).
Proof.
  intros H. split.
  - intros r Hr y Hy. apply In_tab in Hr. destruct Hr as (i & Hi & <-). apply In_tab in Hy. destruct Hy as (j & Hj & <-). now apply H.
  - rewrite map_tab. apply tab_ext. intros i Hi. now apply (map_rd_tab n (f i) (h i)); auto.
Qed.
Global Instance linalg_x_exact la xl (HO : linalg_ok la) (HX : exact_on_finite la xl) : fl_linalg (FLN := floats_x) la (linalg_x xl).
Proof.
  destruct HX as (XI & XD & XC). constructor; cbn [fl_ok floats_x]; change (fl_v (FLN := floats_x)) with x_val.
  - intros n M FM W I. cbn [ga_inv linalg_x linalg_dual]. assert (EV := x_rows xval x_val M x_fst FM). assert (ET := x_rows xtan x_tan M x_xtan FM). assert (RV := rd_v M). assert (RT := rd_t M). unfold dual in *. rewrite EV, ET, (XI n _ W I), RV, RT.
    set (V := map (map x_val) M) in *. set (T := map (map x_tan) M). assert (WT : wf2 n n T) by (now apply (wf2_map x_val)). assert (WP : wf2 n n (la_inv la n V)) by (now apply HO).
    rewrite !xmmul_fins; try assumption; [ | apply wf2_mmul ]. apply map_rd_tab2. intros i j Hi Hj. rewrite !(xel2_fins n n); try assumption; [ | apply wf2_mmul ].
    cbn [xneg]. apply x_pair. intros D. rewrite mmul_0_l; [ ring | | exact Hi | exact Hj ]. intros k l Hk Hl. apply mmul_0_r; try assumption. intros. now apply dead_rows.
  - intros n M FM W I. cbn [ga_logdet linalg_x linalg_dual]. assert (EV := x_rows xval x_val M x_fst FM). assert (ET := x_rows xtan x_tan M x_xtan FM). assert (RV := rd_v M). assert (RT := rd_t M). unfold dual in *. rewrite EV, ET, (XI n _ W I), (XD n _ W I), RV, RT.
    set (V := map (map x_val) M) in *. set (T := map (map x_tan) M). assert (WT : wf2 n n T) by (now apply (wf2_map x_val)). assert (WP : wf2 n n (la_inv la n V)) by (now apply HO).
    rewrite xmmul_fins by assumption. rewrite (tab_ext n _ (fun i => Fin (el2 (mmul n (la_inv la n V) T) i i))) by (intros i Hi; apply (xel2_fins n n); [ apply wf2_mmul | exact Hi | exact Hi ]).
    rewrite <- fins_tab, xsum_fins. fold (trace n (mmul n (la_inv la n V) T)). apply x_pair. intros D. unfold trace. rewrite vsum_tab. apply Rsum_0_ext. intros i Hi. apply mmul_0_r; try assumption. intros. now apply dead_rows.
  - intros n M r FM FR W S PD Wr. specialize (FR r (or_introl eq_refl)). cbn [ga_cho_solve linalg_x linalg_dual].
    assert (EV := x_rows xval x_val M x_fst FM). assert (ET := x_rows xtan x_tan M x_xtan FM). assert (EV' := x_row xval x_val r x_fst FR). assert (ET' := x_row xtan x_tan r x_xtan FR). assert (RV := rd_v M). assert (RT := rd_t M). assert (RV' := map_map rd fst r : map fst (map rd r) = map x_val r). assert (RT' := map_map rd snd r : map snd (map rd r) = map x_tan r).
    unfold dual in *. rewrite EV, ET, EV', ET', RV, RT.
    rewrite RV', RT'.
    set (V := map (map x_val) M) in *. set (T := map (map x_tan) M). assert (WT : wf2 n n T) by (now apply (wf2_map x_val)).
    rewrite (XC n V _ W S PD Wr), xmv_fins, xsub_fins. set (y := la_cho_solve la n V (map x_val r)). set (b := vsub (map x_tan r) (mv T y)).
    assert (Wb : wf1 n b). { unfold b, wf1, vsub. rewrite len_map2. unfold mv. rewrite !map_length. destruct WT as [LT _]. unfold wf1 in Wr. rewrite map_length in Wr. rewrite Wr, LT. apply Nat.min_id. }
    rewrite (XC n V b W S PD Wb). assert (Ly : length y = n) by (now apply HO). assert (Lb : length (la_cho_solve la n V b) = n) by (now apply HO).
    apply (map_rd_tab n _ (fun i => (el y i, el (la_cho_solve la n V b) i))). intros i Hi. rewrite !xel_fins by lia. apply x_pair. intros D. apply Bool.orb_false_iff in D. destruct D as [D1 D2].
    rewrite (cho_entries la n V b i HO W S PD Wb Hi). apply Rsum_0_ext. intros j Hj. replace (el b j) with 0; [ ring | ]. unfold b. rewrite el_vsub.
    destruct (_ && _)%bool; [ | reflexivity ]. rewrite (dead_row r j D2). unfold mv, el. replace (nth j (map (fun row => vdot row y) T) 0) with (vdot (nth j T []) y) by (symmetry; exact (map_nth (fun row => vdot row y) T [] j)).
    rewrite vdot_0; [ ring | ]. intros k. now apply (dead_rows M j k).
Qed.

(** ** jax.grad *)
Section Reverse.
Variables (K : nat) (w : nat -> R).
Local Notation rb := (xb_rd K w).
(** every ordinary cotangent u is sent to u times the same amounts, whose product with w is s *)
Definition sends (f : pull) (s : R) : Prop :=
  exists p : nat -> R, match f with None => forall q, p q = 0 | Some B => forall u q, B (Fin u) q = Fin (u * p q) end /\ Rsum K (fun q => p q * w q) = s.
Lemma sends_of x : xb_ok x -> sends (snd x) (snd (rb x)).
Proof.
  intros [_ H]. exists (xb_p x). split; [ | reflexivity ]. unfold xb_p, partial in *. destruct (snd x) as [B | ]; [ exact H | reflexivity ].
Qed.
Lemma sends_none : sends None 0. Proof. exists (fun _ => 0). split; [ reflexivity | ]. apply Rsum_0_ext. intros. ring. Qed.
Lemma sends_eq f s t : sends f s -> s = t -> sends f t. Proof. now intros H <-. Qed.
Lemma sends_by k d f s : (forall u, k (Fin u) = Fin (u * d)) -> sends f s -> sends (pby k f) (d * s).
Proof.
  intros HK (p & H & E). exists (fun q => d * p q). split.
  - destruct f as [B | ]; cbn [pby option_map]; [ intros u q; rewrite HK, H; f_equal; ring | intros q; rewrite H; ring ].
  - rewrite <- E, <- Rsum_scal. apply Rsum_ext. intros q _. ring.
Qed.
Lemma sends_plus f h s t : sends f s -> sends h t -> sends (pplus f h) (s + t).
Proof.
  intros (p & H & E) (p' & H' & E'). exists (fun q => p q + p' q). split.
  - destruct f as [B | ], h as [B' | ]; cbn [pplus].
    + intros u q. rewrite H, H'. cbn [xadd]. f_equal. ring.
    + intros u q. rewrite H, H'. f_equal. ring.
    + intros u q. rewrite H', H. f_equal. ring.
    + intros q. rewrite H, H'. ring.
  - rewrite <- E, <- E', <- Rsum_plus. apply Rsum_ext. intros q _. ring.
Qed.
Lemma sends_tab n F s : (forall a, (a < n)%nat -> sends (F a) (s a)) -> sends (psum (tab n F)) (Rsum n s).
Proof.
  revert F s. induction n as [ | n IH]; intros F s H; [ exact sends_none | ]. rewrite tab_S, Rsum_S_l. unfold psum in *. cbn [fold_right].
  apply sends_plus; [ apply H; lia | ]. apply (IH (fun i => F (Datatypes.S i)) (fun i => s (Datatypes.S i))). intros a Ha. apply H. lia.
Qed.
Lemma sends_row (k : XR -> XR -> XR) c row : (forall u b, k (Fin b) (Fin u) = Fin (u * (- c * b))) -> (forall m, In m row -> xb_ok m) -> forall y,
  sends (psum (map2 (fun m yb => pby (k yb) (snd m)) row (fins y))) (- c * vdot (map (fun m => snd (rb m)) row) y).
Proof.
  intros HK. induction row as [ | m row IH]; intros H [ | b y]; try (eapply sends_eq; [ exact sends_none | unfold vdot, vmul, Np.vsum; cbn; ring ]).
  unfold psum in *. cbn [fins map map2 fold_right]. eapply sends_eq; [ apply sends_plus; [ apply (sends_by (k (Fin b)) (- c * b)); [ intros u; apply HK | apply sends_of, H; now left ] | apply IH; intros x Hx; apply H; now right ] | ].
  unfold vdot, vmul, Np.vsum. cbn [map map2 fold_right]. ring.
Qed.
Lemma sends_ok v f s : sends f s -> xb_ok (Fin v, f) /\ rb (Fin v, f) = (v, s).
Proof.
  intros (p & H & E). assert (EQ : forall q, xb_p (Fin v, f) q = p q). { intros q. unfold xb_p, partial. cbn [snd]. destruct f as [B | ]; [ rewrite H; ring | now rewrite H ]. }
  split; [ split; [ now exists v | ] | ].
  - cbn [snd]. destruct f as [B | ]; [ | exact I ]. intros u q. now rewrite H, EQ.
  - unfold xb_rd. cbn [xb_v fst snd]. f_equal. rewrite <- E. apply Rsum_ext. intros q _. now rewrite EQ.
Qed.
Lemma entry M a b : every xb_ok M -> sends (snd (nth b (nth a M []) xnil)) (el2 (map (map (fun m => snd (rb m))) M) a b).
Proof.
  intros H. unfold el2. change (@nil R) with (map (fun m => snd (rb m)) []). rewrite map_nth. unfold el.
  assert (E0 : snd (rb xnil) = 0) by (unfold xb_rd; cbn [snd]; apply Rsum_0_ext; intros; unfold xb_p; cbn; ring). rewrite <- E0. rewrite (map_nth (fun m => snd (rb m))).
  destruct (Nat.lt_ge_cases a (length M)) as [La | La]; [ | rewrite (nth_overflow M) by exact La; destruct b; cbn [nth]; rewrite E0; exact sends_none ].
  destruct (Nat.lt_ge_cases b (length (nth a M []))) as [Lb | Lb]; [ | rewrite (nth_overflow (nth a M [])) by exact Lb; rewrite E0; exact sends_none ].
  apply sends_of. apply (H (nth a M [])); now apply nth_In.
Qed.
Lemma entry1 r a : (forall m, In m r -> xb_ok m) -> sends (snd (nth a r xnil)) (el (map (fun m => snd (rb m)) r) a).
Proof. intros H. apply (entry [r] 0 a). intros q [<- | []]. exact H. Qed.

Lemma xb_bval x : xb_ok x -> bval x = Fin (xb_v x). Proof. apply xfin. Qed.
Lemma xb_row r : (forall y, In y r -> xb_ok y) -> map bval r = fins (map xb_v r).
Proof. intros H. unfold fins. rewrite map_map. apply map_ext_in. intros y Hy. now apply xb_bval, H. Qed.
Lemma xb_rows M : every xb_ok M -> map (map bval) M = map fins (map (map xb_v) M).
Proof. intros H. rewrite map_map. apply map_ext_in. intros r Hr. apply xb_row. now apply H. Qed.
Lemma rb_v M : map (map (fst (A := R) (B := R))) (map (map rb) M) = map (map xb_v) M. Proof. rewrite map_map. apply map_ext. intros r. now rewrite map_map. Qed.
Lemma rb_t M : map (map (snd (A := R) (B := R))) (map (map rb) M) = map (map (fun m => snd (rb m))) M. Proof. rewrite map_map. apply map_ext. intros r. now rewrite map_map. Qed.
Lemma map_rb_tab n (f : nat -> xback) (h : nat -> dual) : (forall i, (i < n)%nat -> xb_ok (f i) /\ rb (f i) = h i) -> every xb_ok [tab n f] /\ map rb (tab n f) = tab n h.
Proof.
  intros H. split.
  - intros r [<- | []] y Hy. apply In_tab in Hy. destruct Hy as (i & Hi & <-). now apply H.
  - rewrite map_tab. apply tab_ext. intros i Hi. now apply H.
Qed.
Lemma map_rb_tab2 n (f : nat -> nat -> xback) (h : nat -> nat -> dual) : (forall i j, (i < n)%nat -> (j < n)%nat -> xb_ok (f i j) /\ rb (f i j) = h i j) ->
  every xb_ok (tab n (fun i => tab n (f i))) /\ map (map rb) (tab n (fun i => tab n (f i))) = tab n (fun i => tab n (h i)).
Proof.
  intros H. split.
  - intros r Hr y Hy. apply In_tab in Hr. destruct Hr as (i & Hi & <-). apply In_tab in Hy. destruct Hy as (j & Hj & <-). now apply H.
  - rewrite map_tab. apply tab_ext. intros i Hi. now apply (map_rb_tab n (f i) (h i)); auto.
Qed.
Lemma linalg_xb_exact la xl : linalg_ok la -> exact_on_finite la xl -> fl_linalg (FLN := floats_xb K w) la (linalg_xb xl).
Proof.
  intros HO (XI & XD & XC). constructor; cbn [fl_ok floats_xb]; change (fl_v (FLN := floats_xb K w)) with xb_v; change (fl_rd (floats := floats_xb K w)) with rb.
  - intros n M FM W I. cbn [ga_inv linalg_xb linalg_dual]. assert (EV := xb_rows M FM). assert (RV := rb_v M). assert (RT := rb_t M). unfold dual in *. rewrite EV, (XI n _ W I), RV, RT.
    set (V := map (map xb_v) M) in *. set (T := map (map (fun m => snd (rb m))) M). assert (WP : wf2 n n (la_inv la n V)) by (now apply HO). set (P := la_inv la n V) in *.
    apply map_rb_tab2. intros i j Hi Hj. rewrite (xel2_fins n n P i j) by assumption. apply sends_ok.
    eapply sends_eq; [ apply (sends_tab n _ (fun a => Rsum n (fun b => - (el2 P i a * el2 P b j) * el2 T a b))); intros a Ha; apply sends_tab; intros b Hb; apply sends_by; [ | now apply entry ]; intros u; rewrite !(xel2_fins n n P) by assumption; cbn [xmul xneg]; f_equal; ring | ].
    unfold mmul at 1. rewrite el2_tab, vsum_tab by assumption. rewrite Rsum_swap. match goal with |- _ = - ?s => replace (- s) with (-1 * s) by ring end. rewrite <- Rsum_scal. apply Rsum_ext. intros b Hb.
    unfold mmul. rewrite el2_tab, vsum_tab by assumption. match goal with |- _ = -1 * (?s * ?p) => replace (-1 * (s * p)) with ((- p) * s) by ring end. rewrite <- Rsum_scal. apply Rsum_ext. intros a Ha. ring.
  - intros n M FM W I. cbn [ga_logdet linalg_xb linalg_dual]. assert (EV := xb_rows M FM). assert (RV := rb_v M). assert (RT := rb_t M). unfold dual in *. rewrite EV, (XI n _ W I), (XD n _ W I), RV, RT.
    set (V := map (map xb_v) M) in *. set (T := map (map (fun m => snd (rb m))) M). assert (WP : wf2 n n (la_inv la n V)) by (now apply HO). set (P := la_inv la n V) in *.
    apply sends_ok.
    eapply sends_eq; [ apply (sends_tab n _ (fun i => Rsum n (fun l => el2 P i l * el2 T l i))); intros i Hi; apply sends_tab; intros l Hl; apply sends_by; [ | now apply entry ]; intros u; rewrite (xel2_fins n n P) by assumption; cbn [xmul]; f_equal; ring | ].
    unfold trace. rewrite vsum_tab. apply Rsum_ext. intros i Hi. unfold mmul. now rewrite el2_tab, vsum_tab.
  - intros n M r FM FR W S PD Wr. specialize (FR r (or_introl eq_refl)). cbn [ga_cho_solve linalg_xb linalg_dual].
    assert (EV := xb_rows M FM). assert (EV' := xb_row r FR). assert (RV := rb_v M). assert (RT := rb_t M).
    assert (RV' := map_map rb fst r : map fst (map rb r) = map xb_v r). assert (RT' := map_map rb snd r : map snd (map rb r) = map (fun m => snd (rb m)) r). unfold dual in *. rewrite EV, EV', RV, RT, RV', RT'.
    set (V := map (map xb_v) M) in *. set (T := map (map (fun m => snd (rb m))) M). assert (WT : wf2 n n T) by (now apply (wf2_map xb_v)).
    rewrite (XC n V _ W S PD Wr). set (y := la_cho_solve la n V (map xb_v r)). set (b := vsub (map (fun m => snd (rb m)) r) (mv T y)). assert (Ly : length y = n) by (now apply HO).
    assert (Wb : wf1 n b). { unfold b, wf1, vsub. rewrite len_map2. unfold mv. rewrite !map_length. destruct WT as [LT _]. unfold wf1 in Wr. rewrite map_length in Wr. rewrite Wr, LT. apply Nat.min_id. }
    apply (map_rb_tab n _ (fun i => (el y i, el (la_cho_solve la n V b) i))). intros i Hi. rewrite xel_fins by lia. apply sends_ok.
    set (P := la_inv la n V). assert (Wu : forall a, wf1 n (unit_vec n a)) by (intros a; unfold unit_vec; apply length_tab).
    assert (EU : forall a, (a < n)%nat -> xel (xl_cho_solve xl n (map fins V) (fins (unit_vec n a))) i = Fin (el2 P i a)).
    { intros a Ha. rewrite (XC n V _ W S PD (Wu a)), xel_fins by (rewrite (proj2 (proj2 (proj2 HO) n V _ W S PD (Wu a))); exact Hi). rewrite (cho_entries la n V (unit_vec n a) i HO W S PD (Wu a) Hi). fold P. f_equal.
      rewrite (Rsum_ext n _ (fun j => if Nat.eqb j a then el2 P i j else 0)); [ now rewrite Rsum_delta | ]. intros j Hj. unfold unit_vec, el at 1. rewrite nth_tab by exact Hj. destruct (Nat.eqb j a); ring. }
    eapply sends_eq; [ apply (sends_tab n _ (fun a => el2 P i a * el (map (fun m => snd (rb m)) r) a + - el2 P i a * vdot (nth a T []) y)) | ].
    + intros a Ha. cbv zeta. rewrite (EU a Ha). apply sends_plus; [ apply sends_by; [ intros u; cbn [xmul]; f_equal; ring | now apply entry1 ] | ].
      eapply sends_eq; [ apply (sends_row (fun yb u => xneg (xmul (xmul (Fin (el2 P i a)) u) yb)) (el2 P i a)) | ].
      * intros u b0. cbn [xmul xneg]. f_equal. ring.
      * intros m Hm. apply (FM (nth a M [])); [ | exact Hm ]. apply nth_In. destruct W as [LW _]. unfold V in LW. rewrite map_length in LW. lia.
      * f_equal. f_equal. unfold T. symmetry. exact (map_nth (map (fun m => snd (rb m))) M [] a).
    + rewrite (cho_entries la n V b i HO W S PD Wb Hi). fold P. apply Rsum_ext. intros a Ha. unfold b. rewrite el_vsub.
      assert (B1 : Nat.ltb a (length (map (fun m => snd (rb m)) r)) = true) by (apply Nat.ltb_lt; unfold wf1 in Wr; rewrite map_length in *; lia).
      assert (B2 : Nat.ltb a (length (mv T y)) = true) by (apply Nat.ltb_lt; unfold mv; rewrite map_length; destruct WT as [LT _]; lia). rewrite B1, B2. cbn [andb].
      replace (el (mv T y) a) with (vdot (nth a T []) y) by (symmetry; exact (map_nth (fun row => vdot row y) T [] a)). ring.
Qed.
End Reverse.
