(** * Proofs about angular_cl *)
From Coq Require Import Permutation.
From Coquelicot Require Import Coquelicot.
From Verif Require Import Np NpLemmas Core Integrate IntegrateSpec SimpsProofs Interp Background BgSpec BgTables BgProofs BgFinal BgFinal2
  Power Redshift RedshiftSpec RedshiftProofs Bias Probes ProbesSpec ProbesProofs ProbesFinal Sparse AngularCl CovSpec CovProofs CovFinal AclSpec.
Opaque chi_table growth_table_ODE growth_table_gamma logspace.

Lemma simps_rows_eq {X} (ord : list X) (g : X -> R -> R) f a b N : Nat.even N = true -> (2 <= N)%nat ->
  (forall x, f x = Ok (map (fun t => map (fun q => g q t) ord) x)) ->
  simps_rows (length ord) f a b N = Ok (map (fun q => simpson (g q) a b N) ord).
Proof.
  intros He HN Hf. unfold simps_rows. rewrite (even_mod N He). cbv zeta. rewrite Hf. cbn [bind]. f_equal.
  destruct (even_half N He) as [M ->]. rewrite linspace_node, map_tab.
  destruct (simps_slices (fun i => map (fun q => g q (node a b (2 * M) i)) ord) M ltac:(lia)) as (-> & -> & ->).
  rewrite map_tab. unfold madd. unfold tab at 1 2 3. rewrite map2_map, map2_diag, map2_map, map2_diag.
  assert (E : forall l, sum0 (length ord) (map (fun x => vadd (vadd (map (fun q => g q (node a b (2 * M) (2 * x))) ord)
      (vscale 4 (map (fun q => g q (node a b (2 * M) (2 * x + 1))) ord))) (map (fun q => g q (node a b (2 * M) (2 * x + 2))) ord)) l) =
    map (fun q => vsum (map (fun x => g q (node a b (2 * M) (2 * x)) + 4 * g q (node a b (2 * M) (2 * x + 1)) + g q (node a b (2 * M) (2 * x + 2))) l)) ord).
  { induction l as [ | x l IH]; [ | cbn [map] ].
    - unfold sum0. simpl. clear. induction ord; simpl; [ reflexivity | f_equal; assumption ].
    - unfold sum0 in *. cbn [fold_right]. rewrite IH. unfold vscale, vadd. rewrite !map_map. rewrite map2_map, map2_diag, map2_map, map2_diag.
      rewrite map2_map, map2_diag. reflexivity. }
  rewrite E. unfold vscale. rewrite map_map. apply map_ext. intros q.
  unfold simpson. replace (2 * M / 2)%nat with M by (rewrite Nat.mul_comm, Nat.div_mul; lia).
  change (map ?h (seq 0 M)) with (tab M h). now rewrite vsum_tab.
Qed.

Lemma mapM_map {A B} (f : A -> res B) (g : A -> B) l : (forall x, In x l -> f x = Ok (g x)) -> mapM f l = Ok (map g l).
Proof.
  induction l as [ | x l IH]; intros Hf; simpl; [ reflexivity | ]. rewrite Hf by now left. cbn [bind]. rewrite IH by (intros; apply Hf; now right). reflexivity.
Qed.

Lemma survey_rows probes c ell z i : (i < n_bins probes)%nat ->
  nth i (concat (map (fun p => tab (n_tracers p) (fun k => map (tracer_kernel p k c ell) z)) probes)) [] = map (survey_kernel probes i c ell) z.
Proof.
  unfold n_bins, survey_kernel. revert i. induction probes as [ | p ps IH]; intros i Hi; simpl in *; [ lia | ].
  rewrite app_length in Hi. destruct (Nat.ltb_spec i (length (bins_of p))) as [L | L].
  - rewrite app_nth1 by (now rewrite length_tab). unfold n_tracers. now rewrite nth_tab.
  - rewrite app_nth2 by (rewrite length_tab; exact L). rewrite length_tab. apply IH. unfold n_tracers. lia.
Qed.
Lemma ordering_bound probes i j : In (i, j) (get_cl_ordering probes) -> (i < n_bins probes)%nat /\ (j < n_bins probes)%nat.
Proof. intros HI. apply (proj1 (ordering_spec probes)) in HI. lia. Qed.

Lemma integrand_rows c probes T nl ell a : reachable c -> _gamma_growth c = false -> probes_ok probes ->
  cl_integrand c probes T nl ell a = Ok (map (fun t => map (fun ij : nat * nat =>
     limber_weight c T nl ell t * survey_kernel probes (fst ij) c ell (1 / t - 1) * survey_kernel probes (snd ij) c ell (1 / t - 1))
     (get_cl_ordering probes)) a).
Proof.
  intros Hr Hg [_ Hok]. unfold cl_integrand.
  rewrite (mapM_map _ (fun p => tab (n_tracers p) (fun k => map (tracer_kernel p k c ell) (map a2z a)))) by (intros p Hp; apply kernel_rows; auto).
  cbn [bind]. f_equal. unfold vstack.
  match goal with |- _ = map ?f a => rewrite (map_tab_nth f a 0) end. apply tab_ext. intros q Hq. rewrite map_map. rewrite map_map.
  apply map_ext_in. intros [i j] Hij. destruct (ordering_bound _ _ _ Hij) as [Hi Hj]. simpl fst; simpl snd.
  rewrite !survey_rows by assumption. unfold vmul, vdiv. rewrite map_map.
  assert (EP : map2 (fun kk aa => nonlinear_matter_power c kk aa T nl) (map (fun x => (ell + 0.5) / clip_lo x 1.0) (map (chi c) a)) a =
               map (fun t => nl c ((ell + 1 / 2) / Rmax (chi c t) 1) t T) a).
  { rewrite map_map. rewrite <- (map_id a) at 2. rewrite map2_map, map2_diag. apply map_ext. intros t.
    unfold nonlinear_matter_power, clip_lo. replace 0.5 with (1 / 2) by lra. replace 1.0 with 1 by lra. reflexivity. }
  rewrite map_map in EP. rewrite EP. rewrite !map_map. rewrite map2_map, map2_diag. rewrite map2_map, map2_diag, map2_map, map2_diag, map2_map, map2_diag.
  unfold el. rewrite nth_map_lt with (d := 0) by exact Hq.
  unfold limber_weight, clip_lo, a2z, dchioverda, const_rh. replace 1.0 with 1 by lra. unfold Rdiv. ring.
Qed.

Lemma angular_rows c ells probes T nl : reachable c -> _gamma_growth c = false -> probes_ok probes ->
  angular_cl c (Array1 ells) probes T nl =
  Ok (map (fun ij : nat * nat => map (spectrum c T nl probes (fst ij) (snd ij)) ells) (get_cl_ordering probes)).
Proof.
  intros Hr Hg Hok. unfold angular_cl.
  rewrite (mapM_map probe_zmax (fun p => zmax_of (bins_of p))).
  2: { intros p Hp. apply pymax_list_max. destruct (proj2 Hok p Hp) as [B _]. destruct (bins_of p); [ congruence | discriminate ]. }
  cbn [bind]. rewrite pymax_list_max by (destruct probes; [ now destruct Hok | discriminate ]). cbn [bind]. fold (survey_zmax probes).
  rewrite (mapM_map _ (fun ell => map (fun ij : nat * nat => spectrum c T nl probes (fst ij) (snd ij) ell) (get_cl_ordering probes))).
  - cbn [bind]. f_equal. unfold stack1. rewrite (map_tab_nth _ (get_cl_ordering probes) (0, 0)%nat). apply tab_ext. intros s Hs.
    rewrite map_map. apply map_ext. intros ell. now rewrite nth_map_lt with (d := (0, 0)%nat).
  - intros ell _. unfold cl_one. rewrite (simps_rows_eq (get_cl_ordering probes) (fun ij t => 
      limber_weight c T nl ell t * survey_kernel probes (fst ij) c ell (1 / t - 1) * survey_kernel probes (snd ij) c ell (1 / t - 1))).
    + cbn [bind]. f_equal. rewrite map_map. apply map_ext. intros ij. unfold spectrum, limber, const_c. rewrite z2a_eq. replace 1.0 with 1 by lra. reflexivity.
    + reflexivity.
    + lia.
    + intros x. now apply integrand_rows.
Qed.

(** ** C24 *)
Lemma tracer_total probes i : (i < n_bins probes)%nat -> exists p k, tracer probes i = Some (p, k) /\ In p probes /\ (k < length (bins_of p))%nat.
Proof.
  unfold n_bins. revert i. induction probes as [ | p ps IH]; intros i Hi; simpl in *; [ lia | ]. rewrite app_length in Hi.
  destruct (Nat.ltb_spec i (length (bins_of p))) as [L | L]; [ exists p, i; auto | ].
  destruct (IH (i - length (bins_of p))%nat ltac:(lia)) as (q & k & E & HI & HK). exists q, k. auto.
Qed.
Lemma angular_pairs c ells probes T nl : reachable c -> _gamma_growth c = false -> probes_ok probes ->
  exists rows, angular_cl c (Array1 ells) probes T nl = Ok rows /\ wf2 (length (get_cl_ordering probes)) (length ells) rows /\
  forall s i j l, nth_error (get_cl_ordering probes) s = Some (i, j) -> (l < length ells)%nat ->
  exists p k q m, tracer probes i = Some (p, k) /\ tracer probes j = Some (q, m) /\
    el2 rows s l = limber c T nl (survey_zmax probes) (el ells l) (tracer_kernel p k c (el ells l)) (tracer_kernel q m c (el ells l)).
Proof.
  intros Hr Hg Hok. rewrite angular_rows by assumption. eexists. split; [ reflexivity | ]. split.
  - split; [ apply map_length | ]. intros row Hrow. apply in_map_iff in Hrow. destruct Hrow as (ij & <- & _). apply map_length.
  - intros s i j l Hs Hl. destruct (ordering_bound probes i j (nth_error_In _ _ Hs)) as [Hi Hj].
    destruct (tracer_total probes i Hi) as (p & k & Ep & _). destruct (tracer_total probes j Hj) as (q & m & Eq & _).
    exists p, k, q, m. split; [ exact Ep | split; [ exact Eq | ]]. unfold el2.
    assert (Ls : (s < length (get_cl_ordering probes))%nat) by (apply nth_error_Some; congruence).
    rewrite nth_map_lt with (d := (0, 0)%nat) by exact Ls. rewrite (nth_of_nth_error _ _ _ (0, 0)%nat Hs). simpl fst; simpl snd.
    rewrite nth_map_lt with (d := 0) by exact Hl. fold (el ells l). unfold spectrum, survey_kernel. rewrite Ep, Eq. reflexivity.
Qed.
Lemma limber_sym c T nl zm ell K1 K2 : limber c T nl zm ell K1 K2 = limber c T nl zm ell K2 K1.
Proof. unfold limber. f_equal. apply simpson_ext. intros. ring. Qed.
Lemma fold_max_perm l m : forall x y, Permutation (x :: l) (y :: m) -> fold_right Rmax x l = fold_right Rmax y m.
Proof.
  intros x y HP. pose proof (list_max_spec (x :: l) ltac:(discriminate)) as [A B]. pose proof (list_max_spec (y :: m) ltac:(discriminate)) as [C E].
  simpl list_max in *. apply Rle_antisym.
  - apply E. now apply (Permutation_in _ HP).
  - apply B. now apply (Permutation_in _ (Permutation_sym HP)).
Qed.
Lemma survey_zmax_perm ps qs : Permutation ps qs -> survey_zmax ps = survey_zmax qs.
Proof.
  intros HP. unfold survey_zmax. pose proof (Permutation_map (fun p => zmax_of (bins_of p)) HP) as HM.
  destruct (map _ ps) as [ | x l]; destruct (map _ qs) as [ | y m]; try reflexivity.
  - symmetry in HM. apply Permutation_sym, Permutation_nil in HM. discriminate.
  - apply Permutation_sym, Permutation_nil in HM. discriminate.
  - now apply fold_max_perm.
Qed.

(** reordering the probes: the same pair of tracers has the same spectrum *)
Lemma angular_reorder c ells ps qs T nl rs rs' : reachable c -> _gamma_growth c = false -> probes_ok ps -> Permutation ps qs ->
  angular_cl c (Array1 ells) ps T nl = Ok rs -> angular_cl c (Array1 ells) qs T nl = Ok rs' ->
  forall s i j s' i' j' l, nth_error (get_cl_ordering ps) s = Some (i, j) -> nth_error (get_cl_ordering qs) s' = Some (i', j') ->
  (l < length ells)%nat ->
  (tracer ps i = tracer qs i' /\ tracer ps j = tracer qs j') \/ (tracer ps i = tracer qs j' /\ tracer ps j = tracer qs i') ->
  el2 rs s l = el2 rs' s' l.
Proof.
  intros Hr Hg Hok HP E1 E2 s i j s' i' j' l Hs Hs' Hl HT.
  assert (Hok' : probes_ok qs).
  { destruct Hok as [H1 H2]. split; [ intros ->; apply Permutation_sym, Permutation_nil in HP; congruence | ].
    intros p Hp. apply H2. now apply (Permutation_in _ (Permutation_sym HP)). }
  destruct (angular_pairs c ells ps T nl Hr Hg Hok) as (r1 & F1 & _ & V1). rewrite F1 in E1. injection E1 as <-.
  destruct (angular_pairs c ells qs T nl Hr Hg Hok') as (r2 & F2 & _ & V2). rewrite F2 in E2. injection E2 as <-.
  destruct (V1 s i j l Hs Hl) as (p & k & q & m & A1 & A2 & ->). destruct (V2 s' i' j' l Hs' Hl) as (p' & k' & q' & m' & B1 & B2 & ->).
  rewrite (survey_zmax_perm ps qs HP). destruct HT as [[T1 T2] | [T1 T2]]; rewrite A1, ?B1, ?B2 in T1; rewrite A2, ?B1, ?B2 in T2;
    injection T1 as <- <-; injection T2 as <- <-; [ reflexivity | apply limber_sym ].
Qed.

(** ** C25 *)
Lemma simpson_Rsum2 n (F : nat -> nat -> R -> R) a b N :
  simpson (fun x => Rsum n (fun i => Rsum n (fun j => F i j x))) a b N = Rsum n (fun i => Rsum n (fun j => simpson (F i j) a b N)).
Proof. rewrite simpson_Rsum. apply Rsum_ext. intros i _. apply simpson_Rsum. Qed.
Lemma Rsum_square n (f : nat -> R) : Rsum n (fun i => Rsum n (fun j => f i * f j)) = Rsum n f ^ 2.
Proof.
  transitivity (Rsum n (fun i => f i * Rsum n f)); [ apply Rsum_ext; intros i _; now rewrite Rsum_scal | ]. rewrite Rsum_scal_r. ring.
Qed.
Lemma spectra_psd c T nl probes ell n : -1 < survey_zmax probes -> 0 <= survey_zmax probes -> 
  (forall a, 1 / (1 + survey_zmax probes) <= a <= 1 -> 0 <= nl c ((ell + 1 / 2) / Rmax (chi c a) 1) a T) ->
  psdf n (fun i j => spectrum c T nl probes i j ell).
Proof.
  intros Hz Hz0 Hp x. unfold quadf, spectrum, limber. set (zm := survey_zmax probes) in *.
  set (K := fun i a => survey_kernel probes i c ell (1 / a - 1)).
  replace (Rsum n (fun i => Rsum n (fun j => x i * (simpson (fun a => limber_weight c T nl ell a * survey_kernel probes i c ell (1 / a - 1) *
      survey_kernel probes j c ell (1 / a - 1)) (1 / (1 + zm)) 1 512 / 299792.458 ^ 2) * x j)))
    with (simpson (fun a => limber_weight c T nl ell a * Rsum n (fun i => x i * K i a) ^ 2) (1 / (1 + zm)) 1 512 * / 299792.458 ^ 2).
  - apply Rmult_le_pos; [ | left; apply Rinv_0_lt_compat, pow_lt; lra ].
    assert (A : 1 / (1 + zm) <= 1).
    { apply Rmult_le_reg_r with (1 + zm); [ lra | ]. unfold Rdiv. rewrite Rmult_assoc, Rinv_l by lra. lra. }
    assert (A0 : 0 < 1 / (1 + zm)) by (apply Rdiv_lt_0_compat; lra).
    apply simpson_nonneg; [ exact A | lia | ]. intros i Hi. apply Rmult_le_pos; [ | apply pow2_ge_0 ].
    pose proof (node_between (1 / (1 + zm)) 1 512 i ltac:(lia) Hi) as N. rewrite Rmin_left, Rmax_right in N by assumption.
    set (a := node _ _ _ _) in *. unfold limber_weight. apply Rmult_le_pos.
    + apply Rmult_le_pos; [ now apply Hp | ]. apply Rmult_le_pos; [ lra | ].
      assert (P : 0 <= a ^ 2 * sqrt (Esqr c a)) by (apply Rmult_le_pos; [ apply pow2_ge_0 | apply sqrt_pos ]).
      destruct P as [P | P]; [ left; now apply Rinv_0_lt_compat | rewrite <- P, Rinv_0; lra ].
    + left. apply Rinv_0_lt_compat. eapply Rlt_le_trans; [ | apply Rmax_r ]. lra.
  - transitivity (simpson (fun a => Rsum n (fun i => Rsum n (fun j => limber_weight c T nl ell a * (x i * K i a) * (x j * K j a)))) (1 / (1 + zm)) 1 512 * / 299792.458 ^ 2).
    + f_equal. apply simpson_ext. intros i _. rewrite <- Rsum_square. rewrite <- Rsum_scal. apply Rsum_ext. intros u _.
      rewrite <- Rsum_scal. apply Rsum_ext. intros v _. ring.
    + rewrite simpson_Rsum2. rewrite <- Rsum_scal_r. apply Rsum_ext. intros u _. rewrite <- Rsum_scal_r. apply Rsum_ext. intros v _.
      unfold Rdiv. rewrite (simpson_ext _ (fun a => (x u * x v) * (limber_weight c T nl ell a * K u a * K v a))) by (intros; ring).
      rewrite simpson_scal. unfold K, Rdiv. ring.
Qed.
Lemma psd_cauchy n S i j : psdf n S -> symf n S -> (i < n)%nat -> (j < n)%nat -> 0 <= S i i /\ S i j ^ 2 <= S i i * S j j.
Proof.
  intros HP HS Hi Hj.
  assert (Q1 : forall s, quadf n S (fun k => if Nat.eqb k i then s else 0) = s * s * S i i).
  { intros s. unfold quadf. rewrite (Rsum_ext _ _ (fun u => if Nat.eqb u i then s * s * S u i else 0)).
    - now rewrite (Rsum_delta n i (fun u => s * s * S u i)).
    - intros u _. destruct (Nat.eqb u i); [ | apply Rsum_0_ext; intros; ring ].
      rewrite (Rsum_ext _ _ (fun v => if Nat.eqb v i then s * S u v * s else 0)) by (intros v _; destruct (Nat.eqb v i); ring).
      rewrite Rsum_delta by assumption. ring. }
  assert (P0 : 0 <= S i i) by (pose proof (HP (fun k => if Nat.eqb k i then 1 else 0)) as Q; rewrite Q1 in Q; lra).
  split; [ exact P0 | ]. destruct (Nat.eq_dec i j) as [<- | Hij]; [ nra | ].
  assert (Q2 : forall s t, quadf n S (fun k => (if Nat.eqb k i then s else 0) + (if Nat.eqb k j then t else 0)) =
     s * s * S i i + s * t * (S i j + S j i) + t * t * S j j).
  { intros s t. unfold quadf.
    rewrite (Rsum_ext _ _ (fun u => (if Nat.eqb u i then s * (s * S u i + t * S u j) else 0) + (if Nat.eqb u j then t * (s * S u i + t * S u j) else 0))).
    - rewrite Rsum_plus, (Rsum_delta n i (fun u => s * (s * S u i + t * S u j))), (Rsum_delta n j (fun u => t * (s * S u i + t * S u j))) by assumption. ring.
    - intros u _. set (xu := (if Nat.eqb u i then s else 0) + (if Nat.eqb u j then t else 0)).
      rewrite (Rsum_ext _ _ (fun v => (if Nat.eqb v i then xu * S u v * s else 0) + (if Nat.eqb v j then xu * S u v * t else 0)))
        by (intros v _; destruct (Nat.eqb v i), (Nat.eqb v j); ring).
      rewrite Rsum_plus, !Rsum_delta by assumption. unfold xu. destruct (Nat.eqb u i), (Nat.eqb u j); ring. }
  pose proof (HS i j Hi Hj) as E.
  assert (F : forall s t, 0 <= s * s * S i i + s * t * (2 * S i j) + t * t * S j j).
  { intros s t. pose proof (HP (fun k => (if Nat.eqb k i then s else 0) + (if Nat.eqb k j then t else 0))) as Q. rewrite Q2, <- E in Q. lra. }
  destruct (Req_dec (S i i) 0) as [Z | Z].
  - rewrite Z in *. pose proof (F 1 0). pose proof (F (- (S j j + 1)) (2 * S i j)). pose proof (F ((S j j + 1)) (2 * S i j)).
    pose proof (F 0 1). assert (0 <= S j j) by lra. nra.
  - pose proof (F (- S i j) (S i i)). assert (0 < S i i) by lra.
    assert (0 <= S i i * (S i i * S j j - S i j ^ 2)) by (ring_simplify; ring_simplify in H; lra). nra.
Qed.
