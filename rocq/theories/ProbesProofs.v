(** * Proofs about probes.py *)
From Coq Require Import Sorting.Sorted Permutation.
From Coquelicot Require Import Coquelicot.
From Verif Require Import Np NpLemmas Core Integrate IntegrateSpec SimpsProofs Interp Background BgSpec BgTables BgGrowth BgProofs BgFinal BgFinal2
  BgFinal4 Redshift RedshiftSpec RedshiftProofs CoreProofs Bias Probes ProbesSpec.

Lemma chi_table_gamma Oc Ob h ns s8 Ok_ w0 wa g gg x y g' gg' x' y' la n :
  chi_table (Cosmology Oc Ob h ns s8 Ok_ w0 wa g gg x y) la n = chi_table (Cosmology Oc Ob h ns s8 Ok_ w0 wa g' gg' x' y') la n.
Proof. reflexivity. Qed.
Lemma ODE_table_gamma Oc Ob h ns s8 Ok_ w0 wa g gg x y g' gg' x' y' la n :
  growth_table_ODE (Cosmology Oc Ob h ns s8 Ok_ w0 wa g gg x y) la n = growth_table_ODE (Cosmology Oc Ob h ns s8 Ok_ w0 wa g' gg' x' y') la n.
Proof. reflexivity. Qed.
Opaque chi_table growth_table_ODE growth_table_gamma logspace.

(** ** the jit boundary does not change background values *)
Lemma jit_background c : reachable c -> _gamma_growth c = false -> exists d, cosmo_jit c = Ok d /\
  (forall a, chi d a = chi c a) /\ (forall a, D d a = D c a) /\ (forall a, H d a = H c a) /\ Omega_m d = Omega_m c.
Proof.
  intros Hr Hg. destruct (reachable_inv c Hr) as (c0 & _ & HI).
  destruct (jit_without_gamma c Hg) as (d & Ed & E). exists d. split; [ exact Ed | ].
  assert (HD : inv_ws d d) by (apply inv_fresh, E).
  assert (ET : chi_table d (-3) 256 = chi_table c0 (-3) 256 /\ gtab_of d = gtab_of c0 /\ (forall a, H d a = H c a) /\ Omega_m d = Omega_m c).
  { destruct HI as (x & y & -> & _). destruct c0 as [Oc Ob h ns s8 Ok_ w0 wa g gg wc wg]. simpl in Hg. subst gg.
    injection Ed as <-. split; [ apply chi_table_gamma | ]. split; [ | split; reflexivity ].
    unfold gtab_of, make_cosmology. cbn [_gamma_growth]. now rewrite (ODE_table_gamma _ _ _ _ _ _ _ _ None false None None g false wc wg). }
  destruct ET as (E1 & E2 & E3 & E4). split; [ | split; [ | split; [ exact E3 | exact E4 ]]].
  - intros a. rewrite (chi_value d d a HD), (chi_value c0 c a HI). unfold chi_of. now rewrite E1.
  - intros a. rewrite (D_value d d a HD), (D_value c0 c a HI). unfold D_of. now rewrite E2.
Qed.

(** ** the inverse permutation *)
Lemma insert_perm p l : Permutation (insert_by p l) (p :: l).
Proof.
  induction l as [ | q l IH]; simpl; [ reflexivity | ]. destruct (Nat.leb _ _); [ reflexivity | ].
  rewrite IH. apply perm_swap.
Qed.
Lemma sort_perm l : Permutation (fold_right insert_by [] l) l.
Proof. induction l as [ | p l IH]; simpl; [ reflexivity | ]. rewrite insert_perm. now constructor. Qed.
Definition fst_le (p q : nat * nat) : Prop := (fst p <= fst q)%nat.
Lemma insert_sorted p l : StronglySorted fst_le l -> StronglySorted fst_le (insert_by p l).
Proof.
  induction 1 as [ | q l HS IH HF]; simpl; [ repeat constructor | ].
  destruct (Nat.leb_spec (fst p) (fst q)) as [Hpq | Hpq].
  - constructor; [ now constructor | ]. constructor; [ exact Hpq | ]. eapply Forall_impl; [ | exact HF ]. unfold fst_le. intros; lia.
  - constructor; [ exact IH | ]. rewrite Forall_forall. intros r Hr. apply (Permutation_in r (insert_perm p l)) in Hr.
    destruct Hr as [<- | Hr]; [ unfold fst_le; lia | ]. rewrite Forall_forall in HF. now apply HF.
Qed.
Lemma sort_sorted l : StronglySorted fst_le (fold_right insert_by [] l).
Proof. induction l; simpl; [ constructor | now apply insert_sorted ]. Qed.
Lemma sorted_fst l : StronglySorted fst_le l -> StronglySorted le (map fst l).
Proof.
  induction 1 as [ | q l HS IH HF]; simpl; constructor; [ exact IH | ]. rewrite Forall_forall in *. intros x Hx.
  apply in_map_iff in Hx. destruct Hx as (r & <- & Hr). now apply HF.
Qed.
Lemma sorted_unique (l : list nat) : forall m, StronglySorted le l -> StronglySorted le m -> Permutation l m -> l = m.
Proof.
  induction l as [ | x l IH]; intros m Hl Hm HP.
  - now apply Permutation_nil in HP.
  - destruct m as [ | y m]; [ symmetry in HP; now apply Permutation_nil in HP | ].
    inversion Hl as [ | ? ? Hl1 Hl2]; inversion Hm as [ | ? ? Hm1 Hm2]; subst. rewrite Forall_forall in Hl2, Hm2.
    assert (x = y).
    { pose proof (Permutation_in y (Permutation_sym HP) (or_introl eq_refl)) as A.
      pose proof (Permutation_in x HP (or_introl eq_refl)) as B.
      destruct A as [A | A]; [ exact A | ]. destruct B as [B | B]; [ now symmetry | ]. apply Hl2 in A. apply Hm2 in B. lia. }
    subst y. f_equal. apply IH; auto. now apply Permutation_cons_inv in HP.
Qed.
Lemma seq_sorted n : forall s, StronglySorted le (seq s n).
Proof. induction n; intros s; simpl; constructor; [ apply IHn | ]. rewrite Forall_forall. intros x Hx. apply in_seq in Hx. lia. Qed.

Lemma map_fst_combine (l : list nat) : forall m : list nat, length l = length m -> map fst (combine l m) = l.
Proof. induction l as [ | x l IH]; intros [ | y m] H; simpl in *; try discriminate; [ reflexivity | ]. f_equal. apply IH. congruence. Qed.
Lemma argsort_inverse l i : Permutation l (seq 0 (length l)) -> (i < length l)%nat ->
  (nth i (argsort l) 0 < length l)%nat /\ nth (nth i (argsort l) 0%nat) l 0%nat = i.
Proof.
  intros HP Hi. unfold argsort. set (c := combine l (seq 0 (length l))). set (s := fold_right insert_by [] c).
  assert (Lc : length c = length l) by (unfold c; rewrite combine_length, seq_length; lia).
  assert (Ps : Permutation s c) by apply sort_perm.
  assert (Ls : length s = length l) by (rewrite (Permutation_length Ps); exact Lc).
  assert (F : map fst s = seq 0 (length l)).
  { apply sorted_unique; [ apply sorted_fst, sort_sorted | apply seq_sorted | ].
    rewrite (Permutation_map fst Ps). unfold c. rewrite map_fst_combine by (now rewrite seq_length). exact HP. }
  assert (E1 : fst (nth i s (0, 0)%nat) = i).
  { rewrite <- (map_nth fst s (0, 0)%nat i). rewrite F. now rewrite seq_nth. }
  assert (E2 : nth i (map snd s) 0%nat = snd (nth i s (0, 0)%nat)) by (rewrite <- (map_nth snd s (0, 0)%nat i); reflexivity).
  assert (I : In (nth i s (0, 0)%nat) c) by (apply (Permutation_in _ Ps), nth_In; lia).
  rewrite E2. destruct (In_nth c _ (0, 0)%nat I) as (q & Hq & Eq). unfold c in Eq at 1.
  rewrite combine_nth in Eq by (now rewrite seq_length). rewrite <- Eq in E1 |- *. simpl in *.
  rewrite seq_nth in * by lia. split; [ lia | exact E1 ].
Qed.
Lemma length_argsort l : length (argsort l) = length l.
Proof.
  unfold argsort. rewrite map_length. rewrite (Permutation_length (sort_perm _)). rewrite combine_length, seq_length. lia.
Qed.

Lemma idx_where_filter {A} (test : A -> bool) (d : A) l : idx_where test l = filter (fun i => test (nth i l d)) (seq 0 (length l)).
Proof.
  unfold idx_where. assert (G : forall l s, map fst (filter (fun p => test (snd p)) (combine (seq s (length l)) l)) =
    filter (fun i => test (nth (i - s) l d)) (seq s (length l))).
  { clear l. induction l as [ | x l IH]; intros s; simpl; [ reflexivity | ]. rewrite Nat.sub_diag.
    assert (T : filter (fun i => test (match (i - s)%nat with 0%nat => x | S m => nth m l d end)) (seq (S s) (length l)) =
                filter (fun i => test (nth (i - S s) l d)) (seq (S s) (length l))).
    { apply filter_ext_in. intros i Hi. apply in_seq in Hi. replace (i - s)%nat with (S (i - S s)) by lia. reflexivity. }
    rewrite T, <- IH. destruct (test x); reflexivity. }
  rewrite G. apply filter_ext. intros i. now rewrite Nat.sub_0_r.
Qed.
Lemma filter_split {A} (f : A -> bool) l : Permutation (filter (fun x => negb (f x)) l ++ filter f l) l.
Proof.
  induction l as [ | x l IH]; simpl; [ reflexivity | ]. destruct (f x); simpl; [ | now constructor ].
  rewrite <- Permutation_middle. now constructor.
Qed.

(** ** lensing rows come back in bin order *)
Lemma z2a_eq z : z2a z = 1 / (1 + z).
Proof. unfold z2a. replace 1.0 with 1 by lra. reflexivity. Qed.
Lemma ell_factor_spin2 ell : ell_factor ell = spin2 ell.
Proof.
  unfold ell_factor, spin2. replace 0.5 with (1 / 2) by lra. f_equal. f_equal. ring.
Qed.
Lemma pymax_list_max l : l <> [] -> pymax l = Ok (list_max l).
Proof.
  destruct l as [ | x l]; [ congruence | ]. intros _. simpl. f_equal. rewrite <- fold_left_rev_right.
  assert (G : forall m x, fold_right (fun y z => Rmax z y) x m = fold_right Rmax x m).
  { induction m; intros; simpl; [ reflexivity | ]. rewrite IHm. apply Rmax_comm. }
  assert (P : forall l m x, Permutation l m -> fold_right Rmax x l = fold_right Rmax x m).
  { induction 1; simpl; [ reflexivity | now f_equal | | congruence ].
    rewrite !Rmax_assoc. f_equal. apply Rmax_comm. }
  rewrite G. apply P. symmetry. apply Permutation_rev.
Qed.
Lemma list_max_spec l : l <> [] -> In (list_max l) l /\ forall x, In x l -> x <= list_max l.
Proof.
  destruct l as [ | x l]; [ congruence | ]. intros _. simpl. induction l as [ | y l [IH1 IH2]]; simpl; [ split; [ now left | intros z [<- | []]; lra ] | ].
  split.
  - destruct (Rle_dec y (fold_right Rmax x l)); [ rewrite Rmax_right by assumption; tauto | rewrite Rmax_left by lra; tauto ].
  - intros z [<- | [<- | Hz]]; [ | apply Rmax_l | ].
    + eapply Rle_trans; [ apply IH2; now left | apply Rmax_r ].
    + eapply Rle_trans; [ apply IH2; now right | apply Rmax_r ].
Qed.

Section Rows.
Variables (c d : cosmology).
Hypothesis Echi : forall a, chi d a = chi c a.
Hypothesis ED : forall a, D d a = D c a.
Hypothesis EH : forall a, H d a = H c a.
Hypothesis EO : Omega_m d = Omega_m c.

Lemma bias_jit b z : bias_at b d z = bias_at b c z.
Proof. destruct b; simpl; rewrite ?ED; reflexivity. Qed.
Lemma ratio_jit z z' : clip_lo (chi d (z2a z') - chi d (z2a z)) 0 / clip_lo (chi d (z2a z')) 1.0 = distance_ratio c z z'.
Proof. rewrite !Echi, !z2a_eq. unfold clip_lo, distance_ratio, dist. replace 1.0 with 1 by lra. reflexivity. Qed.
Lemma extended_jit zm b z : is_delta b = false ->
  wl_extended d zm (nz_jit b) z = (1 + z) * dist c z * efficiency c zm b z.
Proof.
  intros Hb. unfold wl_extended. rewrite simps256. rewrite Echi, z2a_eq. fold (dist c z).
  replace (efficiency c zm b z) with (simpson (wl_integrand d (nz_jit b) z) z zm 256).
  - replace 1.0 with 1 by lra. ring.
  - unfold efficiency. transitivity (simpson (fun z' => nz_density b z' * distance_ratio c z z') z zm 256).
    + apply simpson_ext. intros i _. unfold wl_integrand. rewrite nz_jit_pz. rewrite <- ratio_jit. unfold Rdiv. ring.
    + unfold is_delta in Hb. destruct (nz_fam b); try reflexivity. discriminate.
Qed.
Lemma delta_jit zm b z : is_delta b = true -> wl_delta d (nz_jit b) z = (1 + z) * dist c z * efficiency c zm b z.
Proof.
  intros Hb. unfold wl_delta, efficiency. destruct b as [f g zb n]. unfold is_delta in Hb. simpl in Hb. destruct f; try discriminate.
  simpl. rewrite ratio_jit. rewrite Echi, z2a_eq. fold (dist c z). replace 1.0 with 1 by lra. change (delta_z0 (nz_new (Delta z0) g zb)) with z0. ring.
Qed.
End Rows.

Lemma lensing_rows c pzs z ell : reachable c -> _gamma_growth c = false -> pzs <> [] ->
  weak_lensing_kernel c pzs z ell = Ok (map (fun b => map (lensing c (zmax_of pzs) b ell) z) pzs).
Proof.
  intros Hr Hg Hp. destruct (jit_background c Hr Hg) as (d & Ed & E1 & E2 & E3 & E4).
  unfold weak_lensing_kernel. rewrite Ed. cbn [bind].
  assert (EZ : map nz_zmax (map nz_jit pzs) = map nz_zmax pzs).
  { rewrite map_map. apply map_ext. intros b. apply nz_jit_fields. }
  rewrite EZ. rewrite pymax_list_max by (destruct pzs; [ congruence | discriminate ]). cbn [bind]. fold (zmax_of pzs).
  set (zm := zmax_of pzs). f_equal.
  set (js := map nz_jit pzs). set (n := length js).
  set (ext := idx_where (fun b => negb (is_delta b)) js). set (del := idx_where is_delta js).
  assert (Eext : ext = filter (fun i => negb (is_delta (nth_nz js i))) (seq 0 n)) by exact (idx_where_filter (fun b => negb (is_delta b)) nz_default js).
  assert (Edel : del = filter (fun i => is_delta (nth_nz js i)) (seq 0 n)) by exact (idx_where_filter is_delta nz_default js).
  assert (PP : Permutation (ext ++ del) (seq 0 n)) by (rewrite Eext, Edel; apply filter_split).
  assert (Ln : length (ext ++ del) = n) by (rewrite (Permutation_length PP); apply seq_length).
  set (row := fun i => map (fun q => (1 + q) * dist c q * efficiency c zm (nth_nz pzs i) q) z).
  assert (NJ : forall i, (i < n)%nat -> nth_nz js i = nz_jit (nth_nz pzs i)).
  { intros i Hi. unfold nth_nz, js. apply nth_map_lt. unfold n, js in Hi. now rewrite map_length in Hi. }
  set (radial := (_ ++ _)%list).
  assert (ER : radial = map row (ext ++ del)).
  { unfold radial. rewrite map_app. f_equal.
    - apply map_ext_in. intros i Hi. rewrite Eext in Hi. apply filter_In in Hi. destruct Hi as [Hi Ht]. apply in_seq in Hi.
      rewrite NJ in * by lia. rewrite is_delta_jit in Ht. apply map_ext. intros q. apply (extended_jit c d E1). now apply negb_true_iff.
    - apply map_ext_in. intros i Hi. rewrite Edel in Hi. apply filter_In in Hi. destruct Hi as [Hi Ht]. apply in_seq in Hi.
      rewrite NJ in * by lia. rewrite is_delta_jit in Ht. apply map_ext. intros q. now apply (delta_jit c d E1). }
  apply (list_eq_nth (@nil R)).
  - rewrite !map_length, length_argsort, Ln. unfold n, js. now rewrite map_length.
  - intros i Hi. rewrite !map_length, length_argsort, Ln in Hi.
    assert (Hi2 : (i < length pzs)%nat) by (unfold n, js in Hi; now rewrite map_length in Hi).
    rewrite map_map. rewrite nth_map_lt with (d := 0%nat) by (rewrite length_argsort; lia).
    rewrite nth_map_lt with (d := nz_default) by exact Hi2.
    destruct (argsort_inverse (ext ++ del) i) as [A B]; [ rewrite Ln; exact PP | lia | ].
    rewrite ER. rewrite nth_map_lt with (d := 0%nat) by exact A. rewrite B. unfold row, vscale. rewrite map_map. apply map_ext.
    intros q. unfold lensing, const_H0, const_c. rewrite ell_factor_spin2, E4. fold (nth_nz pzs i).
    replace 3.0 with 3 by lra. replace 2.0 with 2 by lra. unfold Rdiv. ring.
Qed.

(** ** broadcasting *)
Lemma bcast_same {A B C} (f : A -> B -> C) u v : length u = length v -> bcast f u v = Ok (map2 f u v).
Proof. intros E. unfold bcast. now rewrite (proj2 (Nat.eqb_eq _ _) E). Qed.
Lemma map2_map {A B C X Y} (f : A -> B -> C) (g : X -> A) (h : Y -> B) l m : map2 f (map g l) (map h m) = map2 (fun x y => f (g x) (h y)) l m.
Proof. revert m. induction l; intros [ | y m]; simpl; try reflexivity. now rewrite IHl. Qed.
Lemma map2_diag {A C} (f : A -> A -> C) l : map2 f l l = map (fun x => f x x) l.
Proof. induction l; simpl; congruence. Qed.
Lemma map2_tab {A B C} (f : A -> B -> C) l m da db : length l = length m -> map2 f l m = tab (length l) (fun i => f (nth i l da) (nth i m db)).
Proof.
  revert m. induction l as [ | x l IH]; intros [ | y m] H; simpl in *; try discriminate; [ reflexivity | ].
  rewrite tab_S. f_equal. apply IH. congruence.
Qed.
Lemma map_tab_nth {A C} (f : A -> C) l d : map f l = tab (length l) (fun i => f (nth i l d)).
Proof. induction l; simpl; [ reflexivity | ]. rewrite tab_S. now f_equal. Qed.

Lemma clustering_rows_spec c d pzs ba z : (forall a, D d a = D c a) -> (forall a, H d a = H c a) -> pzs <> [] -> no_delta pzs ->
  bias_fits (length pzs) ba ->
  clustering_rows d (map nz_jit pzs) ba z =
  Ok (tab (length pzs) (fun k => map (clustering c (nth_nz pzs k) (bias_for ba k)) z)).
Proof.
  intros ED EH Hp Hd Hb. unfold clustering_rows.
  assert (EX : existsb is_delta (map nz_jit pzs) = false).
  { clear - Hd. induction pzs as [ | b l IH]; simpl; [ reflexivity | ]. rewrite is_delta_jit, (Hd b (or_introl eq_refl)). simpl.
    apply IH. intros x Hx. apply Hd. now right. }
  rewrite EX. destruct (map nz_jit pzs) as [ | x js] eqn:EJ; [ destruct pzs; [ congruence | discriminate ] | ]. rewrite <- EJ. clear x js EJ EX.
  rewrite map_map.
  assert (E0 : map (fun x => map (pz (nz_jit x)) z) pzs = map (fun x => map (nz_density x) z) pzs).
  { apply map_ext. intros b. apply map_ext. intros q. apply nz_jit_pz. }
  rewrite E0. destruct ba as [b | bs]; simpl times_bias.
  - cbn [bind]. f_equal. rewrite !map_map. rewrite (map_tab_nth _ _ nz_default). apply tab_ext. intros k Hk.
    unfold vmul. rewrite map2_map, map2_diag. rewrite map2_map, map2_diag. apply map_ext. intros q.
    unfold clustering. simpl. rewrite (bias_jit c d ED), EH, z2a_eq. reflexivity.
  - simpl in Hb. destruct bs as [ | b0 bs']; [ destruct pzs; [ congruence | discriminate ] | ]. set (bs := b0 :: bs') in *.
    rewrite bcast_same by (now rewrite !map_length). cbn [bind]. f_equal.
    rewrite map2_map. rewrite (map2_tab _ pzs bs nz_default (constant_linear_bias 0)) by (now symmetry). rewrite map_tab. apply tab_ext. intros k Hk.
    unfold vmul. rewrite map2_map, map2_diag. rewrite map2_map, map2_diag. apply map_ext. intros q.
    unfold clustering. simpl. rewrite (bias_jit c d ED), EH, z2a_eq. reflexivity.
Qed.
Lemma density_rows c pzs ba z ell : reachable c -> _gamma_growth c = false -> pzs <> [] -> no_delta pzs -> bias_fits (length pzs) ba ->
  density_kernel c pzs ba z ell = Ok (tab (length pzs) (fun k => map (clustering c (nth_nz pzs k) (bias_for ba k)) z)).
Proof.
  intros Hr Hg Hp Hd Hb. destruct (jit_background c Hr Hg) as (d & Ed & E1 & E2 & E3 & E4).
  unfold density_kernel. rewrite Ed. cbn [bind]. rewrite (clustering_rows_spec c d) by assumption. cbn [bind]. f_equal.
  rewrite map_tab. apply tab_ext. intros k Hk. unfold vscale. rewrite map_map. apply map_ext. intros q. lra.
Qed.
Lemma nla_rows c pzs ba z ell : reachable c -> _gamma_growth c = false -> pzs <> [] -> no_delta pzs -> bias_fits (length pzs) ba ->
  nla_kernel c pzs ba z ell = Ok (tab (length pzs) (fun k => map (alignment c (nth_nz pzs k) (bias_for ba k) ell) z)).
Proof.
  intros Hr Hg Hp Hd Hb. destruct (jit_background c Hr Hg) as (d & Ed & E1 & E2 & E3 & E4).
  unfold nla_kernel. rewrite Ed. cbn [bind]. rewrite (clustering_rows_spec c d) by assumption. cbn [bind]. f_equal.
  rewrite map_tab. apply tab_ext. intros k Hk. unfold vscale, vmul. rewrite map2_map, map2_diag, map_map. apply map_ext. intros q.
  unfold alignment. rewrite ell_factor_spin2, E2, E4, z2a_eq. unfold const_rhocrit.
  replace (2.7750 * 1e11) with 277500000000 by lra. replace (1.0) with 1 by lra. unfold Rdiv. ring.
Qed.

Lemma kernel_rows p c z ell : reachable c -> _gamma_growth c = false -> probe_ok p ->
  kernel p c z ell = Ok (tab (n_tracers p) (fun k => map (tracer_kernel p k c ell) z)).
Proof.
  intros Hr Hg [Hp Hok]. destruct p as [q | q]; simpl in *.
  - destruct Hok as [Hm Hia]. unfold wl_kernel. rewrite lensing_rows by assumption. cbn [bind].
    unfold n_tracers. simpl bins_of. set (n := length (wl_bins q)) in *.
    set (base := fun k => map (fun x => lensing c (zmax_of (wl_bins q)) (nth_nz (wl_bins q) k) ell x +
       match wl_ia q with None => 0 | Some b => alignment c (nth_nz (wl_bins q) k) (bias_for b k) ell x end) z).
    assert (EB : match wl_ia q with
        | None => Ok (map (fun b => map (lensing c (zmax_of (wl_bins q)) b ell) z) (wl_bins q))
        | Some b => bind (nla_kernel c (wl_bins q) b z ell) (fun k2 => madd_rows (map (fun b => map (lensing c (zmax_of (wl_bins q)) b ell) z) (wl_bins q)) k2)
        end = Ok (tab n base)).
    { rewrite (map_tab_nth _ _ nz_default). fold n. unfold base. destruct (wl_ia q) as [b | ].
      - destruct Hia as [Hb Hd]. rewrite nla_rows by assumption. fold n. cbn [bind]. unfold madd_rows.
        rewrite bcast_same by (now rewrite !length_tab). f_equal. unfold tab. rewrite map2_map, map2_diag. apply map_ext. intros k.
        unfold vadd. now rewrite map2_map, map2_diag.
      - f_equal. apply tab_ext. intros k Hk. apply map_ext. intros x. unfold nth_nz. ring. }
    rewrite EB. cbn [bind]. unfold apply_m. destruct (wl_m q) as [m | ms] eqn:EM; simpl in Hm.
    + f_equal. rewrite map_tab. apply tab_ext. intros k Hk. unfold vscale, base. rewrite map_map. apply map_ext. intros x.
      simpl. rewrite EM. simpl. replace 1.0 with 1 by lra. reflexivity.
    + destruct ms as [ | m0 ms']; [ destruct (wl_bins q); [ congruence | discriminate ] | ]. set (ms := m0 :: ms') in *.
      rewrite bcast_same by (now rewrite length_tab). f_equal. rewrite (map2_tab _ _ _ [] 0) by (now rewrite length_tab).
      rewrite length_tab. apply tab_ext. intros k Hk. rewrite nth_tab by exact Hk. unfold vscale, base. rewrite map_map. apply map_ext. intros x.
      simpl. rewrite EM. simpl. unfold el. replace 1.0 with 1 by lra. reflexivity.
  - destruct Hok as [Hb Hd]. unfold nc_kernel, n_tracers. simpl bins_of. rewrite density_rows by assumption. reflexivity.
Qed.
