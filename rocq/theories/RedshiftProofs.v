(** * Proofs about redshift distributions *)
From Coquelicot Require Import Coquelicot.
From Verif Require Import Np NpLemmas Integrate IntegrateSpec SimpsProofs Redshift RedshiftSpec BgGrowth.

Lemma simps256 f a b : simps f a b 256 = Ok (simpson f a b 256).
Proof. apply simps_eq; [ reflexivity | lia ]. Qed.
Lemma nz_norm_simpson d : nz_simps_norm d = simpson (pz_fn d) 0 (nz_zmax d) 256.
Proof. unfold nz_simps_norm. rewrite simps256. f_equal. lra. Qed.

Definition same_nz (d e : nz) : Prop := nz_fam d = nz_fam e /\ nz_gals d = nz_gals e /\ nz_zmax d = nz_zmax e.
Definition norm_ok (d : nz) : Prop := match nz_norm d with
  | None => is_delta d = false
  | Some v => v = if is_delta d then 1 else simpson (pz_fn d) 0 (nz_zmax d) 256 end.
Lemma pz_fn_fam d e : nz_fam d = nz_fam e -> pz_fn d = pz_fn e.
Proof. destruct d, e; simpl; now intros ->. Qed.
Lemma nz_new_ok f g zm : norm_ok (nz_new f g zm).
Proof. destruct f; unfold norm_ok, is_delta, nz_new, nz_norm, nz_fam; try reflexivity. lra. Qed.
Lemma call_value d z : norm_ok d -> fst (nz_call d z) = map (nz_density d) z.
Proof.
  intros HO. unfold nz_call, norm_ok, nz_density in *. simpl. apply map_ext. intros q. f_equal.
  destruct (nz_norm d) as [v | ]; [ exact HO | ]. rewrite HO. apply nz_norm_simpson.
Qed.
Lemma call_state d z : norm_ok d -> norm_ok (snd (nz_call d z)) /\ same_nz (snd (nz_call d z)) d.
Proof.
  intros HO. split; [ | repeat split ]. destruct d as [f g zm n]. unfold norm_ok, nz_call in *. simpl in *.
  destruct n as [v | ]; [ exact HO | ]. unfold is_delta in *; simpl in *. rewrite HO. apply nz_norm_simpson.
Qed.
Lemma density_same d e z : same_nz d e -> nz_density d z = nz_density e z.
Proof. intros (H1 & _ & H3). unfold nz_density, is_delta. now rewrite (pz_fn_fam d e H1), H1, H3. Qed.
Lemma after_state hist : forall d, norm_ok d -> norm_ok (nz_after hist d) /\ same_nz (nz_after hist d) d.
Proof.
  induction hist as [ | z hist IH]; intros d HO; [ split; [ exact HO | repeat split ] | ].
  change (nz_after (z :: hist) d) with (nz_after hist (snd (nz_call d z))).
  destruct (call_state d z HO) as (O1 & S1). destruct (IH _ O1) as (O2 & S2). split; [ exact O2 | ].
  destruct S1 as (? & ? & ?), S2 as (? & ? & ?). repeat split; congruence.
Qed.
Lemma reachable_ok d : nz_reachable d -> norm_ok d.
Proof. intros (f & g & zm & hist & ->). apply after_state, nz_new_ok. Qed.

Lemma nz_history f g zm hist z : fst (nz_call (nz_after hist (nz_new f g zm)) z) = map (nz_density (nz_new f g zm)) z.
Proof.
  destruct (after_state hist _ (nz_new_ok f g zm)) as (O & S). rewrite call_value by assumption.
  apply map_ext. intros q. now apply density_same.
Qed.
Lemma pz_density d z : nz_reachable d -> pz d z = nz_density d z.
Proof. intros HR. unfold pz. rewrite call_value by (now apply reachable_ok). reflexivity. Qed.

(** the four un-normalised densities *)
Lemma gauss_kernel bw X z : 0 < bw -> kde_kernel bw X z = gaussian X bw z.
Proof.
  intros Hb. unfold kde_kernel, gaussian.
  assert (0 < sqrt (2 * PI)) by (apply sqrt_lt_R0; pose proof PI_RGT_0; lra).
  replace (1.0 / sqrt (2 * PI) / bw) with (/ (bw * sqrt (2 * PI))) by (replace 1.0 with 1 by lra; field; split; lra).
  f_equal. f_equal. replace (2.0) with 2 by lra. field. lra.
Qed.
Lemma kde_mean zcat wt bw g zm z : 0 < bw -> length wt = length zcat ->
  pz_fn (nz_new (Kde zcat wt bw) g zm) z =
  Rsum (length zcat) (fun i => el wt i * gaussian (el zcat i) bw z) / Rsum (length zcat) (el wt).
Proof.
  intros Hb Hl. simpl. rewrite (vdot_Rsum (length zcat)) by (rewrite ?map_length; auto). f_equal.
  - apply Rsum_ext. intros i Hi. unfold el at 1. rewrite (nth_map_lt _ zcat i 0) by assumption. fold (el zcat i).
    rewrite gauss_kernel by assumption. ring.
  - rewrite vsum_Rsum, Hl. reflexivity.
Qed.
Lemma densities g zm z :
  (forall a b z0, 0 < z -> 0 < z0 -> pz_fn (nz_new (Smail a b z0) g zm) z = Rpower z a * exp (- Rpower (z / z0) b)) /\
  (forall z0, pz_fn (nz_new (Delta z0) g zm) z = if Req_EM_T z z0 then 1 else 0) /\
  (forall zcat wt bw, 0 < bw -> length wt = length zcat -> pz_fn (nz_new (Kde zcat wt bw) g zm) z =
     Rsum (length zcat) (fun i => el wt i * gaussian (el zcat i) bw z) / Rsum (length zcat) (el wt)) /\
  (forall p b, pz_fn (nz_new (Shift p b) g zm) z = pz_fn p (Rmax (z - b) 0)).
Proof.
  split; [ | split; [ | split ]].
  - intros a b z0 Hz Hz0. simpl. rewrite !rpow_pos; auto. now apply Rdiv_lt_0_compat.
  - intros z0. simpl. destruct (Req_EM_T z z0); lra.
  - intros. now apply kde_mean.
  - intros p b. reflexivity.
Qed.

(** normalisation *)
Lemma nz_normalised d : nz_reachable d -> is_delta d = false -> simpson (pz_fn d) 0 (nz_zmax d) 256 <> 0 ->
  simps (pz d) 0 (nz_zmax d) 256 = Ok 1.
Proof.
  intros HR HD HN. rewrite simps256. f_equal.
  rewrite (simpson_ext _ (fun z => / simpson (pz_fn d) 0 (nz_zmax d) 256 * pz_fn d z)).
  - rewrite simpson_scal. field. exact HN.
  - intros i _. rewrite pz_density by assumption. unfold nz_density. rewrite HD. unfold Rdiv. ring.
Qed.

(** kde *)
Lemma gaussian_pos X s z : 0 < s -> 0 < gaussian X s z.
Proof.
  intros Hs. unfold gaussian. apply Rmult_lt_0_compat; [ | apply exp_pos ]. apply Rinv_0_lt_compat, Rmult_lt_0_compat; [ exact Hs | ].
  apply sqrt_lt_R0. pose proof PI_RGT_0. lra.
Qed.
Lemma Rsum_pos n f : (0 < n)%nat -> (forall i, (i < n)%nat -> 0 < f i) -> 0 < Rsum n f.
Proof.
  intros Hn Hf. destruct n as [ | n]; [ lia | ]. change (Rsum (S n) f) with (Rsum n f + f n).
  pose proof (Rsum_nonneg n f ltac:(intros; left; apply Hf; lia)). pose proof (Hf n ltac:(lia)). lra.
Qed.
Lemma kde_positive zcat wt bw g zm : 0 < bw -> length wt = length zcat -> zcat <> [] -> 0 < zm ->
  (forall i, (i < length wt)%nat -> 0 < el wt i) ->
  let d := nz_new (Kde zcat wt bw) g zm in
  (forall z, 0 < pz_fn d z) /\ (forall z, pz_fn d z <= / (bw * sqrt (2 * PI))) /\ (forall z, 0 < pz d z).
Proof.
  intros Hb Hl Hne Hzm Hw d. assert (Hn : (0 < length zcat)%nat) by (destruct zcat; [ congruence | simpl; lia ]).
  assert (W : 0 < Rsum (length zcat) (el wt)) by (apply Rsum_pos; [ assumption | intros; apply Hw; lia ]).
  assert (P : forall z, 0 < pz_fn d z).
  { intros z. unfold d. rewrite kde_mean by assumption. apply Rdiv_lt_0_compat; [ | exact W ].
    apply Rsum_pos; [ assumption | ]. intros i Hi. apply Rmult_lt_0_compat; [ apply Hw; lia | now apply gaussian_pos ]. }
  split; [ exact P | split ].
  - intros z. unfold d. rewrite kde_mean by assumption. apply Rmult_le_reg_r with (Rsum (length zcat) (el wt)); [ exact W | ].
    unfold Rdiv. rewrite Rmult_assoc, Rinv_l, Rmult_1_r by lra. rewrite <- Rsum_scal. apply Rsum_le. intros i Hi.
    rewrite (Rmult_comm _ (el wt i)). apply Rmult_le_compat_l; [ left; apply Hw; lia | ]. unfold gaussian.
    rewrite <- (Rmult_1_r (/ (bw * sqrt (2 * PI)))) at 2. apply Rmult_le_compat_l.
    + left. apply Rinv_0_lt_compat, Rmult_lt_0_compat; [ exact Hb | apply sqrt_lt_R0; pose proof PI_RGT_0; lra ].
    + rewrite <- exp_0. set (q := (z - el zcat i) / bw). assert (0 <= q ^ 2) by apply pow2_ge_0.
      destruct (Req_dec (- q ^ 2 / 2) 0) as [-> | ]; [ lra | left; apply exp_increasing; lra ].
  - intros z. rewrite pz_density by (exists (Kde zcat wt bw), g, zm, []; reflexivity). unfold nz_density. simpl is_delta.
    apply Rdiv_lt_0_compat; [ apply P | ]. unfold is_delta; simpl nz_fam. simpl nz_zmax. unfold simpson. apply Rmult_lt_0_compat.
    + assert (0 < INR 256) by (apply lt_0_INR; lia). apply Rdiv_lt_0_compat; [ apply Rdiv_lt_0_compat; lra | lra ].
    + apply Rsum_pos; [ apply Nat.div_str_pos; lia | ]. intros i _.
      pose proof (P (node 0 zm 256 (2 * i))). pose proof (P (node 0 zm 256 (2 * i + 1))). pose proof (P (node 0 zm 256 (2 * i + 2))). lra.
Qed.
Lemma el_vscale k v i : el (vscale k v) i = k * el v i.
Proof. unfold vscale, el. revert i; induction v as [ | x v IH]; intros [ | i]; simpl; auto; ring. Qed.
Lemma kde_scale zcat wt bw g zm k z : 0 < bw -> length wt = length zcat -> k <> 0 -> Rsum (length zcat) (el wt) <> 0 ->
  pz_fn (nz_new (Kde zcat (vscale k wt) bw) g zm) z = pz_fn (nz_new (Kde zcat wt bw) g zm) z /\
  pz (nz_new (Kde zcat (vscale k wt) bw) g zm) z = pz (nz_new (Kde zcat wt bw) g zm) z.
Proof.
  intros Hb Hl Hk HW.
  assert (E : forall z, pz_fn (nz_new (Kde zcat (vscale k wt) bw) g zm) z = pz_fn (nz_new (Kde zcat wt bw) g zm) z).
  { intros q. rewrite !kde_mean by (auto; unfold vscale; now rewrite map_length).
    rewrite (Rsum_ext _ (el (vscale k wt)) (fun i => k * el wt i)) by (intros; apply el_vscale).
    rewrite (Rsum_ext _ (fun i => el (vscale k wt) i * gaussian (el zcat i) bw q) (fun i => k * (el wt i * gaussian (el zcat i) bw q)))
      by (intros; rewrite el_vscale; ring).
    rewrite !Rsum_scal. field. split; assumption. }
  split; [ apply E | ]. rewrite !pz_density; [ | exists (Kde zcat wt bw), g, zm, []; reflexivity | exists (Kde zcat (vscale k wt) bw), g, zm, []; reflexivity ].
  unfold nz_density. rewrite E. f_equal. unfold is_delta; simpl nz_fam; simpl nz_zmax. apply simpson_ext. intros; apply E.
Qed.

(** shift *)
Lemma shift_value p b g zm z : pz (nz_new (Shift p b) g zm) z =
  pz_fn p (Rmax (z - b) 0) / simpson (fun t => pz_fn p (Rmax (t - b) 0)) 0 zm 256.
Proof. rewrite pz_density by (exists (Shift p b), g, zm, []; reflexivity). reflexivity. Qed.
Lemma node_nonneg zm N i : 0 <= zm -> (0 < N)%nat -> 0 <= node 0 zm N i.
Proof.
  intros Hz HN. unfold node. rewrite Rplus_0_l, Rminus_0_r. apply Rmult_le_pos; [ apply pos_INR | ].
  apply Rmult_le_pos; [ exact Hz | ]. left. apply Rinv_0_lt_compat, lt_0_INR, HN.
Qed.
Lemma shift_translates p b g zm z : nz_reachable p -> is_delta p = false ->
  pz (nz_new (Shift p b) g zm) z = pz_fn p (Rmax (z - b) 0) / simpson (fun t => pz_fn p (Rmax (t - b) 0)) 0 zm 256 /\
  (0 <= zm -> nz_zmax p = zm -> b = 0 -> 0 <= z -> pz (nz_new (Shift p b) g zm) z = pz p z).
Proof.
  intros HR HD. split; [ apply shift_value | ]. intros Hzm Ez -> Hz. rewrite shift_value, pz_density by assumption.
  unfold nz_density. rewrite HD, Ez. rewrite Rminus_0_r, Rmax_left by assumption. f_equal. apply simpson_ext.
  intros i _. rewrite Rminus_0_r, Rmax_left; [ reflexivity | ]. apply node_nonneg; [ assumption | lia ].
Qed.

(** flatten / unflatten *)
Fixpoint pz_fn_jit d : pz_fn (nz_jit d) = pz_fn d
with fam_pz_jit f : fam_pz (fam_jit f) = fam_pz f.
Proof.
  - destruct d as [f g zm n]. simpl. exact (fam_pz_jit f).
  - destruct f as [a b z0 | z0 | zcat wt bw | p b]; try reflexivity. simpl. rewrite (pz_fn_jit p). reflexivity.
Qed.
Lemma is_delta_jit d : is_delta (nz_jit d) = is_delta d.
Proof. destruct d as [[ | | | ] g zm n]; reflexivity. Qed.
Lemma nz_jit_fields d : nz_gals (nz_jit d) = nz_gals d /\ nz_zmax (nz_jit d) = nz_zmax d.
Proof. destruct d as [f g zm n]. simpl. split; reflexivity. Qed.
Lemma nz_jit_reachable d : nz_reachable (nz_jit d).
Proof. destruct d as [f g zm n]. exists (fam_jit f), g, zm, []. reflexivity. Qed.
Lemma nz_jit_density d z : nz_density (nz_jit d) z = nz_density d z.
Proof. unfold nz_density. now rewrite pz_fn_jit, is_delta_jit, (proj2 (nz_jit_fields d)). Qed.
Lemma nz_jit_pz d z : pz (nz_jit d) z = nz_density d z.
Proof. rewrite pz_density by apply nz_jit_reachable. apply nz_jit_density. Qed.
