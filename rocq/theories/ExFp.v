(** * Rounded arithmetic: binary numbers with p significant bits, rounded to nearest *)
From Coq Require Import Reals Lra Lia ZArith Permutation.
From Coquelicot Require Import Coquelicot.
From Verif Require Import Np NpLemmas Core Ode Integrate IntegrateSpec Background BgSpec BgProofs BgFinal BgAlgebra BgAccuracy BgTables Redshift SimpsProofs ExRedshift ExNuis Ad AdSpec Fp FpSpec FpProofs FpSums FpBg FpTable FpFinal.
Local Open Scope R_scope.

Definition expo (x : R) : Z := Int_part (ln (Rabs x) / ln 2).
Definition rnd (p : Z) (x : R) : R :=
  if Req_EM_T x 0 then 0 else let e := (expo x - p + 1)%Z in IZR (Int_part (x / powerRZ 2 e + 1 / 2)) * powerRZ 2 e.
Definition num_bin (p : Z) : num R :=
  Num R (rnd p) (fun x => x) (fun x y => rnd p (x + y)) (fun x y => rnd p (x - y)) (fun x y => rnd p (x * y)) (fun x y => rnd p (x / y)) Ropp
    (fun x => rnd p (exp x)) (fun x => rnd p (ln x)) (fun x => rnd p (sqrt x)) (fun x => rnd p (sin x)) (fun x => rnd p (cos x)) (fun x => rnd p (sinh x)) Rabs
    (fun x z => rnd p (ipow x z)) (fun x y => rnd p (rpow x y)) Rmax Rmin.

Lemma pw_pos z : 0 < powerRZ 2 z.
Proof. apply powerRZ_lt. lra. Qed.
Lemma pw_exp z : powerRZ 2 z = exp (IZR z * ln 2).
Proof. rewrite powerRZ_Rpower by lra. reflexivity. Qed.
Lemma ln2_pos : 0 < ln 2.
Proof. rewrite <- ln_1. apply ln_increasing; lra. Qed.
Lemma expo_le x : x <> 0 -> powerRZ 2 (expo x) <= Rabs x.
Proof.
  intros X. pose proof (Rabs_pos_lt _ X) as P. pose proof ln2_pos as L. rewrite pw_exp, <- (exp_ln (Rabs x)) by exact P. apply exp_le.
  unfold expo. pose proof (base_Int_part (ln (Rabs x) / ln 2)) as [A _].
  apply Rmult_le_reg_r with (/ ln 2); [apply Rinv_0_lt_compat; exact L|]. rewrite Rmult_assoc, Rinv_r by lra. unfold Rdiv in *. lra.
Qed.
Lemma rnd_near p x : near (powerRZ 2 (- p)) (rnd p x) x.
Proof.
  unfold near, rnd. destruct (Req_EM_T x 0) as [->|X]; [rewrite Rminus_0_r, Rabs_R0; lra|]. cbv zeta.
  set (e := (expo x - p + 1)%Z). pose proof (pw_pos e) as PE. set (q := x / powerRZ 2 e). pose proof (base_Int_part (q + 1 / 2)) as [A B].
  assert (E : x = q * powerRZ 2 e) by (unfold q; field; lra).
  replace (IZR (Int_part (q + 1 / 2)) * powerRZ 2 e - x) with ((IZR (Int_part (q + 1 / 2)) - q) * powerRZ 2 e) by (rewrite E at 1; ring).
  rewrite Rabs_mult, (Rabs_right (powerRZ 2 e)) by lra.
  assert (H1 : Rabs (IZR (Int_part (q + 1 / 2)) - q) <= / 2) by (apply Rabs_le; lra).
  assert (H2 : / 2 * powerRZ 2 e = powerRZ 2 (- p) * powerRZ 2 (expo x)).
  { unfold e. replace (expo x - p + 1)%Z with ((- p + expo x) + 1)%Z by ring. rewrite powerRZ_add by lra. rewrite powerRZ_add by lra. simpl. lra. }
  pose proof (expo_le x X). pose proof (pw_pos (- p)).
  apply Rle_trans with (/ 2 * powerRZ 2 e); [apply Rmult_le_compat_r; lra|]. rewrite H2. apply Rmult_le_compat_l; lra.
Qed.
Lemma Int_is r z : r - 1 < IZR z <= r -> z = Int_part r.
Proof.
  intros [A B]. pose proof (base_Int_part r) as [C D].
  assert (z < Int_part r + 1)%Z by (apply lt_IZR; rewrite plus_IZR; lra). assert (Int_part r < z + 1)%Z by (apply lt_IZR; rewrite plus_IZR; lra). lia.
Qed.
Lemma Int_half z : Int_part (IZR z + 1 / 2) = z.
Proof. symmetry. apply Int_is. lra. Qed.
Lemma rnd_int p z : (9 <= p)%Z -> (Z.abs z <= 256)%Z -> rnd p (IZR z) = IZR z.
Proof.
  intros P Z. unfold rnd. destruct (Req_EM_T (IZR z) 0) as [->|X]; [reflexivity|]. cbv zeta.
  assert (B : (expo (IZR z) <= 8)%Z).
  { apply Z.nlt_ge. intros C. pose proof (expo_le _ X) as H. assert (H1 : Rabs (IZR z) <= 256) by (rewrite <- abs_IZR; apply IZR_le; exact Z).
    assert (H2 : powerRZ 2 9 <= powerRZ 2 (expo (IZR z))).
    { rewrite !pw_exp. apply exp_le. apply Rmult_le_compat_r; [pose proof ln2_pos; lra|]. apply IZR_le. lia. }
    simpl in H2. lra. }
  set (e := (expo (IZR z) - p + 1)%Z) in *. destruct (Z_of_nat_complete (- e)) as [n En]; [lia|].
  assert (Ee : e = (- Z.of_nat n)%Z) by lia. rewrite Ee, powerRZ_neg' , <- pow_powerRZ.
  assert (PN : 0 < 2 ^ n) by (apply pow_lt; lra).
  replace (IZR z / / 2 ^ n) with (IZR z * 2 ^ n) by (field; lra).
  replace (2 ^ n) with (IZR (2 ^ Z.of_nat n)) by (rewrite <- pow_IZR; reflexivity).
  rewrite <- mult_IZR, Int_half, mult_IZR. field.
  rewrite <- pow_IZR. lra.
Qed.
Lemma bin_rounding p : (9 <= p)%Z -> rounding (num_bin p) (powerRZ 2 (- p)).
Proof.
  intros P. constructor; intros; try apply rnd_near.
  - split; [left; apply pw_pos|]. replace 1 with (powerRZ 2 0) by reflexivity. rewrite !pw_exp. apply exp_increasing. apply Rmult_lt_compat_r; [apply ln2_pos|]. apply IZR_lt. lia.
  - apply rnd_int; assumption.
Qed.
(** single precision *)
Lemma single : rounding (num_bin 24) (powerRZ 2 (-24)) /\ 0 < powerRZ 2 (-24) <= 1e-6.
Proof. split; [apply (bin_rounding 24); lia|]. split; [apply pw_pos|]. simpl. lra. Qed.
(** 1 + 2^-24 is not a number of 24 bits: the arithmetic is not exact *)
Lemma single_rounds : nadd (num_bin 24) 1 (powerRZ 2 (-25)) <> 1 + powerRZ 2 (-25).
Proof.
  change (rnd 24 (1 + powerRZ 2 (-25)) <> 1 + powerRZ 2 (-25)). unfold rnd. destruct (Req_EM_T _ 0) as [E|E]; [pose proof (pw_pos (-25)); lra|]. cbv zeta.
  assert (X : expo (1 + powerRZ 2 (-25)) = 0%Z).
  { unfold expo. rewrite Rabs_right by (pose proof (pw_pos (-25)); lra). symmetry. apply Int_is. pose proof ln2_pos as L.
    assert (A : 0 < ln (1 + powerRZ 2 (-25))) by (rewrite <- ln_1 at 1; apply ln_increasing; pose proof (pw_pos (-25)); lra).
    assert (B : ln (1 + powerRZ 2 (-25)) < ln 2) by (apply ln_increasing; simpl; lra).
    split; [|apply Rmult_le_pos; [lra|left; apply Rinv_0_lt_compat; exact L]].
    assert (ln (1 + powerRZ 2 (-25)) / ln 2 < 1); [|lra]. apply Rmult_lt_reg_r with (ln 2); [exact L|]. unfold Rdiv. rewrite Rmult_assoc, Rinv_l by lra. lra. }
  rewrite X. change (0 - 24 + 1)%Z with (-23)%Z. intros H.
  assert (Q : Int_part ((1 + powerRZ 2 (-25)) / powerRZ 2 (-23) + 1 / 2) = 8388608%Z) by (symmetry; apply Int_is; simpl; lra).
  rewrite Q in H. simpl in H. lra.
Qed.

(** ** cases *)
(** four numbers added pairwise: depth 2 *)
Lemma pairwise (N : num R) : summed N 2 [1; 2; 3; 4] (nadd N (nadd N 1 2) (nadd N 3 4)).
Proof.
  apply (sum_node N 1 1 [1; 2] [3; 4]); [| |reflexivity].
  - apply (sum_node N 0 0 [1] [2]); [constructor|constructor|reflexivity].
  - apply (sum_node N 0 0 [3] [4]); [constructor|constructor|reflexivity].
Qed.
Lemma fsimps_exists (N : num R) (y : list R) a b n : exists s, fsimps N (length (fterms N y)) y a b n s.
Proof. eexists. exists (fold_right (nadd N) (cst N 0) (fterms N y)). split; [apply gsum_summed|reflexivity]. Qed.
Definition survey_bin : nz := nz_new (Smail 2 2 1) 1 2.
Definition bin_samples : list R := map (fun z => rnd 24 (pz_fn survey_bin z)) (linspace 0 2 257).
Lemma density_case : let d := survey_bin in 0 < nz_zmax d /\ nz_norm d = None /\ (forall x, 0 <= pz_fn d x) /\ 0 < nz_simps_norm d /\ length bin_samples = 257%nat /\
  (exists k s, fsimps (num_bin 24) k bin_samples 0 (nz_zmax d) 256 s) /\ 0 <= powerRZ 2 (-24) < 1 /\
  (forall i, (i <= 256)%nat -> Rabs (el bin_samples i - pz_fn d (el (linspace 0 (nz_zmax d) 257) i)) <= powerRZ 2 (-24) * pz_fn d (el (linspace 0 (nz_zmax d) 257) i)) /\
  0 < pz_fn d 1.
Proof.
  cbv zeta. assert (NN : forall x, 0 <= pz_fn survey_bin x) by (intros x; apply ExRedshift.smail_nonneg).
  assert (PP : forall x, 0 < x -> 0 < pz_fn survey_bin x).
  { intros x X. change (pz_fn survey_bin x) with (rpow x 2 * exp (- rpow (x / 1) 2)). apply Rmult_lt_0_compat; [|apply exp_pos].
    unfold rpow. destruct (Req_EM_T x 0); [lra|apply exp_pos]. }
  assert (LL : length (linspace 0 2 257) = 257%nat) by (unfold linspace, tab; rewrite map_length, seq_length; reflexivity).
  split; [change (0 < 2); lra|]. split; [reflexivity|]. split; [exact NN|]. split.
  { assert (E : nz_simps_norm survey_bin = simpson (pz_fn survey_bin) 0 (nz_zmax survey_bin) 256).
    { unfold nz_simps_norm. rewrite simps_eq by (reflexivity || lia). replace 0.0 with 0 by lra. reflexivity. }
    pose proof (mv_norm survey_bin PP (NN 0) eq_refl) as Z. rewrite E.
    destruct (simpson_nonneg (pz_fn survey_bin) 0 (nz_zmax survey_bin) 256) as [Q|Q]; [change (0 <= 2); lra|lia|intros; apply NN|exact Q|]. exfalso. apply Z. symmetry. exact Q. }
  split; [unfold bin_samples; rewrite map_length; exact LL|]. split; [destruct (fsimps_exists (num_bin 24) bin_samples 0 (nz_zmax survey_bin) 256) as [s Hs]; eexists; exists s; exact Hs|].
  split; [split; [left; apply pw_pos|simpl; lra]|]. split; [|apply PP; lra].
  intros i Hi. change (nz_zmax survey_bin) with 2. unfold bin_samples. unfold el at 1. rewrite (nth_map_lt (fun z => rnd 24 (pz_fn survey_bin z)) (linspace 0 2 257) i 0) by lia.
  fold (el (linspace 0 2 257) i). pose proof (rnd_near 24 (pz_fn survey_bin (el (linspace 0 2 257) i))) as A. unfold near in A. rewrite (Rabs_right (pz_fn _ _)) in A by (apply Rle_ge, NN). exact A.
Qed.
(** a Simpson rule with two panels' worth of samples *)
Lemma simps_case : let N := num_bin 24 in exists s, fsimps N 1 [0; 1; 4] 0 2 2 s /\ simps (fun x => x ^ 2) 0 2 2 = Ok (8 / 3) /\
  (forall i, (i <= 2)%nat -> el [0; 1; 4] i = (fun x => x ^ 2) (el (linspace 0 2 3) i)).
Proof.
  cbv zeta. destruct (fsimps_exists (num_bin 24) [0; 1; 4] 0 2 2) as [s Hs]. exists s. split; [exact Hs|]. split.
  - unfold simps, linspace, tab. simpl. f_equal. lra.
  - intros i Hi. unfold linspace, tab, el. destruct i as [|[|[|i]]]; simpl; try lra. lia.
Qed.
Definition planck_times : list R := map (fun a => rnd 24 (ln a)) (logspace (-3) 0.0 256).
Lemma times_case : length planck_times = 256%nat /\ forall i, (i < 256)%nat -> Rabs (el planck_times i - ln (el (logspace (-3) 0.0 256) i)) <= 20 * powerRZ 2 (-24).
Proof.
  split; [unfold planck_times; rewrite map_length; apply length_logspace|]. intros i Hi. unfold planck_times. unfold el at 1.
  rewrite (nth_map_lt (fun a => rnd 24 (ln a)) (logspace (-3) 0.0 256) i 0) by (rewrite length_logspace; exact Hi). fold (el (logspace (-3) 0.0 256) i). rewrite logspace_el by exact Hi.
  pose proof (rnd_near 24 (ln (anode (-3) 256 i))) as A. unfold near in A. eapply Rle_trans; [exact A|]. rewrite (Rmult_comm 20). apply Rmult_le_compat_l; [left; apply pw_pos|].
  pose proof (FpTable.node_range (-3) 256 (repeat 0 256) ltac:(lra) ltac:(lia) (repeat_length 0 256) i Hi) as B. pose proof ln10_tight. apply Rabs_le. lra.
Qed.
Definition w_universe : cosmology := make_cosmology 0.2589 0.04860 0.6774 0.9667 0.8159 0.01 (-0.9) 0.1 None.
Lemma expansion_case : let u := powerRZ 2 (-24) in
  (0 < Omega_m w_universe /\ 0 < Omega_k w_universe /\ 0 < Omega_de w_universe /\ de_part u w_universe < 1 /\ ~ constant_de w_universe /\ exponent_error u 0 7 (de_exponent u 0 7 w_universe) w_universe) /\
  (reachable Planck15 /\ physical Planck15 /\ 0 < Omega_de Planck15 /\ constant_de Planck15 /\ de_part u Planck15 < 1 /\ 2 * (20 * u) < 3 * ln 10 / 255 /\ exp (-7) <= 1 / 2 <= 1).
Proof.
  assert (Uv : powerRZ 2 (-24) = / 16777216) by (simpl; lra).
  assert (Em : Omega_m w_universe = 0.3075) by (cbv [Omega_m w_universe make_cosmology _Omega_b _Omega_c Omega_b Omega_c]; lra).
  assert (Ek : Omega_k w_universe = 0.01) by (cbv [Omega_k w_universe make_cosmology _Omega_k]; lra).
  assert (Ed : Omega_de w_universe = 0.6825) by (unfold Omega_de, Omega; rewrite Em; change (_Omega_k w_universe) with 0.01; fold (Omega_k w_universe); rewrite ?Ek; lra).
  assert (Pm : Omega_m Planck15 = 0.3075) by (cbv [Omega_m Planck15 make_cosmology _Omega_b _Omega_c Omega_b Omega_c]; lra).
  assert (Pk : Omega_k Planck15 = 0) by (cbv [Omega_k Planck15 make_cosmology _Omega_k]; lra).
  assert (Pd : Omega_de Planck15 = 0.6925) by (unfold Omega_de, Omega; rewrite Pm; change (_Omega_k Planck15) with 0.0; fold (Omega_k Planck15); rewrite ?Pk; lra).
  cbv zeta. split.
  - rewrite Em, Ek, Ed. repeat (split; [lra|]). split.
    { unfold de_part. rewrite Em, Ek, Ed, !Rabs_right, Uv by lra. lra. }
    split; [intros [W _]; cbv [w_universe make_cosmology _w0] in W; lra|left; reflexivity].
  - split; [apply planck_accuracy_case|]. split; [apply planck_accuracy_case|]. rewrite Pd. split; [lra|]. split; [split; cbv [Planck15 make_cosmology _w0 _wa]; lra|]. split.
    { unfold de_part. rewrite Pm, Pk, Pd, Rabs_R0, !Rabs_right, Uv by lra. lra. }
    split; [rewrite Uv; pose proof ln10_lo; lra|]. split; [|lra]. replace (-7) with (- (7)) by lra. rewrite exp_Ropp. pose proof (exp_ineq1_le 7). rewrite <- (Rinv_inv (1 / 2)). apply Rinv_le_contravar; lra.
Qed.
