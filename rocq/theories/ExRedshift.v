(** * Concrete redshift distributions *)
From Verif Require Import Np NpLemmas Integrate IntegrateSpec SimpsProofs Redshift RedshiftSpec RedshiftProofs BgGrowth.

Definition ex_smail : nz_family := Smail 1 2 1.
Lemma smail_nonneg a b z0 g zm z : 0 <= pz_fn (nz_new (Smail a b z0) g zm) z.
Proof. simpl. apply Rmult_le_pos; [ apply rpow_nonneg | left; apply exp_pos ]. Qed.
Lemma smail_pos a b z0 g zm z : 0 < z -> 0 < pz_fn (nz_new (Smail a b z0) g zm) z.
Proof. intros Hz. simpl. apply Rmult_lt_0_compat; [ rewrite rpow_pos by assumption; apply exp_pos | apply exp_pos ]. Qed.
Lemma smail_norm_pos a b z0 g zm : 0 < zm -> 0 < simpson (pz_fn (nz_new (Smail a b z0) g zm)) 0 zm 256.
Proof.
  intros Hz. unfold simpson. assert (0 < INR 256) by (apply lt_0_INR; lia).
  apply Rmult_lt_0_compat; [ apply Rdiv_lt_0_compat; [ apply Rdiv_lt_0_compat; lra | lra ] | ].
  apply Rsum_pos; [ apply Nat.div_str_pos; lia | ]. intros i _.
  set (f := pz_fn _). assert (N : forall z, 0 <= f z) by (intros; apply smail_nonneg).
  assert (P : 0 < f (node 0 zm 256 (2 * i + 1))).
  { apply smail_pos. unfold node. rewrite Rplus_0_l. apply Rmult_lt_0_compat; [ apply lt_0_INR; lia | apply Rdiv_lt_0_compat; lra ]. }
  pose proof (N (node 0 zm 256 (2 * i))). pose proof (N (node 0 zm 256 (2 * i + 2))). lra.
Qed.
Lemma ex_smail_ok : let d := nz_new ex_smail 20 2 in
  nz_reachable d /\ is_delta d = false /\ simpson (pz_fn d) 0 (nz_zmax d) 256 <> 0.
Proof.
  split; [ exists ex_smail, 20, 2, []; reflexivity | split; [ reflexivity | ]].
  apply Rgt_not_eq. exact (smail_norm_pos 1 2 1 20 2 Rlt_0_2).
Qed.
Lemma ex_kde_ok : 0 < 0.1 /\ length [1; 2; 1/2] = length [0.3; 0.7; 0.9] /\ (forall i, (i < length [1; 2; 1/2])%nat -> 0 < el [1; 2; 1/2] i) /\
  Rsum 3 (el [1; 2; 1/2]) <> 0.
Proof.
  split; [ lra | split; [ reflexivity | split ]].
  - intros [ | [ | [ | i]]] Hi; unfold el; simpl in *; try lia; lra.
  - unfold el; simpl. lra.
Qed.
Lemma ex_shift_ok : nz_reachable (nz_new ex_smail 20 2) /\ is_delta (nz_new ex_smail 20 2) = false /\ nz_zmax (nz_new ex_smail 20 2) = 2.
Proof. split; [ exists ex_smail, 20, 2, []; reflexivity | split; reflexivity ]. Qed.
