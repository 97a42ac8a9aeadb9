(** * transfer.py evaluates the published formulae, with wavenumbers converted from h/Mpc *)
From Verif Require Import Np NpLemmas Core Transfer BgGrowth EhSpec.
From Verif Require Import TransferProofs PowerFinal.

Section Match.
Variable c : cosmology.
Hypothesis Hd : dense c.
Hypothesis Hc : 0 < _Omega_c c.
Let om := Omega_m c * _h c ^ 2.
Let ob := Omega_b c * _h c ^ 2.
Let th := const_tcmb / 2.7.
Let h := _h c.

Lemma h_pos : 0 < h.
Proof. apply Hd. Qed.
Lemma om_pos : 0 < om.
Proof. apply (dense_pos c Hd). Qed.
Lemma ob_pos : 0 < ob.
Proof. apply (dense_pos c Hd). Qed.
Lemma th_pos : 0 < th.
Proof. unfold th, const_tcmb. lra. Qed.
Lemma dec_1 : 1.0 = 1. Proof. lra. Qed.
Lemma m_fb : eh_fb c = ob / om.
Proof. destruct (dense_pos c Hd) as (M & _). pose proof h_pos as Hh. unfold h in Hh. unfold eh_fb, ob, om. field. split; lra. Qed.
Lemma m_fc : eh_fc c = (om - ob) / om.
Proof. destruct (dense_pos c Hd) as (M & _). pose proof h_pos as Hh. unfold h in Hh. unfold eh_fc, ob, om. field. split; lra. Qed.
Lemma fc_pos : 0 < (om - ob) / om.
Proof.
  pose proof om_pos as O. apply Rdiv_lt_0_compat; [ | exact O ]. unfold om, ob, Omega_m, Omega_b.
  replace ((_Omega_b c + _Omega_c c) * _h c ^ 2 - _Omega_b c * _h c ^ 2) with (_Omega_c c * _h c ^ 2) by ring.
  apply Rmult_lt_0_compat; [ exact Hc | apply pow_lt; apply h_pos ].
Qed.
Lemma m_k_eq : eh_k_eq c = EH_k_eq om th / h.
Proof. unfold eh_k_eq, EH_k_eq, eh_T27sqr, eh_w_m. fold om th h. replace 7.46e-2 with 0.0746 by lra. reflexivity. Qed.
Lemma m_z_eq : eh_z_eq c = EH_z_eq om th.
Proof. unfold eh_z_eq, EH_z_eq, eh_T27sqr, eh_w_m. fold om th. replace 2.50e4 with 25000 by lra. rewrite <- pow_mult. reflexivity. Qed.
Lemma m_z_d : eh_z_d c = EH_z_d om ob.
Proof.
  unfold eh_z_d, EH_z_d, eh_w_m, eh_w_b. fold om ob. cbv zeta. rewrite !rpow_pos by (apply om_pos || apply ob_pos).
  rewrite dec_1. replace 1291.0 with 1291 by lra. reflexivity.
Qed.
Lemma m_R z : 31.5 * eh_w_b c / eh_T27sqr ^ 2 * (1.0e3 / z) = EH_R ob th z.
Proof. unfold EH_R, eh_T27sqr, eh_w_b. fold ob th. rewrite <- pow_mult. replace 1.0e3 with 1000 by lra. reflexivity. Qed.
Lemma m_R_d : eh_R_d c = EH_R ob th (EH_z_d om ob).
Proof. unfold eh_R_d. now rewrite m_R, m_z_d. Qed.
Lemma m_R_eq : eh_R_eq c = EH_R ob th (EH_z_eq om th).
Proof. unfold eh_R_eq. now rewrite m_R, m_z_eq. Qed.
Lemma keq_pos : 0 < EH_k_eq om th.
Proof. unfold EH_k_eq. pose proof om_pos. pose proof th_pos. apply Rdiv_lt_0_compat; [ lra | now apply pow_lt ]. Qed.
Lemma m_sh_d : eh_sh_d c = h * EH_s om ob th.
Proof.
  unfold eh_sh_d, EH_s. rewrite m_R_d, m_R_eq, m_k_eq, dec_1. replace 2.0 with 2 by lra. replace 3.0 with 3 by lra. replace 6.0 with 6 by lra.
  rewrite (Rplus_comm (EH_R ob th (EH_z_eq om th)) (EH_R ob th (EH_z_d om ob))).
  set (s := sqrt (6 / EH_R ob th (EH_z_eq om th))). set (l := ln _). pose proof keq_pos. pose proof h_pos. field. split; lra.
Qed.
Lemma m_ks k : k * eh_sh_d c = k * h * EH_s om ob th.
Proof. rewrite m_sh_d. ring. Qed.
Lemma m_k_silk : eh_k_silk c = EH_k_silk om ob / h.
Proof.
  pose proof om_pos. pose proof ob_pos. unfold eh_k_silk, EH_k_silk, eh_w_m, eh_w_b. fold om ob h. rewrite !rpow_pos by lra. rewrite dec_1. reflexivity.
Qed.
Lemma m_T_tilde k al be : 0 < k -> eh_T_tilde c k al be = EH_T0 om th (k * h) al be.
Proof.
  intros Hk. pose proof keq_pos as K. pose proof h_pos as Hh. unfold eh_T_tilde, EH_T0, EH_q. cbv zeta. rewrite m_k_eq.
  replace (k / (13.41 * (EH_k_eq om th / h))) with (k * h / (13.41 * EH_k_eq om th)) by (field; split; lra).
  assert (Q : 0 < k * h / (13.41 * EH_k_eq om th)) by (apply Rdiv_lt_0_compat; [ now apply Rmult_lt_0_compat | lra ]).
  set (q := k * h / (13.41 * EH_k_eq om th)) in *. rewrite rpow_pos by exact Q. rewrite dec_1. replace 386.0 with 386 by lra.
  set (l := ln (exp 1 + 1.8 * be * q)). set (C := 14.2 / al + 386 / (1 + 69.9 * Rpower q 1.08)). f_equal. f_equal. ring.
Qed.
Lemma Rpower_gt0 x y : 0 < Rpower x y.
Proof. apply exp_pos. Qed.
Lemma m_alpha_c : eh_alpha_c c = EH_alpha_c om ob.
Proof.
  pose proof om_pos as O. unfold eh_alpha_c, EH_alpha_c. cbv zeta. rewrite m_fb. unfold eh_w_m. fold om.
  rewrite (rpow_pos (46.9 * om)), (rpow_pos (32.1 * om)), (rpow_pos (12.0 * om)), (rpow_pos (45.0 * om)) by lra. rewrite dec_1.
  rewrite !rpow_pos; [ reflexivity | | ]; (apply Rmult_lt_0_compat; [ apply Rpower_gt0 | ]).
  - pose proof (Rpower_gt0 (45.0 * om) (-0.582)). lra.
  - pose proof (Rpower_gt0 (32.1 * om) (-0.532)). lra.
Qed.
Lemma m_beta_c : eh_beta_c c = EH_beta_c om ob.
Proof.
  pose proof om_pos as O. unfold eh_beta_c, EH_beta_c. cbv zeta. rewrite m_fc. unfold eh_w_m. fold om.
  rewrite (rpow_pos (458.0 * om)), (rpow_pos (0.395 * om)) by lra. rewrite rpow_pos by apply fc_pos. rewrite dec_1. replace 458.0 with 458 by lra.
  unfold Rdiv at 1. apply Rmult_1_l.
Qed.
Lemma m_Tc k : 0 < k -> eh_Tc c k = EH_Tc om ob th (k * h).
Proof.
  intros Hk. unfold eh_Tc, EH_Tc. cbv zeta. rewrite !m_T_tilde by exact Hk. rewrite m_alpha_c, m_beta_c, m_ks, dec_1. unfold Rdiv. rewrite Rmult_1_l. reflexivity.
Qed.
Lemma m_alpha_b : eh_alpha_b c = EH_alpha_b om ob th.
Proof.
  pose proof h_pos as Hh. unfold eh_alpha_b, EH_alpha_b, EH_G. cbv zeta. rewrite m_z_eq, m_z_d, m_R_d, m_k_eq, m_sh_d, dec_1.
  replace (-6.0) with (-6) by lra. replace 2.0 with 2 by lra. replace 3.0 with 3 by lra.
  rewrite rpow_pos; [ | rewrite <- m_R_d; pose proof (proj1 (R_pos c Hd)); lra ]. f_equal. f_equal. field. lra.
Qed.
Lemma m_beta_b : eh_beta_b c = EH_beta_b om ob.
Proof. unfold eh_beta_b, EH_beta_b, eh_w_m. rewrite m_fb. fold om. rewrite dec_1. replace 3.0 with 3 by lra. replace 2.0 with 2 by lra. reflexivity. Qed.
Lemma s_pos : 0 < EH_s om ob th.
Proof. pose proof (sh_d_pos c Hd) as S. rewrite m_sh_d in S. pose proof h_pos. apply Rmult_lt_reg_l with h; lra. Qed.
Lemma m_tilde_s k : 0 < k -> k * eh_tilde_s c k = k * h * EH_s_tilde om ob th (k * h).
Proof.
  intros Hk. pose proof s_pos as S. pose proof h_pos as Hh. pose proof om_pos as O. unfold eh_tilde_s, EH_s_tilde, EH_beta_node, eh_w_m. cbv zeta. fold om. rewrite m_ks.
  rewrite (rpow_pos om) by exact O. rewrite dec_1. replace 3.0 with 3 by lra. set (x := 8.41 * Rpower om 0.435 / (k * h * EH_s om ob th)).
  assert (X : 0 < x) by (unfold x; apply Rdiv_lt_0_compat; [ pose proof (Rpower_gt0 om 0.435); lra | apply Rmult_lt_0_compat; [ now apply Rmult_lt_0_compat | exact S ] ]).
  rewrite rpow_pos by (pose proof (pow_lt x 3 X); lra). rewrite m_sh_d. unfold Rdiv. ring.
Qed.
Lemma tilde_pos k : 0 < k -> 0 < EH_s_tilde om ob th k.
Proof. intros Hk. unfold EH_s_tilde. apply Rdiv_lt_0_compat; [ apply s_pos | apply Rpower_gt0 ]. Qed.
Lemma m_Tb k : 0 < k -> eh_Tb c k = EH_Tb om ob th (k * h).
Proof.
  intros Hk. pose proof h_pos as Hh. assert (KH : 0 < k * h) by now apply Rmult_lt_0_compat.
  unfold eh_Tb, EH_Tb. rewrite !m_T_tilde by exact Hk. rewrite m_alpha_b, m_beta_b, m_ks, m_tilde_s by exact Hk. rewrite m_k_silk, dec_1.
  assert (SI : 0 < EH_k_silk om ob).
  { unfold EH_k_silk. pose proof (Rpower_gt0 ob 0.52). pose proof (Rpower_gt0 om 0.73). pose proof (Rpower_gt0 (10.4 * om) (-0.95)).
    apply Rmult_lt_0_compat; [ | lra ]. apply Rmult_lt_0_compat; lra. }
  replace (k / (EH_k_silk om ob / h)) with (k * h / EH_k_silk om ob) by (field; lra).
  rewrite rpow_pos by (now apply Rdiv_lt_0_compat).
  assert (J : sinc (k * h * EH_s_tilde om ob th (k * h) / PI) = j0 (k * h * EH_s_tilde om ob th (k * h))).
  { assert (X : 0 < k * h * EH_s_tilde om ob th (k * h)) by (apply Rmult_lt_0_compat; [ exact KH | now apply tilde_pos ]).
    set (x := k * h * EH_s_tilde om ob th (k * h)) in *. pose proof PI_RGT_0 as P. unfold sinc, j0. destruct (Req_EM_T (x / PI) 0) as [E | _].
    - pose proof (Rdiv_lt_0_compat x PI X P). lra.
    - replace (PI * (x / PI)) with x by (field; lra). reflexivity. }
  rewrite J. reflexivity.
Qed.
Lemma match_osc k : 0 < k -> eisenhu_osc c k = EH_T om ob th (k * h).
Proof. intros Hk. unfold eisenhu_osc, EH_T. now rewrite m_fb, m_fc, m_Tb, m_Tc. Qed.
Lemma m_alpha_gamma : eh_alpha_gamma c = EH_alpha_Gamma om ob.
Proof.
  pose proof om_pos as O. unfold eh_alpha_gamma, EH_alpha_Gamma. fold (eh_fb c). rewrite m_fb. unfold eh_w_m, eh_w_b. fold om ob. rewrite dec_1. replace 431.0 with 431 by lra.
  f_equal. f_equal. unfold Rdiv. ring.
Qed.
Lemma m_gamma_eff k : eh_gamma_eff c k = EH_Gamma_h om ob th (k * h) / h.
Proof.
  pose proof h_pos as Hh. unfold eh_gamma_eff, EH_Gamma_h. rewrite m_alpha_gamma. rewrite dec_1.
  replace (0.43 * k * eh_sh_d c) with (0.43 * (k * h) * EH_s om ob th) by (rewrite Rmult_assoc, m_ks; ring).
  set (x := EH_alpha_Gamma om ob + _ / _). unfold om. fold h. field. lra.
Qed.
Lemma match_nowiggle k : eisenhu c k = EH_T_nowiggle om ob th (k * h).
Proof.
  pose proof h_pos as Hh. unfold eisenhu, EH_T_nowiggle. cbv zeta. rewrite m_gamma_eff. fold th.
  replace (k * th ^ 2 / (EH_Gamma_h om ob th (k * h) / h)) with (k * h * th ^ 2 / EH_Gamma_h om ob th (k * h)).
  2:{ unfold Rdiv. rewrite Rinv_mult, Rinv_inv. ring. }
  set (q := k * h * th ^ 2 / EH_Gamma_h om ob th (k * h)). rewrite dec_1. replace 2.0 with 2 by lra. replace 731.0 with 731 by lra.
  f_equal. f_equal. ring.
Qed.
End Match.

Lemma published_osc : forall c k, dense c -> 0 < _Omega_c c -> 0 < k ->
  Eisenstein_Hu c k "eisenhu_osc" = Ok (EH_T (Omega_m c * _h c ^ 2) (Omega_b c * _h c ^ 2) (const_tcmb / 2.7) (k * _h c)).
Proof. intros c k Hd Hc Hk. unfold Eisenstein_Hu. simpl. f_equal. now apply match_osc. Qed.
Lemma published_nowiggle : forall c k, dense c ->
  Eisenstein_Hu c k "eisenhu" = Ok (EH_T_nowiggle (Omega_m c * _h c ^ 2) (Omega_b c * _h c ^ 2) (const_tcmb / 2.7) (k * _h c)).
Proof. intros c k Hd. unfold Eisenstein_Hu. simpl. f_equal. now apply match_nowiggle. Qed.
(** only the physical densities and the physical wavenumber matter *)
Lemma physical_only : forall c d k k' type, dense c -> dense d -> 0 < _Omega_c c -> 0 < _Omega_c d -> 0 < k -> 0 < k' ->
  Omega_m c * _h c ^ 2 = Omega_m d * _h d ^ 2 -> Omega_b c * _h c ^ 2 = Omega_b d * _h d ^ 2 -> k * _h c = k' * _h d ->
  Eisenstein_Hu c k type = Eisenstein_Hu d k' type.
Proof.
  intros c d k k' type Dc Dd Oc Od Hk Hk' E1 E2 E3. unfold Eisenstein_Hu.
  destruct (String.eqb type "eisenhu"); [ f_equal; rewrite !match_nowiggle by assumption; now rewrite E1, E2, E3 | ].
  destruct (String.eqb type "eisenhu_osc"); [ f_equal; rewrite !match_osc by assumption; now rewrite E1, E2, E3 | reflexivity ].
Qed.
(** a cosmology with the physical densities of Planck15 and h = 1 *)
Definition planck_h1 : cosmology :=
  make_cosmology (_Omega_c Planck15 * _h Planck15 ^ 2) (_Omega_b Planck15 * _h Planck15 ^ 2) 1 (_n_s Planck15) (_sigma8 Planck15) 0 (-1) 0 None.
Lemma ex_eh : dense Planck15 /\ 0 < _Omega_c Planck15 /\ dense planck_h1 /\ 0 < _Omega_c planck_h1 /\
  Omega_m Planck15 * _h Planck15 ^ 2 = Omega_m planck_h1 * _h planck_h1 ^ 2 /\ Omega_b Planck15 * _h Planck15 ^ 2 = Omega_b planck_h1 * _h planck_h1 ^ 2 /\
  0.1 * _h Planck15 = (0.1 * _h Planck15) * _h planck_h1.
Proof.
  split; [ apply planck_dense | ]. unfold dense, Omega_m, Omega_b, planck_h1, Planck15, make_cosmology; simpl. repeat split; lra.
Qed.
