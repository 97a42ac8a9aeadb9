(** * Rounded expansion rate and distances: final statements *)
From Coq Require Import Reals Lra Lia.
From Coquelicot Require Import Coquelicot.
From Verif Require Import Np NpLemmas Core Ode OdeProofs Integrate Background BgSpec BgPositive BgTables BgGrowth BgProofs BgFinal BgFinal2 BgFinal4 BgAlgebra BgCompare BgAccuracy Ad AdSpec AdProofs Fp FpSpec FpProofs FpSums FpBg FpTable.
Local Open Scope R_scope.
Opaque chi_table logspace.

Lemma Esqr_rounded N u c T d a : rounding N u -> 0 < Omega_m c -> 0 <= Omega_k c -> 0 < Omega_de c -> de_part u c < 1 ->
  exponent_error u 0 T d c -> exp (- T) <= a <= 1 ->
  Rabs (gEsqr N (lift_cosmo c) a - Esqr c a) <= (exp (Esqr_loss u 0 d c) - 1) * Esqr c a.
Proof.
  intros RN Pm Pk Pde Hde Hd Ta. apply close_rel. apply (Esqr_close N u c Pm Pk Pde Hde 0 T d a a Hd Ta). apply close_refl. pose proof (exp_pos (- T)). lra.
Qed.
Lemma H_rounded N u c T d a : rounding N u -> 0 < Omega_m c -> 0 <= Omega_k c -> 0 < Omega_de c -> de_part u c < 1 ->
  exponent_error u 0 T d c -> exp (- T) <= a <= 1 ->
  Rabs (gH N (lift_cosmo c) a - H c a) <= (exp (Esqr_loss u 0 d c / 2 + 3 * loss u) - 1) * H c a.
Proof.
  intros RN Pm Pk Pde Hde Hd Ta. apply close_rel. apply (H_close N u c Pm Pk Pde Hde 0 T d a a Hd Ta). apply close_refl. pose proof (exp_pos (- T)). lra.
Qed.
Lemma chitab_rounded N u c lamin tau d n t : rounding N u -> 0 < Omega_m c -> 0 <= Omega_k c -> 0 < Omega_de c -> de_part u c < 1 ->
  lamin < 0 -> (2 <= n)%nat -> length t = n ->
  let T := - lamin * ln 10 in let h := T / INR (n - 1) in
  2 * tau < h -> (forall i, (i < n)%nat -> Rabs (el t i - ln (el (logspace lamin 0.0 n) i)) <= tau) ->
  exponent_error u (node_loss u tau h T) T d c ->
  forall i, (i < n)%nat ->
  Rabs (el (fchitab N (lift_cosmo c) t) i - el (snd (chi_table c lamin n)) i) <= 2 * (exp (table_loss u tau h T d c n) - 1) * el (snd (chi_table c lamin n)) 0.
Proof. intros RN Pm Pk Pde Hde Hla Hn Lt T h Hh Ht Hd i Hi. exact (table_rounded N u c Pm Pk Pde Hde lamin tau d n t Hla Hn Lt Hh Ht Hd i Hi). Qed.

(** ** numbers *)
Lemma loss_le r : 0 <= r < 1 -> loss r <= r / (1 - r).
Proof.
  intros [H0 H1]. unfold loss. rewrite <- ln_Rinv by lra. pose proof (exp_ineq1_le (ln (/ (1 - r)))) as E.
  rewrite exp_ln in E by (apply Rinv_0_lt_compat; lra). replace (r / (1 - r)) with (/ (1 - r) - 1) by (field; lra). lra.
Qed.
Lemma expm1_le x : 0 <= x < 1 -> exp x - 1 <= x / (1 - x).
Proof.
  intros [H0 H1]. pose proof (exp_ineq1_le (- x)) as E. rewrite exp_Ropp in E. pose proof (exp_pos x).
  replace (x / (1 - x)) with (/ (1 - x) - 1) by (field; lra).
  assert (exp x <= / (1 - x)); [|lra]. rewrite <- (Rinv_inv (exp x)). apply Rinv_le_contravar; lra.
Qed.
Lemma quot_le x b k : 0 <= x <= b -> b < 1 -> 1 / (1 - b) <= k -> x / (1 - x) <= k * x.
Proof.
  intros [X0 XB] B K. assert (/ (1 - x) <= / (1 - b)) by (apply Rinv_le_contravar; lra). unfold Rdiv in *. rewrite Rmult_1_l in K.
  rewrite (Rmult_comm k). apply Rmult_le_compat_l; lra.
Qed.
Lemma ln10_lo : 2.25 <= ln 10.
Proof.
  apply Rnot_lt_le; intros H. apply exp_increasing in H. rewrite exp_ln in H by lra.
  pose proof (expm1_le 0.0225 ltac:(lra)) as E. assert (E1 : exp 0.0225 <= 1.02302) by lra.
  assert (E2 : exp 2.25 = ((exp 0.0225 ^ 10) ^ 10)).
  { assert (P : forall y, exp (10 * y) = exp y ^ 10) by (intros y; simpl; rewrite Rmult_1_r, <- !exp_plus; f_equal; lra).
    rewrite <- !P. f_equal. lra. }
  assert (E3 : exp 0.0225 ^ 10 <= 1.02302 ^ 10) by (apply pow_incr; pose proof (exp_pos 0.0225); lra).
  assert (E4 : (exp 0.0225 ^ 10) ^ 10 <= 1.2556 ^ 10) by (apply pow_incr; split; [left; apply pow_lt, exp_pos|lra]).
  assert (1.2556 ^ 10 < 10) by lra. lra.
Qed.

(** Planck15 with the default table and times known to 20 rounding units *)
Lemma planck_rounded N u t : rounding N u -> u <= 1e-6 -> length t = 256%nat ->
  (forall i, (i < 256)%nat -> Rabs (el t i - ln (el (logspace (-3) 0.0 256) i)) <= 20 * u) ->
  forall i, (i < 256)%nat ->
  Rabs (el (fchitab N (lift_cosmo Planck15) t) i - el (snd (chi_table Planck15 (-3) 256)) i) <= 4100 * u * el (snd (chi_table Planck15 (-3) 256)) 0.
Proof.
  intros RN Hu Lt Ht i Hi. pose proof (r_u (N := N)) as [U0 U1].
  assert (Em : Omega_m Planck15 = 0.3075) by (cbv [Omega_m Planck15 make_cosmology _Omega_b _Omega_c Omega_b Omega_c]; lra).
  assert (Ek : Omega_k Planck15 = 0) by (cbv [Omega_k Planck15 make_cosmology _Omega_k]; lra).
  assert (Ed : Omega_de Planck15 = 0.6925) by (unfold Omega_de, Omega; rewrite Em; change (_Omega_k Planck15) with 0.0; fold (Omega_k Planck15); rewrite ?Ek; lra).
  assert (PX : physical Planck15) by (unfold physical; rewrite Em, Ek, Ed; lra).
  assert (DP0 : de_part u Planck15 <= 5.7 * u).
  { unfold de_part. rewrite Em, Ek, Ed, Rabs_R0, (Rabs_right 0.3075) by lra.
    replace ((1 + u) ^ 3 - 1) with (u * (3 + 3 * u + u ^ 2)) by ring.
    assert (3 + 3 * u + u ^ 2 <= 3.001) by nra. nra. }
  assert (DPn : 0 <= de_part u Planck15).
  { apply (de_part_0 N u Planck15); rewrite ?Em, ?Ek, ?Ed; lra. }
  pose proof ln10_lo as L1. pose proof ln10_tight as L2.
  set (T := - -3 * ln 10) in *. assert (T1 : 6.75 <= T <= 6.93) by (unfold T; lra).
  set (h := T / INR (256 - 1)). assert (IN : INR (256 - 1) = 255) by (simpl; lra).
  assert (H1 : 0.02647 <= h <= 0.02718) by (unfold h; rewrite IN; lra).
  assert (l1 : loss u <= 1.00001 * u).
  { eapply Rle_trans; [apply loss_le; lra|]. apply (quot_le u 1e-6 1.00001); lra. }
  assert (l0 : 0 <= loss u) by (apply loss_0; lra).
  assert (R1 : 0 <= 2 * (20 * u) / h <= 1511.2 * u).
  { assert (HI : / h <= 37.78). { rewrite <- (Rinv_inv 37.78). apply Rinv_le_contravar; lra. }
    assert (0 < / h) by (apply Rinv_0_lt_compat; lra). unfold Rdiv. split; nra. }
  assert (l2 : loss (2 * (20 * u) / h) <= 1514 * u).
  { eapply Rle_trans; [apply loss_le; lra|]. eapply Rle_trans; [apply (quot_le _ 0.0015112 1.0016); lra|]. lra. }
  assert (l3 : 0 <= loss (2 * (20 * u) / h)) by (apply loss_0; lra).
  assert (ks : 0 <= step_loss u (20 * u) h <= 1515.1 * u) by (unfold step_loss; lra).
  assert (ke : exp (step_loss u (20 * u) h + loss u) - 1 <= 1519 * u).
  { eapply Rle_trans; [apply expm1_le; lra|]. eapply Rle_trans; [apply (quot_le _ 0.0015162 1.0016); lra|]. lra. }
  assert (ke0 : 1 <= exp (step_loss u (20 * u) h + loss u)) by (apply exp_ge1; lra).
  assert (md : 0 <= mid_error u (20 * u) h T <= 47.7 * u).
  { unfold mid_error. set (E := exp (step_loss u (20 * u) h + loss u) - 1) in *.
    assert (E0 : 0 <= E) by (unfold E; lra).
    assert (0 <= E * (h / 2) <= 1519 * u * 0.01359) by (split; [apply Rmult_le_pos; lra|apply Rmult_le_compat; lra]).
    assert (u * T <= u * 6.93) by (apply Rmult_le_compat_l; lra). assert (0 <= u * T) by (apply Rmult_le_pos; lra).
    assert ((1 + u) * (20 * u + E * (h / 2)) <= 1.000001 * (40.65 * u)) by (apply Rmult_le_compat; lra).
    assert (0 <= (1 + u) * (20 * u + E * (h / 2))) by (apply Rmult_le_pos; lra). lra. }
  assert (nd : 0 <= node_loss u (20 * u) h T <= 48.8 * u) by (unfold node_loss; lra).
  assert (dl : 0 <= loss (de_part u Planck15) <= 5.8 * u).
  { split; [apply loss_0; lra|]. eapply Rle_trans; [apply loss_le; lra|]. eapply Rle_trans; [apply (quot_le _ 0.0000057 1.00001); lra|]. lra. }
  assert (El : 0 <= Esqr_loss u (node_loss u (20 * u) h T) 0 Planck15 <= 157.4 * u) by (unfold Esqr_loss; lra).
  assert (I256 : INR 256 = 256) by (simpl; lra).
  assert (tl : 0 <= table_loss u (20 * u) h T 0 Planck15 256 <= 2012 * u) by (unfold table_loss; cbv zeta; rewrite I256; lra).
  assert (te : exp (table_loss u (20 * u) h T 0 Planck15 256) - 1 <= 2050 * u).
  { eapply Rle_trans; [apply expm1_le; lra|]. eapply Rle_trans; [apply (quot_le _ 0.002012 1.003); lra|]. lra. }
  assert (CD : constant_de Planck15) by (split; cbv [Planck15 make_cosmology _w0 _wa]; lra).
  pose proof (chitab_rounded N u Planck15 (-3) (20 * u) 0 256 t RN ltac:(lra) ltac:(lra) ltac:(lra) ltac:(lra) ltac:(lra) ltac:(lia) Lt) as X.
  cbv zeta in X. fold T in X. fold h in X. specialize (X ltac:(lra) Ht (or_intror (conj CD eq_refl)) i Hi).
  eapply Rle_trans; [exact X|]. apply Rmult_le_compat_r; [|lra].
  pose proof (chi_table_decr Planck15 (-3) 256 (physical_expanding _ PX) ltac:(lra) ltac:(lia) 0%nat 255%nat) as Y.
  rewrite (proj2 (chi_table_length _ _ _)) in Y. specialize (Y ltac:(lia)).
  pose proof (chi_table_last Planck15 (-3) 256 ltac:(lia)) as Z. change (256 - 1)%nat with 255%nat in Z. rewrite Z in Y. lra.
Qed.

(** against the distance integral itself, for a cosmological constant *)
Lemma distance_rounded N u c tau t : rounding N u -> reachable c -> physical c -> 0 < Omega_de c -> constant_de c -> de_part u c < 1 -> length t = 256%nat ->
  let T := 3 * ln 10 in let h := T / 255 in
  2 * tau < h -> (forall i, (i < 256)%nat -> Rabs (el t i - ln (el (logspace (-3) 0.0 256) i)) <= tau) ->
  forall i, (1 <= i < 256)%nat ->
  Rabs (el (fchitab N (lift_cosmo c) t) i - RInt (fun x => 299792.458 / (x ^ 2 * H c x)) (table_node 256 i) 1) <=
    2 * (exp (table_loss u tau h T 0 c 256) - 1) * el (snd (chi_table c (-3) 256)) 0 + 0.01 / sqrt (Omega_m c).
Proof.
  intros RN Hr HP Pde CD Hde Lt T h Hh Ht i Hi. pose proof HP as (Pm & Pk & _).
  assert (E1 : - -3 * ln 10 = T) by (unfold T; ring). assert (E2 : T / INR (256 - 1) = h) by (unfold h; f_equal; simpl; lra).
  pose proof (chitab_rounded N u c (-3) tau 0 256 t RN Pm Pk Pde Hde ltac:(lra) ltac:(lia) Lt) as X. cbv zeta in X. rewrite E1, E2 in X.
  specialize (X Hh Ht (or_intror (conj CD eq_refl)) i ltac:(lia)).
  pose proof (distance_accuracy_node c i Hr HP (proj1 CD) (proj2 CD) Hi) as Y.
  assert (EC : chi c (table_node 256 i) = el (snd (chi_table c (-3) 256)) i).
  { destruct (inv_reach c Hr) as (c0 & HI & _). pose proof (physical_expanding c HP) as HX.
    rewrite (chi_value c0 c _ HI). rewrite <- (chi_of_node c (-3) 256 i HX ltac:(lra) ltac:(lia) Hi). unfold chi_of. destruct HI as (v & w & -> & _). rewrite chi_table_ws, anode_table. reflexivity. }
  rewrite EC in Y.
  match goal with |- Rabs (?p - ?r) <= _ => replace (p - r) with ((p - el (snd (chi_table c (-3) 256)) i) + (el (snd (chi_table c (-3) 256)) i - r)) by ring end.
  eapply Rle_trans; [apply Rabs_triang|]. lra.
Qed.
