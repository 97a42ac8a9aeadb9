(** * Rounded distances at any scale factor of the table *)
From Coq Require Import Reals Lra Lia ZArith List.
From Coquelicot Require Import Coquelicot.
From Verif Require Import Np NpLemmas Core Ode OdeSpec OdeProofs Interp InterpProofs InterpCont Integrate Background BgSpec BgPositive BgTables BgGrowth BgProofs BgFinal BgFinal2 BgFinal4 BgAlgebra BgCompare BgAccuracy Ad AdSpec AdProofs Fp FpSpec FpProofs FpSums FpBg FpTable FpFinal FpInterp.
Import ListNotations.
Local Open Scope R_scope.
Opaque chi_table logspace.

Lemma steps_incr v : (forall i, (i + 1 < length v)%nat -> el v i < el v (i + 1)) -> incr v.
Proof.
  intros H i j [L Lj]. induction j as [|j IH]; [lia|]. destruct (Nat.eq_dec i j) as [->|E].
  - replace (Datatypes.S j) with (j + 1)%nat by lia. apply H. lia.
  - apply Rlt_trans with (el v j); [apply IH; lia|]. replace (Datatypes.S j) with (j + 1)%nat by lia. apply H. lia.
Qed.

Section Grid.
Context (lamin e : R) (n : nat) (xt : list R) (Hla : lamin < 0) (Hn : (3 <= n)%nat) (Lx : length xt = n).
Let q := exp (- lamin * ln 10 / INR (n - 1)).
Context (He : 0 <= e < 1) (Hq : q * (1 + skew e q) <= 2 * (1 - skew e q))
  (Hx : forall k, (k < n)%nat -> Rabs (el xt k - el (logspace lamin 0.0 n) k) <= e * el (logspace lamin 0.0 n) k).
Lemma q1 : 1 < q.
Proof.
  unfold q. rewrite <- exp_0. apply exp_increasing. apply Rdiv_lt_0_compat; [|apply lt_0_INR; lia]. apply Rmult_lt_0_compat; [lra|apply ln10_pos].
Qed.
Lemma step_q k : anode lamin n (k + 1) = q * anode lamin n k.
Proof.
  apply ln_inv; [apply anode_pos|apply Rmult_lt_0_compat; [apply exp_pos|apply anode_pos]|]. rewrite ln_mult by (apply exp_pos || apply anode_pos). unfold q. rewrite ln_exp.
  pose proof (ln_anode_step lamin n k) as A. assert (INR (n - 1) <> 0) by (apply not_0_INR; lia).
  replace (- lamin * ln 10 / INR (n - 1)) with ((0.0 - lamin) / INR (n - 1) * ln 10) by (replace 0.0 with 0 by lra; field; auto). lra.
Qed.
Lemma skew0 : 0 <= skew e q < 1.
Proof.
  pose proof q1. assert (S : 0 <= skew e q). { unfold skew. apply Rmult_le_pos; [nra|]. left. apply Rinv_0_lt_compat. lra. } split; [exact S|]. nra.
Qed.
Lemma gap k : (k + 1 < n)%nat ->
  (q - 1) * anode lamin n k * (1 - skew e q) <= el xt (k + 1) - el xt k <= (q - 1) * anode lamin n k * (1 + skew e q).
Proof.
  intros Hk. pose proof q1. pose proof (Hx k ltac:(lia)) as A. pose proof (Hx (k + 1)%nat Hk) as B. rewrite !logspace_el in A, B by lia. rewrite step_q in B.
  apply abs_between in A, B. assert (E : (q - 1) * anode lamin n k * skew e q = e * (q * anode lamin n k) + e * anode lamin n k) by (unfold skew; field; lra). lra.
Qed.
Lemma grid_even : even_grid xt.
Proof.
  pose proof q1. pose proof skew0. split.
  - apply steps_incr. rewrite Lx. intros i Hi. pose proof (proj1 (gap i Hi)) as A. pose proof (anode_pos lamin n i).
    assert (0 < (q - 1) * anode lamin n i * (1 - skew e q)) by (apply Rmult_lt_0_compat; [apply Rmult_lt_0_compat|]; lra). lra.
  - rewrite Lx. intros k Hk. cbv zeta. pose proof (gap k ltac:(lia)) as A. pose proof (gap (k + 1) ltac:(lia)) as B. replace (k + 1 + 1)%nat with (k + 2)%nat in B by lia.
    rewrite step_q in B. pose proof (anode_pos lamin n k) as P. set (x := anode lamin n k) in *. set (s := skew e q) in *.
    assert (0 < (q - 1) * x) by nra. set (y := (q - 1) * x) in *. replace ((q - 1) * (q * x)) with (q * y) in B by (unfold y; ring).
    assert (C1 : 1 + s <= q * (1 + s)) by nra. assert (C2 : 2 * (1 - s) <= 2 * (q * (1 - s))) by nra.
    assert (C3 : y * (1 + s) <= y * (2 * (q * (1 - s)))) by (apply Rmult_le_compat_l; lra).
    assert (C4 : y * (q * (1 + s)) <= y * (2 * (1 - s))) by (apply Rmult_le_compat_l; lra). split; lra.
Qed.
Lemma grid_span k : (k + 1 < n)%nat -> el xt (k + 1) <= span e q * (el xt (k + 1) - el xt k).
Proof.
  intros Hk. pose proof q1. pose proof skew0. pose proof (proj1 (gap k Hk)) as A. pose proof (Hx (k + 1)%nat Hk) as B. rewrite logspace_el in B by lia. rewrite step_q in B. apply abs_between in B.
  pose proof (anode_pos lamin n k) as P. assert (S0 : 0 < span e q).
  { unfold span. apply Rdiv_lt_0_compat; [nra|]. apply Rmult_lt_0_compat; lra. }
  apply Rle_trans with (span e q * ((q - 1) * anode lamin n k * (1 - skew e q))).
  - replace (span e q * ((q - 1) * anode lamin n k * (1 - skew e q))) with (q * (1 + e) * anode lamin n k) by (unfold span; field; lra). lra.
  - apply Rmult_le_compat_l; lra.
Qed.
Lemma grid_first : 0 < el xt 1.
Proof. pose proof (Hx 1%nat ltac:(lia)) as B. rewrite logspace_el in B by lia. apply abs_between in B. pose proof (anode_pos lamin n 1). nra. Qed.
End Grid.

Lemma clip_contract x y : Rabs (clip_lo x 0 - clip_lo y 0) <= Rabs (x - y).
Proof. unfold clip_lo, Rmax, Rabs. repeat (destruct (Rle_dec _ _) || destruct (Rcase_abs _)); lra. Qed.

Lemma distance_lookup N u c lamin e E n xt ft a : rounding N u -> u <= 0.1 -> expanding c -> lamin < 0 -> (3 <= n)%nat ->
  length xt = n -> length ft = n ->
  let q := exp (- lamin * ln 10 / INR (n - 1)) in let X := el (snd (chi_table c lamin n)) 0 in
  0 <= e < 1 -> q * (1 + skew e q) <= 2 * (1 - skew e q) ->
  (forall k, (k < n)%nat -> Rabs (el xt k - el (logspace lamin 0.0 n) k) <= e * el (logspace lamin 0.0 n) k) ->
  (forall k, (k < n)%nat -> Rabs (el ft k - el (snd (chi_table c lamin n)) k) <= E * X) ->
  el xt 1 <= a <= el xt (n - 1) ->
  Rabs (fdistance N a xt ft - chi_of c lamin n a) <= distance_loss u e q E * X.
Proof.
  intros RN U EX Hla Hn Lx Lf q X He Hq Hx Hf Ha. destruct (chi_table_length c lamin n) as [L1 L2].
  assert (EV : even_grid xt) by exact (grid_even lamin e n xt Hla Hn Lx He Hq Hx).
  pose proof (q1 lamin n xt Hla Hn Lx) as Q1. fold q in Q1.
  assert (Hd : forall i j, (i <= j)%nat -> (j < n)%nat -> el (snd (chi_table c lamin n)) j <= el (snd (chi_table c lamin n)) i).
  { intros i j I J. destruct (Nat.eq_dec i j) as [->|NE]; [lra|]. left. apply (chi_table_decr c lamin n EX Hla ltac:(lia)). rewrite L2. lia. }
  assert (Hr : forall k, (k < n)%nat -> 0 <= el (snd (chi_table c lamin n)) k <= X).
  { intros k Hk. split; [|apply Hd; lia]. rewrite <- (chi_table_last c lamin n) by lia. apply Hd; lia. }
  unfold fdistance, chi_of. replace 0.0 with 0 by lra. eapply Rle_trans; [apply clip_contract|].
  rewrite chi_table_fst. set (xp := logspace lamin 0.0 n) in *. set (fp := snd (chi_table c lamin n)) in *.
  assert (Lp : length xp = n) by apply length_logspace.
  assert (Ip : incr xp) by (apply logspace_incr; [exact Hla|lia]).
  assert (A : Rabs (finterp1 N a xt ft - interp1 a xt ft) <= lookup_loss u * ((2 * span e q + 1) * ((1 + 2 * E) * X))).
  { apply (lookup_error N u U); rewrite ?Lx; try assumption; try lia.
    - eapply grid_first; eassumption.
    - intros k _ Hk. eapply grid_span; eassumption.
    - intros k Hk. pose proof (abs_between _ _ (Hf k ltac:(lia))). pose proof (Hr k ltac:(lia)). apply Rabs_le. lra.
    - intros k K1 K2. pose proof (abs_between _ _ (Hf k ltac:(lia))). pose proof (Hr k ltac:(lia)). pose proof (abs_between _ _ (Hf (k + 1)%nat K2)). pose proof (Hr (k + 1)%nat K2). apply Rabs_le. lra. }
  assert (B : Rabs (interp1 a xt ft - interp1 a xp fp) <= E * X + X * (q / (q - 1)) * (e / (1 - e))).
  { apply (perturbed xp fp (X * (q / (q - 1)))); rewrite ?Lp; try assumption.
    - unfold xp. rewrite logspace_el by lia. apply anode_pos.
    - intros k K1 K2. pose proof (Hr k ltac:(lia)). pose proof (Hr (k + 1)%nat K2). pose proof (Hd k (k + 1)%nat ltac:(lia) K2). unfold xp. rewrite !logspace_el by lia.
      rewrite (step_q lamin n xt Hn Lx). fold q. pose proof (anode_pos lamin n k) as P.
      replace (X * (q / (q - 1)) * (q * anode lamin n k - anode lamin n k)) with (X * (q * anode lamin n k)) by (field; lra).
      apply Rmult_le_compat_r; [nra|]. apply Rabs_le. lra.
    - apply EV.
    - intros k Hk. apply Hx. lia.
    - intros k Hk. apply Hf. lia. }
  replace (finterp1 N a xt ft - interp1 a xp fp) with ((finterp1 N a xt ft - interp1 a xt ft) + (interp1 a xt ft - interp1 a xp fp)) by ring.
  eapply Rle_trans; [apply Rabs_triang|]. unfold distance_loss. lra.
Qed.

(** ** the function radial_comoving_distance with its default table *)
Lemma chi_default c a : reachable c -> chi c a = chi_of c (-3) 256 a.
Proof. intros Hr. destruct (inv_reach c Hr) as (c0 & HI & _). rewrite (chi_value c0 c a HI). unfold chi_of. destruct HI as (v & w & -> & _). rewrite chi_table_ws. reflexivity. Qed.
Lemma chi_default_rounded N u c tau d e xt t a : rounding N u -> u <= 0.1 -> reachable c -> physical c -> 0 < Omega_de c -> de_part u c < 1 ->
  let T := 3 * ln 10 in let h := T / 255 in let q := exp h in
  length xt = 256%nat -> length t = 256%nat -> 0 <= e < 1 -> q * (1 + skew e q) <= 2 * (1 - skew e q) -> 2 * tau < h ->
  (forall i, (i < 256)%nat -> Rabs (el xt i - el (logspace (-3) 0.0 256) i) <= e * el (logspace (-3) 0.0 256) i) ->
  (forall i, (i < 256)%nat -> Rabs (el t i - ln (el (logspace (-3) 0.0 256) i)) <= tau) ->
  exponent_error u (node_loss u tau h T) T d c ->
  el xt 1 <= a <= el xt 255 ->
  Rabs (fdistance N a xt (fchitab N (lift_cosmo c) t) - chi c a) <=
    distance_loss u e q (2 * (exp (table_loss u tau h T d c 256) - 1)) * el (snd (chi_table c (-3) 256)) 0.
Proof.
  intros RN U Hr HP Pde Hde T h q Lx Lt He Hq Hh Hx Ht Hd Ha. pose proof HP as (Pm & Pk & _).
  assert (E1 : - -3 * ln 10 = T) by (unfold T; ring). assert (E2 : T / INR (256 - 1) = h) by (unfold h; f_equal; simpl; lra).
  rewrite chi_default by exact Hr.
  pose proof (chitab_rounded N u c (-3) tau d 256 t RN Pm Pk Pde Hde ltac:(lra) ltac:(lia) Lt) as X. cbv zeta in X. rewrite E1, E2 in X. specialize (X Hh Ht Hd).
  assert (LF : length (fchitab N (lift_cosmo c) t) = 256%nat).
  { unfold fchitab. rewrite map_length. unfold fodeint. rewrite <- Lt. exact (proj1 (fscan N (fdchioverdlna N (lift_cosmo c)) t (cst N 0.0) (nth 0 t (cst N 0)) 0)). }
  pose proof (distance_lookup N u c (-3) e (2 * (exp (table_loss u tau h T d c 256) - 1)) 256 xt (fchitab N (lift_cosmo c) t) a RN U (physical_expanding c HP) ltac:(lra) ltac:(lia) Lx LF) as Y.
  cbv zeta in Y. rewrite E1, E2 in Y. exact (Y He Hq Hx X Ha).
Qed.
Lemma chi_integral_rounded N u c tau d e xt t a : rounding N u -> u <= 0.1 -> reachable c -> physical c -> moderate c -> 0 < Omega_de c -> de_part u c < 1 ->
  let T := 3 * ln 10 in let h := T / 255 in let q := exp h in
  length xt = 256%nat -> length t = 256%nat -> 0 <= e < 1 -> q * (1 + skew e q) <= 2 * (1 - skew e q) -> 2 * tau < h ->
  (forall i, (i < 256)%nat -> Rabs (el xt i - el (logspace (-3) 0.0 256) i) <= e * el (logspace (-3) 0.0 256) i) ->
  (forall i, (i < 256)%nat -> Rabs (el t i - ln (el (logspace (-3) 0.0 256) i)) <= tau) ->
  exponent_error u (node_loss u tau h T) T d c ->
  el xt 1 <= a <= el xt 255 -> table_node 256 1 <= a <= 1 ->
  Rabs (fdistance N a xt (fchitab N (lift_cosmo c) t) - RInt (fun x => 299792.458 / (x ^ 2 * H c x)) a 1) <=
    distance_loss u e q (2 * (exp (table_loss u tau h T d c 256) - 1)) * el (snd (chi_table c (-3) 256)) 0 + 1.5 / sqrt (Omega_m c).
Proof.
  intros RN U Hr HP HM Pde Hde T h q Lx Lt He Hq Hh Hx Ht Hd Ha Ha'.
  pose proof (chi_default_rounded N u c tau d e xt t a RN U Hr HP Pde Hde Lx Lt He Hq Hh Hx Ht Hd Ha) as A. pose proof (distance_accuracy c a Hr HP HM Ha') as B.
  match goal with |- Rabs (?p - ?r) <= _ => replace (p - r) with ((p - chi c a) + (chi c a - r)) by ring end.
  eapply Rle_trans; [apply Rabs_triang|]. fold T h q in A. lra.
Qed.

(** ** numbers for Planck15 *)
Lemma default_ratio : let q := exp (3 * ln 10 / 255) in 1.02647 <= q <= 1.02794.
Proof.
  intros q. pose proof ln10_lo. pose proof ln10_tight. unfold q. split.
  - pose proof (exp_ineq1_le (3 * ln 10 / 255)). lra.
  - pose proof (expm1_le (3 * ln 10 / 255) ltac:(lra)) as A.
    assert (B : 3 * ln 10 / 255 / (1 - 3 * ln 10 / 255) <= 0.02718 / (1 - 0.02718)).
    { assert (0 < 3 * ln 10 / 255 <= 0.02718) by lra. set (h := 3 * ln 10 / 255) in *. apply Rmult_le_compat; try lra; [left; apply Rinv_0_lt_compat; lra|apply Rinv_le_contravar; lra]. }
    lra.
Qed.
Lemma default_grid u : 0 <= u <= 1e-6 -> let q := exp (3 * ln 10 / 255) in
  0 <= skew (20 * u) q <= 0.00154 /\ q * (1 + skew (20 * u) q) <= 2 * (1 - skew (20 * u) q) /\ q / (q - 1) <= 38.78.
Proof.
  intros Hu q. pose proof default_ratio as R. cbv zeta in R. fold q in R.
  assert (I1 : / (q - 1) <= / 0.02647) by (apply Rinv_le_contravar; lra). assert (I0 : 0 < / (q - 1)) by (apply Rinv_0_lt_compat; lra).
  assert (S : 0 <= skew (20 * u) q <= 0.00154).
  { unfold skew. split; [apply Rmult_le_pos; [nra|lra]|]. apply Rle_trans with (20 * 1e-6 * 2.02794 * / 0.02647); [|lra]. unfold Rdiv. apply Rmult_le_compat; [nra|lra| |lra]. apply Rmult_le_compat; lra. }
  split; [exact S|]. split; [nra|]. replace (q / (q - 1)) with (1 + / (q - 1)) by (field; lra). lra.
Qed.
Lemma lookup_small u : 0 <= u <= 1e-6 -> 0 <= lookup_loss u <= 6.01 * u.
Proof.
  intros Hu. unfold lookup_loss. assert (1 <= (1 + u) ^ 5) by (apply pow_R1_Rle; lra).
  assert (P : (1 + u) ^ 5 <= 1 + 5.001 * u).
  { replace ((1 + u) ^ 5) with (1 + u * (5 + u * (10 + u * (10 + u * (5 + u))))) by ring. assert (u * (10 + u * (10 + u * (5 + u))) <= 0.001) by nra. nra. }
  split.
  - assert ((1 + u) ^ 5 / (1 - u) >= 1); [|lra]. apply Rle_ge. apply Rmult_le_reg_r with (1 - u); [lra|]. unfold Rdiv. rewrite Rmult_assoc, Rinv_l by lra. lra.
  - assert ((1 + u) ^ 5 / (1 - u) <= 1 + 6.01 * u); [|lra]. apply Rmult_le_reg_r with (1 - u); [lra|]. unfold Rdiv. rewrite Rmult_assoc, Rinv_l by lra. nra.
Qed.
Lemma planck_chi_rounded N u xt t a : rounding N u -> u <= 1e-6 -> length xt = 256%nat -> length t = 256%nat ->
  (forall i, (i < 256)%nat -> Rabs (el xt i - el (logspace (-3) 0.0 256) i) <= 20 * u * el (logspace (-3) 0.0 256) i) ->
  (forall i, (i < 256)%nat -> Rabs (el t i - ln (el (logspace (-3) 0.0 256) i)) <= 20 * u) ->
  el xt 1 <= a <= el xt 255 ->
  Rabs (fdistance N a xt (fchitab N (lift_cosmo Planck15) t) - chi Planck15 a) <= 5400 * u * el (snd (chi_table Planck15 (-3) 256)) 0.
Proof.
  intros RN Hu Lx Lt Hx Ht Ha. pose proof (r_u (N := N)) as [U0 U1]. destruct planck_accuracy_case as (Hr & HP & _).
  rewrite (chi_default _ _ Hr). pose proof (planck_rounded N u t RN Hu Lt Ht) as X.
  assert (LF : length (fchitab N (lift_cosmo Planck15) t) = 256%nat).
  { unfold fchitab. rewrite map_length. unfold fodeint. rewrite <- Lt. exact (proj1 (fscan N (fdchioverdlna N (lift_cosmo Planck15)) t (cst N 0.0) (nth 0 t (cst N 0)) 0)). }
  assert (E1 : - -3 * ln 10 / INR (256 - 1) = 3 * ln 10 / 255) by (replace (INR (256 - 1)) with 255 by (simpl; lra); lra).
  pose proof (distance_lookup N u Planck15 (-3) (20 * u) (4100 * u) 256 xt (fchitab N (lift_cosmo Planck15) t) a RN ltac:(lra) (physical_expanding _ HP) ltac:(lra) ltac:(lia) Lx LF) as Y.
  cbv zeta in Y. rewrite E1 in Y. destruct (default_grid u ltac:(lra)) as (S & G & Q). specialize (Y ltac:(lra) G Hx X Ha).
  eapply Rle_trans; [exact Y|]. apply Rmult_le_compat_r.
  { pose proof (chi_table_decr Planck15 (-3) 256 (physical_expanding _ HP) ltac:(lra) ltac:(lia) 0%nat 255%nat) as Z.
    rewrite (proj2 (chi_table_length _ _ _)) in Z. specialize (Z ltac:(lia)). pose proof (chi_table_last Planck15 (-3) 256 ltac:(lia)) as Z1. change (256 - 1)%nat with 255%nat in Z1. lra. }
  pose proof default_ratio as R. cbv zeta in R. set (q := exp (3 * ln 10 / 255)) in *. pose proof (lookup_small u ltac:(lra)) as L.
  assert (Q0 : 0 < q / (q - 1)) by (apply Rdiv_lt_0_compat; lra).
  assert (SP : 0 <= span (20 * u) q <= 38.9).
  { replace (span (20 * u) q) with (q / (q - 1) * ((1 + 20 * u) / (1 - skew (20 * u) q))) by (unfold span; field; lra).
    assert (V : 0 <= (1 + 20 * u) / (1 - skew (20 * u) q) <= 1.00002 / (1 - 0.00154)).
    { split; [left; apply Rdiv_lt_0_compat; lra|]. apply Rmult_le_compat; try lra; [left; apply Rinv_0_lt_compat; lra|apply Rinv_le_contravar; lra]. }
    split; [apply Rmult_le_pos; lra|]. eapply Rle_trans; [apply Rmult_le_compat; [lra|apply V|exact Q|apply V]|]. lra. }
  assert (EE : 0 <= 20 * u / (1 - 20 * u) <= 20.001 * u).
  { split; [apply Rmult_le_pos; [lra|left; apply Rinv_0_lt_compat; lra]|]. apply Rmult_le_reg_r with (1 - 20 * u); [lra|]. unfold Rdiv. rewrite Rmult_assoc, Rinv_l by lra. nra. }
  unfold distance_loss.
  assert (A1 : 0 <= (2 * span (20 * u) q + 1) * (1 + 2 * (4100 * u)) <= 78.8 * 1.0082) by (split; [apply Rmult_le_pos; lra|apply Rmult_le_compat; lra]).
  assert (A2 : lookup_loss u * ((2 * span (20 * u) q + 1) * (1 + 2 * (4100 * u))) <= 6.01 * u * (78.8 * 1.0082)) by (apply Rmult_le_compat; lra).
  assert (A3 : q / (q - 1) * (20 * u / (1 - 20 * u)) <= 38.78 * (20.001 * u)) by (apply Rmult_le_compat; lra). lra.
Qed.
