(** * Halofit on dual numbers *)
From Coq Require Import Reals Lra Lia List ZArith String.
From Coquelicot Require Import Coquelicot.
From Verif Require Import Np NpLemmas Core Ode OdeSpec OdeProofs Interp InterpProofs InterpCont Integrate IntegrateSpec SimpsProofs RombProofs Background BgSpec
  BgAlgebra BgTables BgGrowth BgPositive BgProofs BgFinal BgFinal2 BgFinal4 BgGrad Transfer TransferProofs Power PowerProofs PowerFinal RedshiftShape
  DependsSpec BgDepends AmpScale PowerArrProofs HalofitScaleSpec HalofitScale HalofitScale2 GradSpec Probes AngularCl
  Ad AdSpec AdProofs AdBg AdGrowth AdFinal AdPower AdPowerProofs AdTransfer AdPowerFinal AdProbes AdRel AdProbesProofs AdArrSpec AdProbesFinal AdHalofit AdHalofitSpec.
Import ListNotations.
Local Open Scope R_scope.
Opaque chi_table growth_table_ODE growth_table_gamma logspace.

(** ** interpolation on a moving decreasing table *)
(** the nearest node is unique when it is strictly nearest *)
Lemma nearest_unique q xp i : (i < length xp)%nat -> (forall j, (j < length xp)%nat -> j <> i -> Rabs (q - el xp i) < Rabs (q - el xp j)) -> nearest q xp = i.
Proof.
  intros Hi HU. assert (Hne : xp <> []) by (intros ->; simpl in Hi; lia). destruct (nearest_spec q xp Hne) as [Hr Hmin].
  destruct (Nat.eq_dec (nearest q xp) i) as [E | E]; [ exact E | ]. specialize (HU _ Hr E). specialize (Hmin i Hi). lra.
Qed.
(** the pair of entries that answers *)
Lemma pair_decr {A} (N : num A) (X : A) (xp fp : list A) (xv : list R) i : map (val N) xp = xv -> val N (cst N 0) = 0 -> (3 <= length xv)%nat -> length fp = length xv -> decr xv -> nearest (val N X) xv = i ->
  let r := Nat.min (Nat.max i 1) (length xv - 2) in
  let j := if Nat.ltb r (length xv - 2) then (r - 1)%nat else (r + 1)%nat in
  ginterp1 N X xp fp =
    (let a := ndiv N (nsub N (nth j fp (cst N 0)) (nth r fp (cst N 0))) (nsub N (nth j xp (cst N 0)) (nth r xp (cst N 0))) in
     nadd N (nmul N a X) (nsub N (nth r fp (cst N 0)) (nmul N a (nth r xp (cst N 0))))).
Proof.
  intros EX V0 Hn Hl Hd HI r j. set (n := length xv) in *. assert (LX : length xp = n) by (unfold n; now rewrite <- EX, map_length).
  assert (Hin : (i < n)%nat). { rewrite <- HI. apply nearest_spec. intros ->. unfold n in Hn. simpl in Hn. lia. }
  assert (Hr : (1 <= r <= n - 2)%nat) by (unfold r; lia).
  assert (EV : forall k, (k < n)%nat -> val N (nth k xp (cst N 0)) = el xv k).
  { intros k Hk. unfold el. rewrite <- EX. rewrite (nth_map_lt (val N) xp k (cst N 0)) by lia. reflexivity. }
  unfold ginterp1. replace (argmin _) with i.
  2:{ rewrite <- HI. unfold nearest. f_equal. rewrite <- EX, map_map. reflexivity. }
  rewrite LX. replace (clipZ (Z.of_nat i) 1 (Z.of_nat n - 2)) with (Z.of_nat r) by (unfold clipZ, r; lia).
  assert (GN : forall l : list A, length l = n -> forall k, (k < n)%nat -> getZ (cst N 0) l (Z.of_nat k) = nth k l (cst N 0)).
  { intros l Ll k Hk. unfold getZ, clipZ. rewrite Ll. destruct (Z.ltb_spec (Z.of_nat k) 0); [ lia | ].
    replace (Z.to_nat (Z.min (Z.max (Z.of_nat k) 0) (Z.of_nat n - 1))) with k by lia. reflexivity. }
  assert (G2 : getZ (cst N 0) xp (-2) = nth (n - 2) xp (cst N 0)).
  { rewrite <- GN by lia. unfold getZ, clipZ. rewrite LX. change (-2 <? 0)%Z with true. cbv iota zeta.
    destruct (Z.ltb_spec (Z.of_nat (n - 2)) 0); [ lia | ]. f_equal. lia. }
  assert (G1 : getZ (cst N 0) xp 1 = nth 1 xp (cst N 0)) by (apply (GN xp LX 1%nat); lia).
  rewrite G1, G2, !(GN xp LX), !EV by lia. cbv zeta.
  assert (EC : clip (val N X) (el xv 1) (el xv (n - 2)) = el xv (n - 2)).
  { unfold clip. apply Rmin_right. apply Rle_trans with (el xv 1); [ apply decr_le; [ assumption | fold n; lia ] | apply Rmax_r ]. }
  rewrite EC. assert (EJ : (Z.of_nat r + copysign1 (isign (el xv (n - 2) - el xv r)))%Z = Z.of_nat j).
  { unfold j, isign. destruct (Nat.ltb_spec r (n - 2)) as [L | L].
    - assert (el xv (n - 2) < el xv r) by (apply Hd; fold n; lia). destruct (Rlt_dec _ 0); [ change (copysign1 (-1)) with (-1)%Z; lia | lra ].
    - assert (E : r = (n - 2)%nat) by lia. rewrite E. destruct (Rlt_dec _ 0); [ lra | ]. destruct (Rlt_dec 0 _); [ lra | ]. change (copysign1 0) with 1%Z. lia. }
  rewrite EJ. assert (Hj : (j < n)%nat) by (unfold j; destruct (Nat.ltb r (n - 2)); lia).
  rewrite !(GN xp LX), !(GN fp Hl) by lia. reflexivity.
Qed.

Section MovingTable.
Variable t : R.
Lemma locally_list n (P : nat -> R -> Prop) : (forall i, (i < n)%nat -> locally t (P i)) -> locally t (fun s => forall i, (i < n)%nat -> P i s).
Proof.
  induction n as [ | n IH]; intros H; [ apply filter_forall; intros; lia | ].
  assert (H1 := IH (fun i Hi => H i ltac:(lia))). assert (H2 := H n ltac:(lia)).
  apply (filter_imp (fun s => (forall i, (i < n)%nat -> P i s) /\ P n s)); [ | now apply filter_and ].
  intros s [A B] i Hi. destruct (Nat.eq_dec i n) as [-> | NE]; [ exact B | apply A; lia ].
Qed.
Lemma t_apart f x h y : tangent_of f t x -> tangent_of h t y -> f t < h t -> locally t (fun s => f s < h s).
Proof.
  intros Hf Hh L. apply (filter_imp (fun s => 0 < h s - f s)); [ intros; lra | ]. apply (t_gt t (fun s => h s - f s) (nsub num_dual y x)); [ now apply t_sub | lra ].
Qed.
Lemma t_interp_decr q Q F FD fp : tangent_of q t Q -> list_moves t F FD -> length fp = length FD -> (3 <= length FD)%nat -> decr (F t) ->
  (exists i, (i < length FD)%nat /\ forall j, (j < length FD)%nat -> j <> i -> Rabs (q t - el (F t) i) < Rabs (q t - el (F t) j)) ->
  tangent_of (fun s => interp1 (q s) (F s) fp) t (ginterp1 num_dual Q FD (map (cst num_dual) fp)).
Proof.
  intros HQ [L M] Hl Hn Hd (i & Hi & HU). set (n := length FD) in *.
  assert (EF : map (val num_dual) FD = F t).
  { apply (nth_ext _ _ 0 0); rewrite map_length; fold n; [ now rewrite L | ]. intros k Hk. rewrite (nth_map_lt (val num_dual) FD k (0, 0)) by exact Hk. exact (proj1 (M k Hk)). }
  assert (NU : nearest (q t) (F t) = i) by (apply nearest_unique; rewrite L; fold n; assumption).
  pose proof (pair_decr num_dual Q FD (map (cst num_dual) fp) (F t) i EF eq_refl ltac:(rewrite L; exact Hn) ltac:(rewrite map_length, L; exact Hl) Hd ltac:(now rewrite (proj1 HQ : val num_dual Q = q t))) as E.
  cbv zeta in E. rewrite L in E. fold n in E. set (r := Nat.min (Nat.max i 1) (n - 2)) in *. set (j := if Nat.ltb r (n - 2) then (r - 1)%nat else (r + 1)%nat) in *. rewrite E. clear E.
  assert (Hr : (1 <= r <= n - 2)%nat) by (unfold r; lia). assert (Hj : (j < n)%nat /\ j <> r) by (unfold j; destruct (Nat.ltb r (n - 2)); lia).
  assert (NE : el (F t) j - el (F t) r <> 0).
  { destruct Hj as [Hj Hjr]. assert (j < r \/ r < j)%nat as [K | K] by lia; [ assert (el (F t) r < el (F t) j) | assert (el (F t) j < el (F t) r) ]; try lra; apply Hd; rewrite L; fold n; lia. }
  set (Ls := fun s => let a := (el fp j - el fp r) / (el (F s) j - el (F s) r) in a * q s + (el fp r - a * el (F s) r)).
  refine (t_loc t Ls _ _ _ _).
  - (* nearby tables decrease and have the same nearest node *)
    assert (D1 : locally t (fun s => forall k, (k < n)%nat -> forall m, (m < n)%nat -> (k < m)%nat -> el (F s) m < el (F s) k)).
    { apply (locally_list n (fun k s => forall m, (m < n)%nat -> (k < m)%nat -> el (F s) m < el (F s) k)). intros k Hk.
      apply (locally_list n (fun m s => (k < m)%nat -> el (F s) m < el (F s) k)). intros m Hm.
      destruct (lt_dec k m) as [K | K]; [ | apply filter_forall; intros; lia ].
      apply (filter_imp (fun s => el (F s) m < el (F s) k)); [ auto | ]. apply (t_apart _ _ _ _ (M m Hm) (M k Hk)). apply Hd. rewrite L. fold n. lia. }
    assert (D2 : locally t (fun s => forall m, (m < n)%nat -> m <> i -> Rabs (q s - el (F s) i) < Rabs (q s - el (F s) m))).
    { apply (locally_list n (fun m s => m <> i -> Rabs (q s - el (F s) i) < Rabs (q s - el (F s) m))). intros m Hm.
      destruct (Nat.eq_dec m i) as [K | K]; [ apply filter_forall; intros; lia | ].
      apply (filter_imp (fun s => (q s - el (F s) i) ^ 2 < (q s - el (F s) m) ^ 2)).
      - intros s Hs _. apply Rsqr_lt_abs_0. now rewrite !Rsqr_pow2.
      - apply (t_apart _ _ _ _ (t_sq t _ _ (t_sub t _ _ _ _ HQ (M i Hi))) (t_sq t _ _ (t_sub t _ _ _ _ HQ (M m Hm)))).
        specialize (HU m Hm K). apply Rsqr_lt_abs_1 in HU. rewrite !Rsqr_pow2 in HU. exact HU. }
    apply (filter_imp (fun s => (forall k, (k < n)%nat -> forall m, (m < n)%nat -> (k < m)%nat -> el (F s) m < el (F s) k) /\
      (forall m, (m < n)%nat -> m <> i -> Rabs (q s - el (F s) i) < Rabs (q s - el (F s) m)))); [ | now apply filter_and ].
    intros s [A1 A2]. assert (Ds : decr (F s)) by (intros k m Hkm; rewrite L in Hkm; fold n in Hkm; apply A1; lia).
    assert (Ns : nearest (q s) (F s) = i) by (apply nearest_unique; rewrite L; fold n; assumption).
    pose proof (pair_decr num_R (q s) (F s) fp (F s) i (map_id _) eq_refl ltac:(rewrite L; exact Hn) ltac:(rewrite L; exact Hl) Ds Ns) as E.
    rewrite R_interp in E. rewrite E. cbv zeta. rewrite L. fold n. fold r. fold j. reflexivity.
  - assert (Mr := M r ltac:(lia)). assert (Mj := M j ltac:(lia)). unfold Ls. cbv zeta. change (cst num_dual 0) with ((0, 0) : dual).
    rewrite !(nth_map_lt (cst num_dual) fp _ 0 (0, 0)) by lia.
    assert (TA := t_div t _ _ _ _ NE (t_sub t _ _ _ _ (t_cst t (el fp j)) (t_cst t (el fp r))) (t_sub t _ _ _ _ Mj Mr)).
    exact (t_add t _ _ _ _ (t_mul t _ _ _ _ TA HQ) (t_sub t _ _ _ _ (t_cst t (el fp r)) (t_mul t _ _ _ _ TA Mr))).
Qed.
End MovingTable.
