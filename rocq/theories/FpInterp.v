(** * The rounded table lookup *)
From Coq Require Import Reals Lra Lia ZArith List.
From Verif Require Import Np NpLemmas Interp OdeSpec InterpProofs InterpCont Ad Fp FpSpec FpProofs.
Import ListNotations.
Local Open Scope R_scope.

Section Lookup.
Context (N : num R) (u : R) {RN : rounding N u} (U : u <= 0.1).

Lemma sq_range x p : let d := nsub N x p in
  (1 - u) ^ 3 * (x - p) ^ 2 <= nmul N d d <= (1 + u) ^ 3 * (x - p) ^ 2.
Proof.
  intros d. pose proof (r_u (N := N)) as [U0 _]. pose proof (r_sub (N := N) x p) as A. pose proof (r_mul (N := N) d d) as B. fold d in A.
  unfold near in A, B. assert (D0 : 0 <= d * d) by nra. rewrite (Rabs_right (d * d)) in B by lra. apply abs_between in B.
  assert (E : (x - p) ^ 2 = Rabs (x - p) ^ 2) by (rewrite pow2_abs; reflexivity). rewrite E. set (y := Rabs (x - p)) in *. pose proof (Rabs_pos (x - p)) as Y. fold y in Y.
  assert (C : (1 - u) * y <= Rabs d <= (1 + u) * y).
  { pose proof (Rabs_triang_inv d (x - p)) as T1. pose proof (Rabs_triang_inv (x - p) d) as T2. rewrite (Rabs_minus_sym (x - p) d) in T2. fold y in T1, T2. lra. }
  assert (D : d * d = Rabs d * Rabs d) by (replace (d * d) with (d ^ 2) by ring; rewrite <- pow2_abs; ring).
  set (z := Rabs d) in *. assert (Z : 0 <= z) by (unfold z; apply Rabs_pos). rewrite D in *.
  assert (L : ((1 - u) * y) * ((1 - u) * y) <= z * z) by (apply Rmult_le_compat; nra).
  assert (M : z * z <= ((1 + u) * y) * ((1 + u) * y)) by (apply Rmult_le_compat; nra).
  split.
  - replace ((1 - u) ^ 3 * y ^ 2) with ((1 - u) * (((1 - u) * y) * ((1 - u) * y))) by ring.
    apply Rle_trans with ((1 - u) * (z * z)); [apply Rmult_le_compat_l; lra|lra].
  - replace ((1 + u) ^ 3 * y ^ 2) with ((1 + u) * (((1 + u) * y) * ((1 + u) * y))) by ring.
    apply Rle_trans with ((1 + u) * (z * z)); [lra|apply Rmult_le_compat_l; lra].
Qed.
Lemma sign_exact x y : isign (nsub N x y) = isign (x - y).
Proof.
  pose proof (r_u (N := N)) as [U0 _]. pose proof (r_sub (N := N) x y) as A. unfold near in A. set (z := nsub N x y) in *. set (d := x - y) in *.
  unfold isign. apply abs_between in A. unfold Rabs in A. destruct (Rcase_abs d); destruct (Rlt_dec z 0), (Rlt_dec d 0); try reflexivity; try nra.
  destruct (Rlt_dec 0 z), (Rlt_dec 0 d); try reflexivity; nra.
Qed.

(** distances: another node is at least twice as far as the nearer end of the cell *)
Lemma far xp m k x : even_grid xp -> (m + 1 < length xp)%nat -> (k < length xp)%nat -> k <> m -> k <> (m + 1)%nat ->
  el xp m <= x <= el xp (m + 1) ->
  exists e, (e = m \/ e = m + 1)%nat /\ 2 * Rabs (x - el xp e) <= Rabs (x - el xp k) /\ 0 < Rabs (x - el xp k).
Proof.
  intros [Hi Hg] Hm Hk K1 K2 Hx. assert (G : el xp m < el xp (m + 1)) by (apply Hi; lia).
  assert (D : (el xp (m + 1) - el xp m) / 2 + (x - el xp m) <= Rabs (x - el xp k) \/ (el xp (m + 1) - el xp m) / 2 + (el xp (m + 1) - x) <= Rabs (x - el xp k)).
  { destruct (Nat.lt_ge_cases k m) as [L|L].
    - left. assert (el xp k <= el xp (m - 1)) by (apply incr_le; [exact Hi|lia]). destruct (Hg (m - 1)%nat ltac:(lia)) as [_ B].
      replace (m - 1 + 1)%nat with m in B by lia. replace (m - 1 + 2)%nat with (m + 1)%nat in B by lia.
      rewrite Rabs_right by lra. lra.
    - right. assert (el xp (m + 2) <= el xp k) by (apply incr_le; [exact Hi|lia]). destruct (Hg m ltac:(lia)) as [B _].
      rewrite Rabs_left1 by lra. lra. }
  destruct (Rle_dec (x - el xp m) (el xp (m + 1) - x)).
  - exists m. split; [now left|]. rewrite (Rabs_right (x - el xp m)) by lra. destruct D; split; lra.
  - exists (m + 1)%nat. split; [now right|]. rewrite (Rabs_left1 (x - el xp (m + 1))) by lra. destruct D; split; lra.
Qed.

Lemma pick xp m x : even_grid xp -> (m + 1 < length xp)%nat -> el xp m <= x <= el xp (m + 1) ->
  let r := argmin (map (fun p => let d := nsub N x p in nmul N d d) xp) in r = m \/ r = (m + 1)%nat.
Proof.
  intros He Hm Hx r. pose proof (r_u (N := N)) as [U0 _].
  set (l := map (fun p => let d := nsub N x p in nmul N d d) xp) in *.
  assert (Ll : length l = length xp) by (unfold l; now rewrite map_length).
  assert (Hl : l <> []) by (intros Q; rewrite Q in Ll; simpl in Ll; lia).
  destruct (argmin_spec l Hl) as (Hr & Hmin & _). fold r in Hr, Hmin. rewrite Ll in Hr.
  destruct (Nat.eq_dec r m) as [|K1]; [now left|]. destruct (Nat.eq_dec r (m + 1)) as [|K2]; [now right|]. exfalso.
  destruct (far xp m r x He Hm Hr K1 K2 Hx) as (e & Ee & F1 & F2).
  assert (EL : forall k, (k < length xp)%nat -> el l k = let d := nsub N x (el xp k) in nmul N d d).
  { intros k Hk. unfold l, el. rewrite (nth_map_lt _ _ _ 0 0) by exact Hk. reflexivity. }
  assert (Q : el l r <= el l e) by (apply Hmin; rewrite Ll; lia).
  rewrite !EL in Q by lia. cbv zeta in Q. pose proof (proj1 (sq_range x (el xp r))) as A. pose proof (proj2 (sq_range x (el xp e))) as B.
  rewrite <- (pow2_abs (x - el xp r)) in A. rewrite <- (pow2_abs (x - el xp e)) in B.
  set (y := Rabs (x - el xp r)) in *. set (z := Rabs (x - el xp e)) in *. assert (Z : 0 <= z) by (unfold z; apply Rabs_pos).
  assert (Y2 : 0 < y ^ 2) by nra. assert (YZ : 4 * z ^ 2 <= y ^ 2) by nra.
  assert (P1 : (1 + u) ^ 3 <= 1.331) by nra. assert (P2 : 0.729 <= (1 - u) ^ 3) by nra.
  assert (0 <= z ^ 2) by nra. nra.
Qed.

(** the two nodes used are the ends of the cell that contains the query *)
Lemma lookup_cell x xp fp : (3 <= length xp)%nat -> length fp = length xp -> even_grid xp -> el xp 1 <= x <= el xp (length xp - 1) ->
  exists m i j, (1 <= m)%nat /\ (m + 1 < length xp)%nat /\ el xp m <= x <= el xp (m + 1) /\ (i = m /\ j = m + 1 \/ i = m + 1 /\ j = m)%nat /\
  finterp1 N x xp fp =
    let a := ndiv N (nsub N (el fp j) (el fp i)) (nsub N (el xp j) (el xp i)) in nadd N (nmul N a x) (nsub N (el fp i) (nmul N a (el xp i))).
Proof.
  intros Hn Hl He Hx. pose proof He as [Hi _].
  assert (C : exists m, (1 <= m)%nat /\ (m + 1 < length xp)%nat /\ el xp m <= x <= el xp (m + 1) /\ (x < el xp (m + 1) \/ (m = length xp - 2)%nat)).
  { assert (G : forall k, (1 <= k)%nat -> (k + 1 < length xp)%nat -> el xp k <= x ->
      exists m, (1 <= m)%nat /\ (m + 1 < length xp)%nat /\ el xp m <= x <= el xp (m + 1) /\ (x < el xp (m + 1) \/ (m = length xp - 2)%nat)).
    { intros k K1 K2. remember (length xp - 2 - k)%nat as f. revert k K1 K2 Heqf. induction f as [|f IH]; intros k K1 K2 Hf Hk.
      - exists k. assert (k = length xp - 2)%nat by lia. replace (k + 1)%nat with (length xp - 1)%nat by lia. repeat split; try lia; try lra.
      - destruct (Rlt_dec x (el xp (k + 1))) as [H|H]; [exists k; repeat split; auto; lra|]. apply (IH (k + 1)%nat); try lia. lra. }
    apply (G 1%nat); try lia. lra. }
  destruct C as (m & M1 & M2 & Mx & Mlast). set (n := length xp) in *.
  destruct (pick xp m x He M2 Mx) as [P|P]; unfold finterp1; cbv zeta in P |- *; rewrite P; fold n.
  - exists m, m, (m + 1)%nat. repeat split; try lia; try lra.
    replace (clipZ (Z.of_nat m) 1 (Z.of_nat n - 2)) with (Z.of_nat m) by (unfold clipZ; lia).
    cbv zeta. rewrite sign_exact. change (getZ 0 xp 1) with (getZ 0 xp (Z.of_nat 1)). rewrite getZ_m2 by (fold n; lia). rewrite !(getZ_nat xp) by (fold n; lia). fold n.
    assert (S : copysign1 (isign (clip x (el xp 1) (el xp (n - 2)) - el xp m)) = 1%Z).
    { assert (el xp m <= clip x (el xp 1) (el xp (n - 2))).
      { unfold clip. apply Rmin_glb; [eapply Rle_trans; [|apply Rmax_l]; lra|]. apply incr_le; [exact Hi|lia]. }
      unfold isign. destruct (Rlt_dec _ 0); [lra|]. destruct (Rlt_dec 0 _); reflexivity. }
    rewrite S. replace (Z.of_nat m + 1)%Z with (Z.of_nat (m + 1)) by lia. rewrite !getZ_nat by (rewrite ?Hl; fold n; lia). reflexivity.
  - destruct (Nat.eq_dec m (n - 2)) as [E|E].
    + exists m, m, (m + 1)%nat. repeat split; try lia; try lra.
      replace (clipZ (Z.of_nat (m + 1)) 1 (Z.of_nat n - 2)) with (Z.of_nat m) by (unfold clipZ; lia).
      cbv zeta. rewrite sign_exact. change (getZ 0 xp 1) with (getZ 0 xp (Z.of_nat 1)). rewrite getZ_m2 by (fold n; lia). rewrite !(getZ_nat xp) by (fold n; lia). fold n.
      assert (S : copysign1 (isign (clip x (el xp 1) (el xp (n - 2)) - el xp m)) = 1%Z).
      { assert (el xp m <= clip x (el xp 1) (el xp (n - 2))).
        { unfold clip. apply Rmin_glb; [eapply Rle_trans; [|apply Rmax_l]; lra|]. apply incr_le; [exact Hi|lia]. }
        unfold isign. destruct (Rlt_dec _ 0); [lra|]. destruct (Rlt_dec 0 _); reflexivity. }
      rewrite S. replace (Z.of_nat m + 1)%Z with (Z.of_nat (m + 1)) by lia. rewrite !getZ_nat by (rewrite ?Hl; fold n; lia). reflexivity.
    + exists m, (m + 1)%nat, m. repeat split; try lia; try lra.
      replace (clipZ (Z.of_nat (m + 1)) 1 (Z.of_nat n - 2)) with (Z.of_nat (m + 1)) by (unfold clipZ; lia).
      cbv zeta. rewrite sign_exact. change (getZ 0 xp 1) with (getZ 0 xp (Z.of_nat 1)). rewrite getZ_m2 by (fold n; lia). rewrite !(getZ_nat xp) by (fold n; lia). fold n.
      assert (S : copysign1 (isign (clip x (el xp 1) (el xp (n - 2)) - el xp (m + 1))) = (-1)%Z).
      { assert (clip x (el xp 1) (el xp (n - 2)) < el xp (m + 1)).
        { destruct Mlast as [ML|ML]; [|lia]. unfold clip. eapply Rle_lt_trans; [apply Rmin_l|]. apply Rmax_lub_lt; [exact ML|apply Hi; fold n; lia]. }
        unfold isign. destruct (Rlt_dec _ 0); [reflexivity|lra]. }
      rewrite S. replace (Z.of_nat (m + 1) + -1)%Z with (Z.of_nat m) by lia. rewrite !getZ_nat by (rewrite ?Hl; fold n; lia). reflexivity.
Qed.

(** evaluating the line *)
Lemma upto_slope nf dx : dx <> 0 -> forall nf' dx', near u nf' nf -> near u dx' dx ->
  upto ((1 + u) * (/ (1 - u)) * (1 + u)) (Rabs (nf / dx)) (ndiv N nf' dx') (nf / dx).
Proof.
  intros D nf' dx' A B. pose proof (r_u (N := N)) as [U0 U1]. unfold near in B.
  assert (D0 : 0 < Rabs dx) by now apply Rabs_pos_lt.
  assert (D1 : (1 - u) * Rabs dx <= Rabs dx').
  { pose proof (Rabs_triang_inv dx dx') as T. rewrite (Rabs_minus_sym dx dx') in T. lra. }
  assert (D2 : 0 < Rabs dx') by nra. assert (D' : dx' <> 0) by (intros Q; rewrite Q, Rabs_R0 in D2; lra).
  assert (G : 1 <= / (1 - u)) by (rewrite <- Rinv_1 at 1; apply Rinv_le_contravar; lra).
  apply (upto_near u _ _ (nf' / dx')); [lra|apply r_div; exact D'|]. unfold Rdiv. rewrite Rabs_mult.
  apply upto_mul.
  - rewrite <- (Rmult_1_l (1 + u)). eapply upto_near; [lra|exact A|apply upto_refl].
  - split; [exact G|]. split; [lra|]. replace (/ dx' - / dx) with ((dx - dx') * / dx' * / dx) by (field; auto).
    rewrite !Rabs_mult, Rabs_inv. rewrite (Rabs_minus_sym dx dx'). apply Rmult_le_compat_r; [rewrite Rabs_inv; left; now apply Rinv_0_lt_compat|].
    apply Rle_trans with (u * Rabs dx * / ((1 - u) * Rabs dx)).
    + apply Rmult_le_compat; [apply Rabs_pos|left; now apply Rinv_0_lt_compat|exact B|]. apply Rinv_le_contravar; [nra|exact D1].
    + right. field. lra.
Qed.
Lemma eval_line x xi xj fi fj : xj <> xi ->
  let a := ndiv N (nsub N fj fi) (nsub N xj xi) in let s := (fj - fi) / (xj - xi) in
  Rabs (nadd N (nmul N a x) (nsub N fi (nmul N a xi)) - (s * x + (fi - s * xi))) <= ((1 + u) ^ 5 / (1 - u) - 1) * (Rabs s * (Rabs x + Rabs xi) + Rabs fi).
Proof.
  intros D a s. pose proof (r_u (N := N)) as [U0 U1].
  pose proof (upto_slope (fj - fi) (xj - xi) ltac:(lra) _ _ (r_sub (N := N) fj fi) (r_sub (N := N) xj xi)) as A. fold a s in A.
  set (g := (1 + u) * / (1 - u) * (1 + u)) in A. pose proof (proj1 A) as G.
  assert (M : forall y, upto (g * (1 + u)) (Rabs s * Rabs y) (nmul N a y) (s * y)).
  { intros y. eapply upto_near; [exact U0|apply r_mul|]. rewrite <- (Rmult_1_r g). apply upto_mul; [exact A|apply upto_refl]. }
  assert (Bi : upto (g * (1 + u) * (1 + u)) (Rabs fi + Rabs s * Rabs xi) (nsub N fi (nmul N a xi)) (fi - s * xi)).
  { eapply upto_near; [exact U0|apply r_sub|]. apply upto_sub; [|apply M]. eapply upto_grow; [| |apply upto_refl]; nra. }
  assert (S : upto (g * (1 + u) * (1 + u) * (1 + u)) (Rabs s * Rabs x + (Rabs fi + Rabs s * Rabs xi)) (nadd N (nmul N a x) (nsub N fi (nmul N a xi))) (s * x + (fi - s * xi))).
  { eapply upto_near; [exact U0|apply r_add|]. apply upto_add; [|exact Bi]. eapply upto_grow; [| |apply M]; nra. }
  destruct S as (_ & _ & S). eapply Rle_trans; [exact S|]. right. unfold g. field. lra.
Qed.

(** the lookup in a table whose entries and neighbouring differences are at most F, whose nodes are positive and at most rho gaps *)
Lemma lookup_error x xp fp rho F : (3 <= length xp)%nat -> length fp = length xp -> even_grid xp -> el xp 1 <= x <= el xp (length xp - 1) ->
  0 < el xp 1 -> (forall k, (1 <= k)%nat -> (k + 1 < length xp)%nat -> el xp (k + 1) <= rho * (el xp (k + 1) - el xp k)) ->
  (forall k, (1 <= k < length xp)%nat -> Rabs (el fp k) <= F) ->
  (forall k, (1 <= k)%nat -> (k + 1 < length xp)%nat -> Rabs (el fp (k + 1) - el fp k) <= F) ->
  Rabs (finterp1 N x xp fp - interp1 x xp fp) <= lookup_loss u * ((2 * rho + 1) * F).
Proof.
  unfold lookup_loss.  intros Hn Hl He Hx H1 Hr HF HD. pose proof (r_u (N := N)) as [U0 U1]. pose proof He as [Hi _].
  destruct (lookup_cell x xp fp Hn Hl He Hx) as (m & i & j & M1 & M2 & Mx & Hij & ->). cbv zeta.
  rewrite (interp1_incr x xp fp m) by assumption. assert (G : el xp m < el xp (m + 1)) by (apply Hi; lia).
  assert (G1 : 1 <= (1 + u) ^ 5 / (1 - u)).
  { assert (1 <= (1 + u) ^ 5) by (apply pow_R1_Rle; lra). apply Rmult_le_reg_r with (1 - u); [lra|]. unfold Rdiv. rewrite Rmult_assoc, Rinv_l by lra. lra. }
  assert (P1 : el xp 1 <= el xp m) by (apply incr_le; [exact Hi|lia]).
  assert (W : forall s xi fi, s = (el fp (m + 1) - el fp m) / (el xp (m + 1) - el xp m) -> (xi = el xp m \/ xi = el xp (m + 1)) -> (Rabs fi <= F) ->
    Rabs s * (Rabs x + Rabs xi) + Rabs fi <= (2 * rho + 1) * F).
  { intros s xi fi Es Exi Efi. assert (X2 : Rabs x + Rabs xi <= 2 * el xp (m + 1)).
    { rewrite (Rabs_right x) by lra. destruct Exi as [->| ->]; rewrite Rabs_right by lra; lra. }
    assert (Rabs s * (el xp (m + 1) - el xp m) <= F).
    { rewrite <- (Rabs_right (el xp (m + 1) - el xp m)) by lra. rewrite <- Rabs_mult. replace (s * (el xp (m + 1) - el xp m)) with (el fp (m + 1) - el fp m) by (rewrite Es; field; lra). apply HD; lia. }
    pose proof (Hr m M1 M2) as R1. pose proof (Rabs_pos s).
    assert (Rp : 0 < rho). { apply Rmult_lt_reg_r with (el xp (m + 1) - el xp m); [lra|]. lra. }
    assert (Rabs s * (Rabs x + Rabs xi) <= Rabs s * (2 * (rho * (el xp (m + 1) - el xp m)))) by (apply Rmult_le_compat_l; lra).
    assert (2 * rho * (Rabs s * (el xp (m + 1) - el xp m)) <= 2 * rho * F) by (apply Rmult_le_compat_l; lra). lra. }
  destruct Hij as [[-> ->]|[-> ->]].
  - pose proof (eval_line x (el xp m) (el xp (m + 1)) (el fp m) (el fp (m + 1)) ltac:(lra)) as E. cbv zeta in E.
    match type of E with Rabs (?p - ?q) <= _ => replace (cell xp fp m x) with q by (unfold cell, line; field; lra) end.
    eapply Rle_trans; [exact E|]. apply Rmult_le_compat_l; [lra|]. apply W; [reflexivity|now left|apply HF; lia].
  - pose proof (eval_line x (el xp (m + 1)) (el xp m) (el fp (m + 1)) (el fp m) ltac:(lra)) as E. cbv zeta in E.
    match type of E with Rabs (?p - ?q) <= _ => replace (cell xp fp m x) with q by (unfold cell, line; field; lra) end.
    eapply Rle_trans; [exact E|]. apply Rmult_le_compat_l; [lra|]. apply W; [field; lra|now right|apply HF; lia].
Qed.
End Lookup.

(** ** dependence of the exact lookup on the table *)
Section Perturb.
Context (xp fp : list R) (M : R) (Hn : (3 <= length xp)%nat) (Hl : length fp = length xp) (Hi : incr xp) (P1 : 0 < el xp 1)
  (HM : forall k, (1 <= k)%nat -> (k + 1 < length xp)%nat -> Rabs (el fp (k + 1) - el fp k) * el xp (k + 1) <= M * (el xp (k + 1) - el xp k)).
Lemma M_nonneg : 0 <= M.
Proof.
  pose proof (HM 1%nat ltac:(lia) ltac:(lia)) as A. assert (G : el xp 1 < el xp (1 + 1)) by (apply Hi; lia).
  assert (0 <= Rabs (el fp (1 + 1) - el fp 1) * el xp (1 + 1)) by (apply Rmult_le_pos; [apply Rabs_pos|lra]). nra.
Qed.
(** within one cell, also to the left of it *)
Lemma cell_loglip k y x : (1 <= k)%nat -> (k + 1 < length xp)%nat -> 0 < y -> y <= x -> y <= el xp (k + 1) ->
  Rabs (cell xp fp k x - cell xp fp k y) <= M * ((x - y) / y).
Proof.
  intros K1 K2 Y0 Yx Yk. assert (G : el xp k < el xp (k + 1)) by (apply Hi; lia). pose proof M_nonneg.
  assert (E : cell xp fp k x - cell xp fp k y = (el fp (k + 1) - el fp k) * ((x - y) / (el xp (k + 1) - el xp k))) by (unfold cell, line; field; lra).
  rewrite E, Rabs_mult, (Rabs_right ((x - y) / _)) by (apply Rle_ge, Rmult_le_pos; [lra|left; apply Rinv_0_lt_compat; lra]).
  pose proof (HM k K1 K2) as A. set (f := Rabs (el fp (k + 1) - el fp k)) in *. set (g := el xp (k + 1) - el xp k) in *.
  assert (F0 : 0 <= f) by (unfold f; apply Rabs_pos). assert (g0 : 0 < g) by (unfold g; lra).
  apply Rmult_le_reg_r with (g * y); [nra|]. replace (f * ((x - y) / g) * (g * y)) with ((f * y) * (x - y)) by (field; lra).
  replace (M * ((x - y) / y) * (g * y)) with ((M * g) * (x - y)) by (field; lra). apply Rmult_le_compat_r; [lra|]. nra.
Qed.
Lemma split_log y z x : 0 < y -> y <= z -> z <= x -> M * ((z - y) / y) + M * ((x - z) / z) <= M * ((x - y) / y).
Proof.
  intros Y0 Yz Zx. pose proof M_nonneg. rewrite <- Rmult_plus_distr_l. apply Rmult_le_compat_l; [assumption|].
  assert ((x - z) / z <= (x - z) / y) by (apply Rmult_le_compat_l; [lra|apply Rinv_le_contravar; lra]). replace ((x - y) / y) with ((z - y) / y + (x - z) / y) by (field; lra). lra.
Qed.
Lemma interp_loglip_node : forall f k x, (1 <= k)%nat -> (k + 1 + f = length xp)%nat -> el xp k <= x -> Rabs (interp1 x xp fp - el fp k) <= M * ((x - el xp k) / el xp k).
Proof.
  induction f as [|f IH]; intros k x K1 Kf Kx.
  - assert (E : k = (length xp - 1)%nat) by lia. assert (Q : el xp 1 <= el xp k) by (apply incr_le; [exact Hi|lia]).
    assert (B : el xp (length xp - 2) <= el xp k) by (apply incr_le; [exact Hi|lia]).
    rewrite (interp1_above x) by (auto; lra).
    replace (el fp k) with (cell xp fp (length xp - 2) (el xp k)).
    + apply cell_loglip; try lia; try lra. right. f_equal. lia.
    + replace k with (length xp - 2 + 1)%nat at 1 2 by lia. apply cell_right. apply incr_neq; [assumption|lia].
  - assert (K2 : (k + 1 < length xp)%nat) by lia. assert (Q : el xp 1 <= el xp k) by (apply incr_le; [exact Hi|lia]).
    assert (G : el xp k < el xp (k + 1)) by (apply Hi; lia).
    assert (W : forall z, el xp k <= z <= el xp (k + 1) -> Rabs (interp1 z xp fp - el fp k) <= M * ((z - el xp k) / el xp k)).
    { intros z Hz. rewrite (interp1_incr z xp fp k) by auto. replace (el fp k) with (cell xp fp k (el xp k)) by (apply cell_left; lra). apply cell_loglip; auto; lra. }
    destruct (Rle_dec x (el xp (k + 1))) as [L|L]; [apply W; lra|].
    pose proof (IH (k + 1)%nat x ltac:(lia) ltac:(lia) ltac:(lra)) as A. pose proof (W (el xp (k + 1)) ltac:(lra)) as B.
    rewrite (interp1_node xp fp (k + 1)) in B by (auto; lia).
    eapply Rle_trans; [|apply (split_log (el xp k) (el xp (k + 1)) x); lra].
    replace (interp1 x xp fp - el fp k) with ((interp1 x xp fp - el fp (k + 1)) + (el fp (k + 1) - el fp k)) by ring.
    eapply Rle_trans; [apply Rabs_triang|]. lra.
Qed.
Lemma interp_loglip y x : 0 < y -> y <= x -> y <= el xp (length xp - 1) -> Rabs (interp1 x xp fp - interp1 y xp fp) <= M * ((x - y) / y).
Proof.
  intros Y0 Yx Yn. destruct (interp1_cell y xp fp Hn Hl Hi) as (c & Hc & Ey & Hlo & Hhi).
  assert (Yc : y <= el xp (c + 1)) by (destruct Hhi as [|E]; [assumption|replace (c + 1)%nat with (length xp - 1)%nat by lia; assumption]).
  assert (Gc : el xp c < el xp (c + 1)) by (apply Hi; lia).
  assert (W : forall z, y <= z -> z <= el xp (c + 1) -> Rabs (interp1 z xp fp - interp1 y xp fp) <= M * ((z - y) / y)).
  { intros z Yz Zc. assert (Ez : interp1 z xp fp = cell xp fp c z).
    { destruct Hlo as [Hlo| ->]; [apply interp1_incr; auto; try lia; lra|]. destruct (Rle_dec z (el xp 1)); [apply interp1_below; auto|apply interp1_incr; auto; try lia; simpl in *; lra]. }
    rewrite Ez, Ey. apply cell_loglip; auto; lia. }
  destruct (Rle_dec x (el xp (c + 1))) as [L|L]; [apply W; lra|].
  pose proof (interp_loglip_node (length xp - 1 - (c + 1)) (c + 1) x ltac:(lia) ltac:(lia) ltac:(lra)) as A.
  pose proof (W (el xp (c + 1)) Yc ltac:(lra)) as B. rewrite (interp1_node xp fp (c + 1)) in B by (auto; lia).
  eapply Rle_trans; [|apply (split_log y (el xp (c + 1)) x); lra].
  replace (interp1 x xp fp - interp1 y xp fp) with ((interp1 x xp fp - el fp (c + 1)) + (el fp (c + 1) - interp1 y xp fp)) by ring.
  eapply Rle_trans; [apply Rabs_triang|]. lra.
Qed.

Lemma perturbed xq fq x e E : length xq = length xp -> length fq = length xp -> incr xq -> 0 <= e < 1 ->
  (forall k, (1 <= k < length xp)%nat -> Rabs (el xq k - el xp k) <= e * el xp k) ->
  (forall k, (1 <= k < length xp)%nat -> Rabs (el fq k - el fp k) <= E) ->
  el xq 1 <= x <= el xq (length xp - 1) ->
  Rabs (interp1 x xq fq - interp1 x xp fp) <= E + M * (e / (1 - e)).
Proof.
  intros Lx Lf Hq He Hx HE Qx. pose proof M_nonneg as M0.
  destruct (interp1_cell x xq fq ltac:(lia) ltac:(lia) Hq) as (c & Hc & Ex & Hlo & Hhi).
  assert (C1 : el xq c <= x) by (destruct Hlo as [|E0]; [assumption|rewrite E0; lra]).
  assert (C2 : x <= el xq (c + 1)) by (destruct Hhi as [|E0]; [assumption|replace (c + 1)%nat with (length xp - 1)%nat by lia; lra]).
  assert (G : el xq c < el xq (c + 1)) by (apply Hq; lia).
  set (w := (x - el xq c) / (el xq (c + 1) - el xq c)).
  assert (W : 0 <= w <= 1).
  { unfold w. split; [apply Rmult_le_pos; [lra|left; apply Rinv_0_lt_compat; lra]|]. apply Rmult_le_reg_r with (el xq (c + 1) - el xq c); [lra|]. unfold Rdiv. rewrite Rmult_assoc, Rinv_l by lra. lra. }
  assert (EX : x = (1 - w) * el xq c + w * el xq (c + 1)) by (unfold w; field; lra).
  set (y := (1 - w) * el xp c + w * el xp (c + 1)).
  assert (Gp : el xp c < el xp (c + 1)) by (apply Hi; lia). assert (Pc : el xp 1 <= el xp c) by (apply incr_le; [exact Hi|lia]).
  assert (Yc : el xp c <= y <= el xp (c + 1)) by (unfold y; nra).
  assert (Pn : el xp (c + 1) <= el xp (length xp - 1)) by (apply incr_le; [exact Hi|lia]).
  assert (Ey : interp1 y xp fp = (1 - w) * el fp c + w * el fp (c + 1)).
  { rewrite (interp1_incr y xp fp c) by (auto; lia). unfold cell, line, y. field. lra. }
  assert (Ex' : interp1 x xq fq = (1 - w) * el fq c + w * el fq (c + 1)).
  { rewrite Ex. unfold cell, line, w. field. lra. }
  assert (A : Rabs (interp1 x xq fq - interp1 y xp fp) <= E).
  { rewrite Ex', Ey. pose proof (abs_between _ _ (HE c ltac:(lia))). pose proof (abs_between _ _ (HE (c + 1)%nat ltac:(lia))). apply Rabs_le. nra. }
  assert (D : Rabs (x - y) <= e * y).
  { pose proof (abs_between _ _ (Hx c ltac:(lia))) as A1. pose proof (abs_between _ _ (Hx (c + 1)%nat ltac:(lia))) as A2. unfold y. rewrite EX at 1. apply Rabs_le. nra. }
  assert (B : Rabs (interp1 y xp fp - interp1 x xp fp) <= M * (e / (1 - e))).
  { apply abs_between in D. assert (I1 : 1 <= / (1 - e)) by (rewrite <- Rinv_1 at 1; apply Rinv_le_contravar; lra). destruct (Rle_dec y x) as [L|L].
    - rewrite Rabs_minus_sym. eapply Rle_trans; [apply interp_loglip; lra|]. apply Rmult_le_compat_l; [exact M0|].
      apply Rle_trans with e; [apply Rmult_le_reg_r with y; [lra|]; unfold Rdiv; rewrite Rmult_assoc, Rinv_l by lra; lra|]. unfold Rdiv. nra.
    - assert (X0 : (1 - e) * y <= x) by lra. assert (0 < (1 - e) * y) by (apply Rmult_lt_0_compat; lra).
      eapply Rle_trans; [apply interp_loglip; lra|]. apply Rmult_le_compat_l; [exact M0|].
      apply Rmult_le_reg_r with (x * (1 - e)); [apply Rmult_lt_0_compat; lra|].
      replace ((y - x) / x * (x * (1 - e))) with ((y - x) * (1 - e)) by (field; lra). replace (e / (1 - e) * (x * (1 - e))) with (e * x) by (field; lra). nra. }
  replace (interp1 x xq fq - interp1 x xp fp) with ((interp1 x xq fq - interp1 y xp fp) + (interp1 y xp fp - interp1 x xp fp)) by ring.
  eapply Rle_trans; [apply Rabs_triang|]. lra.
Qed.
End Perturb.

(** ** statements *)
Lemma lookup_rounded N u x xp fp rho F : rounding N u -> u <= 0.1 -> (3 <= length xp)%nat -> length fp = length xp -> even_grid xp ->
  el xp 1 <= x <= el xp (length xp - 1) -> 0 < el xp 1 ->
  (forall k, (1 <= k)%nat -> (k + 1 < length xp)%nat -> el xp (k + 1) <= rho * (el xp (k + 1) - el xp k)) ->
  (forall k, (1 <= k < length xp)%nat -> Rabs (el fp k) <= F) ->
  (forall k, (1 <= k)%nat -> (k + 1 < length xp)%nat -> Rabs (el fp (k + 1) - el fp k) <= F) ->
  Rabs (finterp1 N x xp fp - interp1 x xp fp) <= lookup_loss u * ((2 * rho + 1) * F).
Proof. intros RN U. exact (lookup_error N u U x xp fp rho F). Qed.
Lemma table_change xp fp xq fq x M e E : (3 <= length xp)%nat -> length fp = length xp -> length xq = length xp -> length fq = length xp ->
  incr xp -> incr xq -> 0 < el xp 1 -> 0 <= e < 1 ->
  (forall k, (1 <= k)%nat -> (k + 1 < length xp)%nat -> Rabs (el fp (k + 1) - el fp k) * el xp (k + 1) <= M * (el xp (k + 1) - el xp k)) ->
  (forall k, (1 <= k < length xp)%nat -> Rabs (el xq k - el xp k) <= e * el xp k) ->
  (forall k, (1 <= k < length xp)%nat -> Rabs (el fq k - el fp k) <= E) ->
  el xq 1 <= x <= el xq (length xp - 1) ->
  Rabs (interp1 x xq fq - interp1 x xp fp) <= E + M * (e / (1 - e)).
Proof. intros Hn Hl Lx Lf Hi Hq P1 He HM Hx HE Qx. exact (perturbed xp fp M Hn Hl Hi P1 HM xq fq x e E Lx Lf Hq He Hx HE Qx). Qed.
