(** * A matrix of scale factors with as many columns as the table has nodes *)
From Coquelicot Require Import Coquelicot.
From Verif Require Import Np NpLemmas Core Integrate Interp InterpProofs Redshift RedshiftProofs Background BgSpec BgTables BgFinal BgFinal3 BgGrowth BgFinal4 BgCompare OdeSpec AdFinal Nd NdSpec NzArr NzArrSpec BgArr ExAdProbes NdProofs.
Opaque chi_table growth_table_ODE growth_table_gamma logspace.

Lemma argmin_head l : (0 < length l)%nat -> el l 0 = 0 -> (forall k, (k < length l)%nat -> 0 <= el l k) -> argmin l = 0%nat.
Proof.
  intros Hl H0 HP. destruct (argmin_spec l) as (H1 & _ & H3); [ intros ->; cbn in Hl; lia | ]. destruct (argmin l) as [ | k]; [ reflexivity | exfalso ].
  specialize (H3 0%nat ltac:(lia)). specialize (HP (S k) H1). lra.
Qed.
(** a matrix of one row, as long as the table, that starts at the first node: every entry is read off the second cell *)
Lemma cell_row x xp fp q : (4 <= length xp)%nat -> length fp = length xp -> incr xp -> shp x = [length xp] -> get x [0%nat] = el xp 0 -> el xp 1 <= q ->
  interp_cell x xp fp q = line (el xp 1) (el fp 1) (el xp 2) (el fp 2) q.
Proof.
  intros Hn Hf HI Hs H0 Hq. unfold interp_cell, bop2. rewrite Hs.
  assert (Eb : bshape [length xp] (shp (vec xp)) = Some [length xp]) by (unfold bshape, vec; cbn [shp rev app bshape_rev]; now rewrite Nat.eqb_refl).
  rewrite Eb. set (d := Nd _ _). assert (Lf : length (flat d) = length xp) by (unfold flat, d; cbn [shp]; now rewrite indices_1, !map_length, seq_length).
  assert (Ed : forall k, (k < length xp)%nat -> el (flat d) k = (get x [k] - el xp k) ^ 2).
  { intros k Hk. unfold flat, el. rewrite (nth_indep _ 0 (get d [])) by (fold (flat d); lia). rewrite map_nth. unfold d at 2. cbn [shp]. rewrite indices_1.
    rewrite (nth_indep _ [] [0%nat]) by (rewrite map_length, seq_length; exact Hk). rewrite (map_nth (fun i => [i])), seq_nth by exact Hk. unfold d. cbn [get Nat.add].
    unfold vec. cbn [shp]. rewrite bidx_1 by exact Hk. reflexivity. }
  assert (EA : argmin (flat d) = 0%nat).
  { apply argmin_head; [ lia | rewrite Ed by lia; rewrite H0; ring | ]. intros k Hk. rewrite Lf in Hk. rewrite Ed by exact Hk. apply pow2_ge_0. }
  rewrite EA. replace (clipZ (Z.of_nat 0) 1 (Z.of_nat (length xp) - 2)) with (Z.of_nat 1) by (unfold clipZ; lia).
  change (getZ 0 xp 1) with (getZ 0 xp (Z.of_nat 1)). rewrite getZ_m2 by lia. rewrite !getZ_nat by lia. cbv zeta.
  assert (L : el xp 1 <= el xp (length xp - 2)) by (apply incr_le; [ exact HI | lia ]).
  assert (EC : copysign1 (isign (clip q (el xp 1) (el xp (length xp - 2)) - el xp 1)) = 1%Z).
  { assert (el xp 1 <= clip q (el xp 1) (el xp (length xp - 2))) by (unfold clip; apply Rmin_glb; [ apply Rmax_r | exact L ]).
    unfold isign. destruct (Rlt_dec _ 0); [ lra | ]. destruct (Rlt_dec 0 _); reflexivity. }
  rewrite EC. change (Z.of_nat 1 + 1)%Z with (Z.of_nat 2). rewrite !getZ_nat by lia. unfold line. ring.
Qed.
Definition bad_row : nd := Nd [1%nat; 256%nat] (fun i => if Nat.eqb (nth 1 i 0%nat) 0 then table_node 256 0 else table_node 256 254).
Lemma milne_line : line (table_node 256 1) (- const_rh * ln (table_node 256 1)) (table_node 256 2) (- const_rh * ln (table_node 256 2)) (table_node 256 254) <= 0.
Proof.
  destruct node254 as [N1 _]. destruct ln10_bounds as [T1 T2].
  assert (E1 : ln (table_node 256 1) = (-3 + 3 / 255) * ln 10).
  { unfold table_node. rewrite ln_pow10. replace (INR (256 - 1)) with 255 by (rewrite INR_IZR_INZ; reflexivity). cbn [INR]. f_equal. field. }
  assert (E2 : ln (table_node 256 2) = (-3 + 6 / 255) * ln 10).
  { unfold table_node. rewrite ln_pow10. replace (INR (256 - 1)) with 255 by (rewrite INR_IZR_INZ; reflexivity). cbn [INR]. f_equal. field. }
  assert (P1 : 0 < table_node 256 1) by apply pow10_pos. assert (P2 : 0 < table_node 256 2) by apply pow10_pos.
  assert (L12 : table_node 256 1 < table_node 256 2) by (apply ln_lt_inv; [ exact P1 | exact P2 | rewrite E1, E2; nra ]).
  assert (U2 : table_node 256 2 <= 1 / 100).
  { assert (ln (table_node 256 2) <= ln (1 / 100)).
    { rewrite E2. replace (1 / 100) with (/ (10 * 10)) by field. rewrite ln_Rinv, ln_mult by lra. nra. }
    destruct (Rle_lt_dec (table_node 256 2) (1 / 100)) as [h | h]; [ exact h | ]. apply ln_increasing in h; lra. }
  unfold line. set (x1 := table_node 256 1) in *. set (x2 := table_node 256 2) in *. set (q := table_node 256 254) in *.
  (* 1 - x1/x2 <= ln x2 - ln x1 *)
  assert (S : (x2 - x1) / x2 <= ln x2 - ln x1).
  { pose proof (exp_ineq1_le (ln x1 - ln x2)) as Q. unfold Rminus in Q at 2. rewrite exp_plus, exp_Ropp, !exp_ln in Q by assumption. replace ((x2 - x1) / x2) with (1 - x1 * / x2) by (field; lra). lra. }
  assert (S2 : 100 <= (ln x2 - ln x1) / (x2 - x1)).
  { apply Rle_trans with (/ x2). { rewrite <- (Rinv_inv 100). apply Rinv_le_contravar; lra. }
    apply (Rmult_le_reg_r (x2 - x1)); [ lra | ]. replace ((ln x2 - ln x1) / (x2 - x1) * (x2 - x1)) with (ln x2 - ln x1) by (field; lra). unfold Rdiv in S. lra. }
  assert (Hrh : 0 < const_rh) by (unfold const_rh; lra).
  replace (- const_rh * ln x1 + (- const_rh * ln x2 - - const_rh * ln x1) / (x2 - x1) * (q - x1)) with (- const_rh * (ln x1 + (ln x2 - ln x1) / (x2 - x1) * (q - x1))) by (field; lra).
  assert (0 <= ln x1 + (ln x2 - ln x1) / (x2 - x1) * (q - x1)); [ | nra ].
  assert (79 <= (ln x2 - ln x1) / (x2 - x1) * (q - x1)) by nra. rewrite E1. nra.
Qed.
Lemma matrix_distances : exists c a r, fresh c /\ expanding c /\ shp a = [1%nat; 256%nat] /\ (forall i, inside (shp a) i -> 0 < get a i <= 1) /\
  distance_nd c a = Ok r /\ shp r = shp a /\ inside (shp a) [0%nat; 1%nat] /\ get r [0%nat; 1%nat] = 0 /\ 0 < chi c (get a [0%nat; 1%nat]).
Proof.
  exists milne, bad_row. assert (LN := node_lt 256 254 ltac:(lia) ltac:(lia)). destruct node254 as [N1 N2]. destruct (chi_table_length milne (-3) 256) as [L1 L2].
  assert (X : forall i, (i < 256)%nat -> el (fst (chi_table milne (-3) 256)) i = table_node 256 i) by (intros i Hi; rewrite chi_table_fst, logspace_el, anode_table by lia; reflexivity).
  assert (Y : forall i, (i < 256)%nat -> el (snd (chi_table milne (-3) 256)) i = - const_rh * ln (table_node 256 i)) by (intros i Hi; rewrite milne_table, anode_table by lia; reflexivity).
  assert (HI : incr (fst (chi_table milne (-3) 256))) by (rewrite chi_table_fst; apply logspace_incr; [ lra | lia ]).
  eexists. split; [ exact milne_fresh | split; [ exact milne_expanding | split; [ reflexivity | split ]]].
  { intros i Hi. unfold bad_row in *. cbn [shp get] in *. destruct (Nat.eqb _ 0); [ | lra ]. split; [ apply pow10_pos | ].
    rewrite <- (X 0%nat) by lia. assert (LE : el (fst (chi_table milne (-3) 256)) 0 <= el (fst (chi_table milne (-3) 256)) 254) by (apply incr_le; [ exact HI | lia ]). rewrite (X 254%nat) in LE by lia. lra. }
  split.
  { unfold distance_nd. cbv zeta. rewrite (atleast1_id _ _ _ (eq_refl (shp bad_row))). unfold interp_nd. unfold bad_row at 1. cbn [shp].
    assert (Eb : bshape [256%nat] [length (fst (chi_table milne (-3) 256))] = Some [256%nat]) by (rewrite L1; reflexivity). rewrite Eb. cbn [bind]. reflexivity. }
  split; [ reflexivity | ]. split; [ repeat constructor; lia | ]. split.
  - unfold uop1. cbn [get hd]. rewrite cell_row; [ | rewrite L1; lia | now rewrite L1, L2 | exact HI | rewrite L1; reflexivity | unfold row, bad_row; cbn [get nth Nat.eqb]; now rewrite X by lia | ].
    + rewrite !X, !Y by lia. unfold bad_row. cbn [get nth Nat.eqb]. unfold clip_lo. rewrite Rmax_right; [ lra | ]. replace 0.0 with 0 by lra. exact milne_line.
    + unfold bad_row. cbn [get nth Nat.eqb]. rewrite <- (X 254%nat) by lia. apply incr_le; [ exact HI | lia ].
  - unfold bad_row. cbn [get nth Nat.eqb]. rewrite chi_value by exact milne_fresh. rewrite <- (X 254%nat) by lia. rewrite interp1_node; [ | rewrite L1; lia | now rewrite L1, L2 | exact HI | rewrite L1; lia ].
    rewrite Y by lia. assert (ln (table_node 256 254) < 0) by (rewrite <- ln_1; apply ln_increasing; lra). assert (Hrh : 0 < const_rh) by (unfold const_rh; lra). unfold clip_lo. rewrite Rmax_left; nra.
Qed.
