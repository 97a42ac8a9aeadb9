(** * Cases for the rounded table lookup *)
From Coq Require Import Reals Lra Lia ZArith List.
From Coquelicot Require Import Coquelicot.
From Verif Require Import Np NpLemmas Core Interp OdeSpec InterpProofs Background BgSpec BgPositive BgTables BgFinal BgAccuracy Ad AdSpec Fp FpSpec FpProofs FpTable FpFinal FpInterp FpDist ExFp.
Import ListNotations.
Local Open Scope R_scope.
Opaque chi_table logspace.

Lemma finterp1_R x xp fp : finterp1 num_R x xp fp = interp1 x xp fp.
Proof.
  assert (E : map (fun p => nmul num_R (nsub num_R x p) (nsub num_R x p)) xp = map (fun p => (x - p) ^ 2) xp) by (apply map_ext; intros p; cbn [nsub nmul num_R]; ring).
  unfold finterp1, interp1. cbv zeta. rewrite E. reflexivity.
Qed.
Lemma fdistance_R c lamin n a : fdistance num_R a (logspace lamin 0.0 n) (fchitab num_R (lift_cosmo c) (map ln (logspace lamin 0.0 n))) = clip_lo (interp1 a (fst (chi_table c lamin n)) (snd (chi_table c lamin n))) 0.
Proof. unfold fdistance. rewrite finterp1_R, fchitab_R, chi_table_fst. reflexivity. Qed.

(** a table with uneven gaps, and a query exactly half-way, where rounding decides which end is "nearest" *)
Lemma lookup_case : let xp := [1; 2; 3; 4.5; 6] in let fp := [5; 3; 2; 1; 0] in
  (3 <= length xp)%nat /\ length fp = length xp /\ even_grid xp /\ el xp 1 <= 2.5 <= el xp (length xp - 1) /\ 0 < el xp 1 /\
  (forall k, (1 <= k)%nat -> (k + 1 < length xp)%nat -> el xp (k + 1) <= 4 * (el xp (k + 1) - el xp k)) /\
  (forall k, (1 <= k < length xp)%nat -> Rabs (el fp k) <= 3) /\
  (forall k, (1 <= k)%nat -> (k + 1 < length xp)%nat -> Rabs (el fp (k + 1) - el fp k) <= 3) /\
  interp1 2.5 xp fp = 2.5.
Proof.
  cbv zeta. assert (I : incr [1; 2; 3; 4.5; 6]).
  { apply steps_incr. intros i Hi. unfold el. simpl in Hi. destruct i as [|[|[|[|i]]]]; simpl; try lra; lia. }
  split; [simpl; lia|]. split; [reflexivity|]. split.
  { split; [exact I|]. intros k Hk. unfold el. simpl in Hk. destruct k as [|[|[|k]]]; simpl; try lra; lia. }
  split; [unfold el; simpl; lra|]. split; [unfold el; simpl; lra|]. split.
  { intros k K1 K2. unfold el. simpl in K2. destruct k as [|[|[|[|k]]]]; simpl; try lra; lia. }
  split; [intros k [K1 K2]; unfold el; simpl in K2; destruct k as [|[|[|[|[|k]]]]]; simpl; try lia; apply Rabs_le; lra|].
  split; [intros k K1 K2; unfold el; simpl in K2; destruct k as [|[|[|[|k]]]]; simpl; try lia; apply Rabs_le; lra|].
  rewrite (interp1_incr 2.5 _ _ 1); try (simpl; lia); try exact I; [unfold cell, line, el; simpl; lra|unfold el; simpl; lra].
Qed.

Definition planck_nodes : list R := map (rnd 24) (logspace (-3) 0.0 256).
Lemma nodes_case : length planck_nodes = 256%nat /\
  (forall i, (i < 256)%nat -> Rabs (el planck_nodes i - el (logspace (-3) 0.0 256) i) <= 20 * powerRZ 2 (-24) * el (logspace (-3) 0.0 256) i) /\
  el planck_nodes 1 <= 1 / 2 <= el planck_nodes 255 /\ table_node 256 1 <= 1 / 2 <= 1.
Proof.
  assert (Uv : powerRZ 2 (-24) = / 16777216) by (simpl; lra).
  assert (B : forall i, (i < 256)%nat -> Rabs (el planck_nodes i - el (logspace (-3) 0.0 256) i) <= powerRZ 2 (-24) * el (logspace (-3) 0.0 256) i).
  { intros i Hi. unfold planck_nodes. unfold el at 1. rewrite (nth_map_lt (rnd 24) (logspace (-3) 0.0 256) i 0) by (rewrite length_logspace; exact Hi). fold (el (logspace (-3) 0.0 256) i).
    pose proof (rnd_near 24 (el (logspace (-3) 0.0 256) i)) as A. unfold near in A. rewrite (Rabs_right (el (logspace (-3) 0.0 256) i)) in A by (rewrite logspace_el by exact Hi; left; apply anode_pos). exact A. }
  split; [unfold planck_nodes; rewrite map_length; apply length_logspace|]. split.
  { intros i Hi. eapply Rle_trans; [apply B, Hi|]. apply Rmult_le_compat_r; [rewrite logspace_el by exact Hi; left; apply anode_pos|]. rewrite Uv. lra. }
  assert (A1 : 0 < anode (-3) 256 1 <= 0.1).
  { split; [apply anode_pos|]. unfold anode. replace 0.1 with (pow10 (-1)).
    - left. apply pow10_lt. replace (INR (256 - 1)) with 255 by (simpl; lra). simpl INR. lra.
    - unfold pow10. replace (-1 * ln 10) with (- ln 10) by ring. rewrite exp_Ropp, exp_ln by lra. lra. }
  pose proof (B 1%nat ltac:(lia)) as B1. pose proof (B 255%nat ltac:(lia)) as B2. rewrite logspace_el in B1, B2 by lia. rewrite Uv in *.
  pose proof (anode_last (-3) 256 ltac:(lia)) as L. change (256 - 1)%nat with 255%nat in L. rewrite L in B2. apply abs_between in B1, B2.
  rewrite <- anode_table. lra.
Qed.
Lemma distance_case : let u := powerRZ 2 (-24) in let q := exp (3 * ln 10 / 255) in
  reachable Planck15 /\ physical Planck15 /\ moderate Planck15 /\ 0 < Omega_de Planck15 /\ de_part u Planck15 < 1 /\
  q * (1 + skew (20 * u) q) <= 2 * (1 - skew (20 * u) q) /\ 2 * (20 * u) < 3 * ln 10 / 255 /\
  exponent_error u (node_loss u (20 * u) (3 * ln 10 / 255) (3 * ln 10)) (3 * ln 10) 0 Planck15.
Proof.
  cbv zeta. destruct expansion_case as (_ & Hr & HP & Pd & CD & De & Hh & _). destruct single as (_ & U). assert (Uv : powerRZ 2 (-24) = / 16777216) by (simpl; lra).
  split; [exact Hr|]. split; [exact HP|]. split; [destruct CD; unfold moderate; lra|]. split; [exact Pd|]. split; [exact De|]. split; [|split; [exact Hh|right; split; [exact CD|reflexivity]]].
  destruct (default_grid (powerRZ 2 (-24)) ltac:(lra)) as (_ & G & _). exact G.
Qed.
