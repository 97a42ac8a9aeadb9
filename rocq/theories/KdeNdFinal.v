(** * The columns of a catalogue are normalised positive densities *)
From Coq Require Import Reals Lra Lia ZArith String List.
From Coquelicot Require Import Coquelicot.
From Verif Require Import Np NpLemmas Interp Integrate IntegrateSpec SimpsProofs Redshift RedshiftSpec RedshiftProofs RedshiftShape Nd NdSpec NdProofs NzArr NzArrProofs SplineNdProofs KdeNd KdeNdSpec KdeNdProofs.
Import ListNotations.
Local Open Scope R_scope.

Theorem columns_densities zcat bw zmax n m : shp zcat = [n; m] -> forall wt, length wt = n -> (0 < n)%nat -> 0 < bw -> 0 < zmax -> (forall i, (i < n)%nat -> 0 < el wt i) ->
  exists f : nat -> R -> R, (forall l, (l < m)%nat -> (forall z, 0 < f l z) /\ simps (f l) 0 zmax 256 = Ok 1) /\
    forall z p, shp z = [p] -> exists r, kde_call zcat (vec wt) bw zmax z = Ok r /\ shp r = [p; m] /\ forall j l, (j < p)%nat -> (l < m)%nat -> get r [j; l] = f l (get z [j]).
Proof.
  intros Sc wt L N0 Hb Hz Hw. exists (fun l => pz (nz_new (Kde (column zcat n l) wt bw) 1 zmax)). split.
  - intros l _. assert (LC : length wt = length (column zcat n l)) by (unfold column; now rewrite length_tab).
    assert (NE : column zcat n l <> []) by (intros E; rewrite E in LC; simpl in LC; lia).
    destruct (kde_positive (column zcat n l) wt bw 1 zmax Hb LC NE Hz) as (P & _ & Q); [ intros i Hi; apply Hw; lia | ].
    split; [ exact Q | ]. apply (nz_normalised (nz_new (Kde (column zcat n l) wt bw) 1 zmax)); [ apply new_reachable | reflexivity | ].
    intros E. specialize (Q 0). rewrite pz_density in Q by apply new_reachable. unfold nz_density in Q. change (is_delta (nz_new (Kde (column zcat n l) wt bw) 1 zmax)) with false in Q. cbv iota in Q.
    rewrite E in Q. unfold Rdiv in Q. rewrite Rinv_0 in Q. lra.
  - intros z p Sz. exact (call_columns zcat bw zmax n m Sc wt z p 1 L Sz).
Qed.
Lemma densities_case : shp catalogue22 = [2%nat; 2%nat] /\ length [1; 3] = 2%nat /\ 0 < 1 / 10 /\ 0 < 2 /\ forall i, (i < 2)%nat -> 0 < el [1; 3] i.
Proof. repeat split; try lra. intros [ | [ | i]] Hi; unfold el; simpl; lra || lia. Qed.
(** a shifted catalogue *)
Theorem shift_columns zcat bw zmax n m : shp zcat = [n; m] -> forall wt bias z p g g' zmax', length wt = n -> shp z = [p] ->
  exists r, shift_call zcat (vec wt) bw bias zmax z = Ok r /\ shp r = [p; m] /\
    forall j l, (j < p)%nat -> (l < m)%nat -> get r [j; l] = pz (nz_new (Shift (nz_new (Kde (column zcat n l) wt bw) g' zmax') bias) g zmax) (get z [j]).
Proof.
  intros Sc wt bias z p g g' zmax' L Sz.
  destruct (call_general (fun t => kde_nd zcat (vec wt) bw (uop1 (fun x => clip_lo (x - bias) 0) t)) zmax [m] (fun i x => fam_pz (Kde (column zcat n (hd 0%nat i)) wt bw) (clip_lo (x - bias) 0))) with (z := z) (p := p) as (r & E & S & V).
  - intros t q St. destruct (kde_columns zcat bw n m Sc wt (uop1 (fun x => clip_lo (x - bias) 0) t) q L St) as (v & Ev & Sv & Vv). exists v. split; [ exact Ev | split; [ exact Sv | ] ]. intros j i Hj Hi. rewrite Vv by assumption. reflexivity.
  - exact Sz.
  - exists r. split; [ exact E | split; [ exact S | ] ]. intros j l Hj Hl. rewrite V by (exact Hj || (repeat constructor; exact Hl)). rewrite pz_form by reflexivity. cbn [hd]. f_equal.
    unfold nz_simps_norm. cbn [nz_new nz_zmax pz_fn]. now rewrite simps_eq by (reflexivity || lia).
Qed.
