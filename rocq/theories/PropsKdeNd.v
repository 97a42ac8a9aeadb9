(** * C156: redshift catalogues with several columns *)
From Coq Require Import Reals Lra Lia ZArith String List.
From Coquelicot Require Import Coquelicot.
From Verif Require Import Np Integrate Redshift Nd NdSpec KdeNd KdeNdSpec KdeNdProofs KdeNdFinal.
Import ListNotations.
Local Open Scope R_scope.

(** C156  a catalogue of n galaxies with m columns and one weight per galaxy gives the m normalised densities of its columns *)
Theorem C156_columns : forall zcat bw zmax n m, shp zcat = [n; m] -> forall wt z p g, length wt = n -> shp z = [p] ->
  exists r, kde_call zcat (vec wt) bw zmax z = Ok r /\ shp r = [p; m] /\
    forall j l, (j < p)%nat -> (l < m)%nat -> get r [j; l] = pz (nz_new (Kde (column zcat n l) wt bw) g zmax) (get z [j]).
Proof. exact call_columns. Qed.
Print Assumptions C156_columns.
(** with positive weights the columns are positive densities, each normalised on its own under the rule the code uses *)
Theorem C156_densities : forall zcat bw zmax n m, shp zcat = [n; m] -> forall wt, length wt = n -> (0 < n)%nat -> 0 < bw -> 0 < zmax -> (forall i, (i < n)%nat -> 0 < el wt i) ->
  exists f : nat -> R -> R, (forall l, (l < m)%nat -> (forall z, 0 < f l z) /\ simps (f l) 0 zmax 256 = Ok 1) /\
    forall z p, shp z = [p] -> exists r, kde_call zcat (vec wt) bw zmax z = Ok r /\ shp r = [p; m] /\
      forall j l, (j < p)%nat -> (l < m)%nat -> get r [j; l] = f l (get z [j]).
Proof. exact columns_densities. Qed.
Print Assumptions C156_densities.
Example C156_densities_case : shp catalogue22 = [2%nat; 2%nat] /\ length [1; 3] = 2%nat /\ 0 < 1 / 10 /\ 0 < 2 /\ forall i, (i < 2)%nat -> 0 < el [1; 3] i.
Proof. exact densities_case. Qed.
(** a systematic_shift of such a catalogue shifts each column and normalises it on its own *)
Theorem C156_shift : forall zcat bw zmax n m, shp zcat = [n; m] -> forall wt bias z p g g' zmax', length wt = n -> shp z = [p] ->
  exists r, shift_call zcat (vec wt) bw bias zmax z = Ok r /\ shp r = [p; m] /\
    forall j l, (j < p)%nat -> (l < m)%nat -> get r [j; l] = pz (nz_new (Shift (nz_new (Kde (column zcat n l) wt bw) g' zmax') bias) g zmax) (get z [j]).
Proof. exact shift_columns. Qed.
Print Assumptions C156_shift.
(** a matrix of weights pairs every column of the catalogue with every column of the weights *)
Theorem C156_matrix_weights : forall zcat bw zmax n m, shp zcat = [n; m] -> forall wt c, shp wt = [n; c] -> forall z p g, shp z = [p] -> vsum (flat wt) <> 0 ->
  exists r, kde_call zcat wt bw zmax z = Ok r /\ shp r = [p; m; c] /\
    forall j l l', (j < p)%nat -> (l < m)%nat -> (l' < c)%nat -> vsum (column wt n l') <> 0 ->
      get r [j; l; l'] = pz (nz_new (Kde (column zcat n l) (column wt n l') bw) g zmax) (get z [j]).
Proof. exact call_matrix_weights. Qed.
Print Assumptions C156_matrix_weights.
(** so one weight for each entry of the catalogue does not give one density per column *)
Theorem C156_weights_refuted : exists zcat wt bw zmax z p m r,
  shp zcat = [2%nat; m] /\ shp wt = shp zcat /\ shp z = [p] /\ kde_call zcat wt bw zmax z = Ok r /\ shp r <> [p; m].
Proof. exact weights_refuted. Qed.
Print Assumptions C156_weights_refuted.
(** a catalogue without columns is the case of C147 *)
Theorem C156_single : forall zcat wt bw zmax z p g, length wt = length zcat -> shp z = [p] ->
  exists r, kde_call (vec zcat) (vec wt) bw zmax z = Ok r /\ elementwise (pz (nz_new (Kde zcat wt bw) g zmax)) z r.
Proof. exact call_single. Qed.
Print Assumptions C156_single.
Example C156_case : shp catalogue22 = [2%nat; 2%nat] /\ length [1; 3] = 2%nat /\ shp weights22 = [2%nat; 2%nat] /\
  vsum (flat weights22) <> 0 /\ (forall l, vsum (column weights22 2 l) <> 0) /\ shp (vec [1 / 2; 1]) = [2%nat] /\ length [1; 3] = length [3 / 10; 7 / 10].
Proof. exact (conj eq_refl (conj eq_refl (conj eq_refl (conj (proj1 weights22_sum) (conj (proj2 weights22_sum) (conj eq_refl eq_refl)))))). Qed.
