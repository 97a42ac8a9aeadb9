(** * Specification: distributions on arrays against distributions at one redshift *)
From Verif Require Import Np Integrate Interp Redshift Nd NdSpec NzArr.

(** the same distribution, whose catalogue is a vector with one weight per entry, without source planes *)
Inductive same_nz : anz -> nz -> Prop :=
  | same_smail a b z0 zmax g n : same_nz (ANz (ASmail a b z0) zmax) (Nz (Smail a b z0) g zmax n)
  | same_kde zcat wt bw zmax g n : length wt = length zcat -> same_nz (ANz (AKde (Array1 zcat) (Array1 wt) bw) zmax) (Nz (Kde zcat wt bw) g zmax n)
  | same_shift p p' b zmax g n : same_nz p p' -> same_nz (ANz (AShift p b) zmax) (Nz (Shift p' b) g zmax n).
(** no catalogue either *)
Inductive analytic : anz -> nz -> Prop :=
  | an_smail a b z0 zmax g n : analytic (ANz (ASmail a b z0) zmax) (Nz (Smail a b z0) g zmax n)
  | an_shift p p' b zmax g n : analytic p p' -> analytic (ANz (AShift p b) zmax) (Nz (Shift p' b) g zmax n).
