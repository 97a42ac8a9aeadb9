(** * Specification: surveys whose parameters move, and where their spectra are differentiable *)
From Coquelicot Require Import Coquelicot.
From Verif Require Import Np Core BgSpec IntegrateSpec Background Redshift Bias Probes GradSpec Ad AdSpec AdArrSpec AdNuis.

(** a parameter with its tangent, at time t *)
Definition at_time (t : R) (x : dual) : R := fst x + t * snd x.
(** the probes at time t, and at the start *)
Definition moved (S : list (gprobe dual)) (t : R) : list probe := map (read_probe (at_time t)) S.
Definition values (S : list (gprobe dual)) : list probe := map (read_probe fst) S.

(** z ** a, with a > 1, is flat at z = 0 *)
Definition steep (d : nz) : Prop := match nz_fam d with Smail a _ _ => 1 < a | _ => False end.
(** the distribution is a differentiable function of its parameters at redshift x >= 0: Smail exponents of at least 1, a
    catalogue of non-zero total weight, and no query at the redshift where a shifted distribution starts, unless it starts flat *)
Fixpoint smooth_nz (d : nz) (x : R) : Prop := match d with Nz f _ _ _ => smooth_fam f x end
with smooth_fam (f : nz_family) (x : R) : Prop :=
  match f with
  | Smail a b z0 => 1 <= a /\ 1 <= b /\ 0 < z0
  | Delta _ => False
  | Kde zcat wt bw => length wt = length zcat /\ vsum wt <> 0 /\ bw <> 0
  | Shift p b => (x <> b \/ steep p) /\ smooth_nz p (Rmax (x - b) 0)
  end.
(** the same at the 257 nodes of the normalisation, which does not vanish *)
Definition smooth_norm (d : nz) : Prop :=
  (forall i, (i <= 256)%nat -> smooth_nz d (INR i * (nz_zmax d / 256))) /\ simpson (pz_fn d) 0 (nz_zmax d) 256 <> 0.
(** the redshifts at which the kernels of [probes] evaluate redshift distributions, for lenses at epochs [lens] *)
Definition visited (lens : R -> Prop) (probes : list probe) (z : R) : Prop :=
  exists b, lens b /\
    (z = 1 / b - 1 \/ exists p zm i, In p probes /\ deepest (lensing_bins p) zm /\ (i <= 256)%nat /\ z = (1 / b - 1) + INR i * ((zm - (1 / b - 1)) / 256)).
(** a source plane at rest, or one away from the nodes of the distance table and from the lenses *)
Definition plane_ok (lens : R -> Prop) (z0 : dual) : Prop :=
  snd z0 = 0 \/
  0 < fst z0 /\ (forall i, (2 <= i <= 254)%nat -> 1 / (1 + fst z0) <> table_node 256 i) /\ forall b, lens b -> 1 / (1 + fst z0) <> b.
Definition bin_smooth (lens : R -> Prop) (probes : list probe) (d : gnz dual) : Prop :=
  match gnz_fam d with
  | GDelta z0 => plane_ok lens z0
  | _ => smooth_norm (read_nz fst d) /\ forall z, visited lens probes z -> smooth_nz (read_nz fst d) z
  end.
Definition bias_ok (b : gbias dual) : Prop := match b with gdes_y1_ia_bias _ _ z0 => - 1 < fst z0 | _ => True end.
Definition bias_arg_ok (b : gbias_arg dual) : Prop := match b with GOneBias b => bias_ok b | GBiasList bs => forall b, In b bs -> bias_ok b end.
Definition probe_smooth (lens : R -> Prop) (probes : list probe) (p : gprobe dual) : Prop :=
  (forall d, In d (gbins_of p) -> bin_smooth lens probes d) /\
  match p with GPWL q => match gwl_ia q with Some b => bias_arg_ok b | None => True end | GPNC q => bias_arg_ok (gnc_bias q) end.
(** for angular_cl, and for the kernels of one probe at redshifts z *)
Definition survey_smooth (S : list (gprobe dual)) : Prop := forall p, In p S -> probe_smooth (limber_epoch (values S)) (values S) p.
Definition lenses (z : list R) (b : R) : Prop := exists q, In q z /\ b = 1 / (1 + q).
