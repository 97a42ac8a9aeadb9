(** * Reverse mode with respect to nuisance parameters: inputs of a survey

    jax.grad of a function of redshift distributions, biases and calibrations turns their parameters into inputs with
    cotangent slots (redshift.py 51-60, jax_utils.py 22-30).  A parameter is given with the number of its slot; parameters
    may share a slot (one traced value used in several bins).  The slots of the survey come after the eight of the cosmology
    (AdBack.v).  The probes are built from these inputs inside the differentiated function: a WeakLensing object that is
    itself an input comes back with its arguments exchanged (C30). *)
From Verif Require Import Np Core Redshift Bias Probes Ad AdNuis AdBack.

(** the objects of AdNuis.v with [f] applied to every parameter *)
Section Map.
Context {A B : Type} (f : A -> B).
Fixpoint nz_map (d : gnz A) : gnz B := match d with GNz fam g zm => GNz (fam_map fam) (f g) zm end
with fam_map (fam : gfam A) : gfam B :=
  match fam with
  | GSmail a b z0 => GSmail (f a) (f b) (f z0)
  | GDelta z0 => GDelta (f z0)
  | GKde zcat wt bw => GKde (map f zcat) (map f wt) bw
  | GShift p b => GShift (nz_map p) (f b)
  end.
Definition bias_map (b : gbias A) : gbias B :=
  match b with
  | gconstant_linear_bias b => gconstant_linear_bias (f b)
  | ginverse_growth_linear_bias b => ginverse_growth_linear_bias (f b)
  | gdes_y1_ia_bias am eta z0 => gdes_y1_ia_bias (f am) (f eta) (f z0)
  end.
Definition bias_arg_map (b : gbias_arg A) : gbias_arg B := match b with GOneBias b => GOneBias (bias_map b) | GBiasList bs => GBiasList (map bias_map bs) end.
Definition m_map (m : gm_arg A) : gm_arg B := match m with GMScalar m => GMScalar (f m) | GMList ms => GMList (map f ms) end.
Definition probe_map (p : gprobe A) : gprobe B :=
  match p with
  | GPWL q => GPWL (GWL (map nz_map (gwl_bins q)) (m_map (gwl_m q)) (option_map bias_arg_map (gwl_ia q)) (gwl_sigma_e q))
  | GPNC q => GPNC (GNC (map nz_map (gnc_bins q)) (bias_arg_map (gnc_bias q)))
  end.
End Map.

(** a parameter: value and slot *)
Definition param : Type := R * nat.
(** the survey as inputs of reverse mode, and moving with tangents [w] of the slots *)
Definition tracked (S : list (gprobe param)) : list (gprobe back) := map (probe_map (fun p => input (fst p) (8 + snd p))) S.
Definition pushed (w : nat -> R) (S : list (gprobe param)) : list (gprobe dual) := map (probe_map (fun p => (fst p, w (snd p)))) S.
