(** * Specification: second derivatives when the survey moves too *)
From Coquelicot Require Import Coquelicot.
From Verif Require Import Np Core BgSpec IntegrateSpec Background Redshift Bias Probes GradSpec Ad AdSpec AdArrSpec AdNuis AdNuisSpec AdNuisBack.

(** the input of jax.jacfwd(jax.jacfwd(f)) for a parameter that moves on a line: value and direction, direction and no curvature *)
Definition twice (x : dual) : dual * dual := (x, (snd x, 0)).
Definition twice_nz (d : gnz dual) : gnz (dual * dual) := nz_map twice d.
Definition twice_probe (p : gprobe dual) : gprobe (dual * dual) := probe_map twice p.

(** exponents e for which 0 ** e has the second derivative that jax computes *)
Definition gentle (e : R) : Prop := e = 1 \/ 2 <= e.
(** the distribution is a twice differentiable function of its parameters at redshift x >= 0, and jax can differentiate it twice
    in floating point: as [smooth_nz], but the redshift where a shifted distribution starts is excluded even if it starts flat,
    and exponents between 1 and 2 are excluded at redshift 0, where JAX multiplies 0 by 0 ** (e - 2).  [mv]: the redshift
    depends on parameters *)
Fixpoint bend_nz (mv : bool) (d : nz) (x : R) : Prop := match d with Nz f _ _ _ => bend_fam mv f x end
with bend_fam (mv : bool) (f : nz_family) (x : R) : Prop :=
  match f with
  | Smail a b z0 => 1 <= a /\ 1 <= b /\ 0 < z0 /\ (x = 0 -> gentle b /\ (mv = true -> gentle a))
  | Delta _ => False
  | Kde zcat wt bw => length wt = length zcat /\ vsum wt <> 0 /\ bw <> 0
  | Shift p b => x <> b /\ bend_nz true p (Rmax (x - b) 0)
  end.
(** the same at the 257 nodes of the normalisation, which does not vanish *)
Definition bend_norm (d : nz) : Prop :=
  (forall i, (i <= 256)%nat -> bend_nz false d (INR i * (nz_zmax d / 256))) /\ simpson (pz_fn d) 0 (nz_zmax d) 256 <> 0.
Definition bin_bends (lens : R -> Prop) (probes : list probe) (d : gnz dual) : Prop :=
  match gnz_fam d with
  | GDelta z0 => plane_ok lens z0
  | _ => bend_norm (read_nz fst d) /\ forall z, visited lens probes z -> bend_nz false (read_nz fst d) z
  end.
(** a power with an exponent that is not 0: at 0 the rule of jax.jvp for x ** y, y * x ** where(y == 0, 1, y - 1), is not to be
    differentiated again *)
Definition bias_bends (b : gbias dual) : Prop := match b with gdes_y1_ia_bias _ eta z0 => fst eta <> 0 /\ - 1 < fst z0 | _ => True end.
Definition bias_arg_bends (b : gbias_arg dual) : Prop := match b with GOneBias b => bias_bends b | GBiasList bs => forall b, In b bs -> bias_bends b end.
Definition probe_bends (lens : R -> Prop) (probes : list probe) (p : gprobe dual) : Prop :=
  (forall d, In d (gbins_of p) -> bin_bends lens probes d) /\
  match p with GPWL q => match gwl_ia q with Some b => bias_arg_bends b | None => True end | GPNC q => bias_arg_bends (gnc_bias q) end.
(** for angular_cl *)
Definition survey_bends (S : list (gprobe dual)) : Prop := forall p, In p S -> probe_bends (limber_epoch (values S)) (values S) p.
