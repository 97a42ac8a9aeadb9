(** * Specification for redshift distributions *)
From Verif Require Import Np Integrate IntegrateSpec Redshift.

(** an object after calls on the arrays of [hist], in order *)
Definition nz_after (hist : list (list R)) (d : nz) : nz := fold_left (fun d z => snd (nz_call d z)) hist d.

(** the documented n(z): un-normalised density over its 256-panel Simpson integral on [0, zmax]; delta_nz is not
    normalised *)
Definition nz_density (d : nz) (z : R) : R :=
  pz_fn d z / (if is_delta d then 1 else simpson (pz_fn d) 0 (nz_zmax d) 256).

(** an object produced by a constructor and any number of calls *)
Definition nz_reachable (d : nz) : Prop := exists f g zm hist, d = nz_after hist (nz_new f g zm).

(** Gaussian of mean X and standard deviation s *)
Definition gaussian (X s z : R) : R := / (s * sqrt (2 * PI)) * exp (- ((z - X) / s) ^ 2 / 2).
