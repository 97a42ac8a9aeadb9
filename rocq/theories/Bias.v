(** * Model of jax_cosmo/bias.py *)
From Verif Require Import Np Core Background.

(** bias.py 11-58: the three bias classes with their parameters *)
Inductive bias :=
  | constant_linear_bias (b : R)
  | inverse_growth_linear_bias (b : R)
  | des_y1_ia_bias (A eta z0 : R).

(** bias.py 21-23, 38-40, 56-58 (__call__), pointwise in z *)
Definition bias_at (bi : bias) (c : cosmology) (z : R) : R :=
  match bi with
  | constant_linear_bias b => b * 1
  | inverse_growth_linear_bias b => b / D c (z2a z)
  | des_y1_ia_bias A eta z0 => A * rpow ((1.0 + z) / (1.0 + z0)) eta
  end.
