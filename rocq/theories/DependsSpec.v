(** * Specification: the parameters behind each quantity *)
From Verif Require Import Np Core.

(** total matter, curvature, dark energy and the growth parametrisation agree; h, n_s, sigma8 and the baryon fraction
    are free *)
Definition same_background (c d : cosmology) : Prop :=
  _Omega_c c + _Omega_b c = _Omega_c d + _Omega_b d /\ _Omega_k c = _Omega_k d /\ _w0 c = _w0 d /\ _wa c = _wa d /\
  _gamma c = _gamma d /\ _gamma_growth c = _gamma_growth d.

(** everything but sigma8 agrees *)
Definition same_but_sigma8 (c d : cosmology) : Prop :=
  _Omega_c c = _Omega_c d /\ _Omega_b c = _Omega_b d /\ _h c = _h d /\ _n_s c = _n_s d /\ _Omega_k c = _Omega_k d /\
  _w0 c = _w0 d /\ _wa c = _wa d /\ _gamma c = _gamma d /\ _gamma_growth c = _gamma_growth d.
