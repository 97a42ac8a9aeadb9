(** * Specification for background.py: call histories and derived quantities *)
From Verif Require Import Np Core Interp Background.

(** calls of the public background API with default table parameters *)
Inductive call :=
  | Radial (a : array_like) | AofChi (x : array_like) | Transverse (a : array_like) | AngDiam (a : array_like)
  | Growth (a : array_like) | Rate (a : array_like).

(** result of one call and the object after it *)
Definition run1 (k : call) (c : cosmology) : res (list R) * cosmology :=
  match k with
  | Radial a => let (v, c') := rcd_default c a in (Ok v, c')
  | AofChi x => let (v, c') := a_of_chi c x in (Ok v, c')
  | Transverse a => let (v, c') := transverse_comoving_distance c a in (Ok v, c')
  | AngDiam a => let (v, c') := angular_diameter_distance c a in (Ok v, c')
  | Growth a => growth_factor c a
  | Rate a => growth_rate c a
  end.
(** the object after a sequence of calls *)
Definition run (hist : list call) (c : cosmology) : cosmology := fold_left (fun c k => snd (run1 k c)) hist c.

(** nothing cached *)
Definition fresh (c : cosmology) : Prop := ws_chi c = None /\ ws_growth c = None.

(** a cosmology reached from a fresh one by any calls *)
Definition reachable (c : cosmology) : Prop := exists c0 hist, fresh c0 /\ c = run hist c0.

(** all eight parameters and gamma agree *)
Definition same_parameters (c d : cosmology) : Prop :=
  _Omega_c c = _Omega_c d /\ _Omega_b c = _Omega_b d /\ _h c = _h d /\ _n_s c = _n_s d /\ _sigma8 c = _sigma8 d /\
  _Omega_k c = _Omega_k d /\ _w0 c = _w0 d /\ _wa c = _wa d /\ _gamma c = _gamma d /\ _gamma_growth c = _gamma_growth d.

(** expansion rate positive at every positive scale factor *)
Definition expanding (c : cosmology) : Prop := forall a, 0 < a -> 0 < Esqr c a.

(** matter, no negative curvature density, no negative dark energy *)
Definition physical (c : cosmology) : Prop := 0 < Omega_m c /\ 0 <= Omega_k c /\ 0 <= Omega_de c.

(** matter only, flat *)
Definition einstein_de_sitter (c : cosmology) : Prop := Omega_m c = 1 /\ Omega_k c = 0.

(** the scale factors 10^(-3 + 3 i/(n-1)), i < n, of the tables *)
Definition table_node (n i : nat) : R := pow10 (-3 + INR i * (3 / INR (n - 1))).
