(** * C144: printed forms; C145: the option ksteps of sigmasqr *)
From Coq Require Import String Ascii.
From Coquelicot Require Import Coquelicot.
From Verif Require Import Np Integrate IntegrateSpec Core Background BgSpec Pytree PytreeSpec Transfer Power PowerSpec Show ShowSpec.
From Verif Require Import ShowProofs.


(** C144  printing a cosmology tells the eight parameters it lists apart, and all of them when gamma is not used; it is silent about gamma *)
Theorem C144_parameters_partial : forall F show c c',
  prints F show ->
  (F (_h c) /\ F (_Omega_b c) /\ F (_Omega_c c) /\ F (_Omega_k c) /\ F (_w0 c) /\ F (_wa c) /\ F (_n_s c) /\ F (_sigma8 c)) ->
  (F (_h c') /\ F (_Omega_b c') /\ F (_Omega_c c') /\ F (_Omega_k c') /\ F (_w0 c') /\ F (_wa c') /\ F (_n_s c') /\ F (_sigma8 c')) ->
  cosmo_str show c = cosmo_str show c' ->
  (_h c = _h c' /\ _Omega_b c = _Omega_b c' /\ _Omega_c c = _Omega_c c' /\ _Omega_k c = _Omega_k c' /\
   _w0 c = _w0 c' /\ _wa c = _wa c' /\ _n_s c = _n_s c' /\ _sigma8 c = _sigma8 c').
Proof. exact str_params. Qed.
Print Assumptions C144_parameters_partial.
Theorem C144_no_gamma_partial : forall F show a1 a2 a3 a4 a5 a6 a7 a8 b1 b2 b3 b4 b5 b6 b7 b8,
  prints F show ->
  Forall F [a1; a2; a3; a4; a5; a6; a7; a8] -> Forall F [b1; b2; b3; b4; b5; b6; b7; b8] ->
  cosmo_str show (make_cosmology a1 a2 a3 a4 a5 a6 a7 a8 None) = cosmo_str show (make_cosmology b1 b2 b3 b4 b5 b6 b7 b8 None) ->
  make_cosmology a1 a2 a3 a4 a5 a6 a7 a8 None = make_cosmology b1 b2 b3 b4 b5 b6 b7 b8 None.
Proof. exact str_identifies. Qed.
Print Assumptions C144_no_gamma_partial.
Theorem C144_gamma_refuted : exists c c' : cosmology, reachable c /\ reachable c' /\ (forall show, cosmo_repr show c = cosmo_repr show c') /\
  _gamma c <> _gamma c' /\ forall a, 0 < a <= 1 -> f_growth c a <> f_growth c' a.
Proof. exact str_gamma. Qed.
Print Assumptions C144_gamma_refuted.

(** printing a redshift distribution, bias or probe shows its parameters, but neither its class, nor its configuration, nor its galaxy density *)
Theorem C144_containers_partial : forall F show show_arr k k' x y cfg cfg' g g' n n',
  prints F show -> Forall F x -> Forall F y ->
  val_repr show show_arr (VObj k (map VNum x) cfg g n) = val_repr show show_arr (VObj k' (map VNum y) cfg' g' n') -> x = y.
Proof. exact repr_params. Qed.
Print Assumptions C144_containers_partial.
Theorem C144_containers_refuted : exists u v w d b : val, made u /\ made v /\ made w /\ made d /\ made b /\
  (forall show show_arr, val_repr show show_arr u = val_repr show show_arr v /\ val_repr show show_arr u = val_repr show show_arr w /\
    val_repr show show_arr d = val_repr show show_arr b) /\
  ~ same u v /\ ~ same u w /\ ~ same d b.
Proof. exact repr_hides. Qed.
Print Assumptions C144_containers_refuted.
Example C144_case : prints held_ex show_ex /\ Forall held_ex [0.25; 0.05; 0.7; 0.96; 0.8; 0; -1; 0] /\
  cosmo_str show_ex (make_cosmology 0.25 0.05 0.7 0.96 0.8 0 (-1) 0 None) =
  ("Cosmological parameters: " ++ newline ++ "    h:        0.7 " ++ newline ++ "    Omega_b:  0.05 " ++ newline ++ "    Omega_c:  0.25 " ++ newline ++
   "    Omega_k:  0.0 " ++ newline ++ "    w0:       -1.0 " ++ newline ++ "    wa:       0.0 " ++ newline ++ "    n:        0.96 " ++ newline ++ "    sigma8:   0.8")%string.
Proof. exact show_case. Qed.


(** C145  asking sigmasqr for more steps does not bring it closer to its integral, which it can miss completely *)
Theorem C145_ksteps_refuted : exists c r (T : transfer) kmin kmax, 0 < kmin < kmax /\
  (forall x, continuous (variance_density (fun k => T c k ^ 2 * primordial_matter_power c k) r) x) /\
  0 < RInt (variance_density (fun k => T c k ^ 2 * primordial_matter_power c k) r) (log10 kmin) (log10 kmax) /\
  forall ksteps, sigmasqr_steps c r T kmin kmax ksteps = 0.
Proof. exact ksteps_ignored. Qed.
Print Assumptions C145_ksteps_refuted.
Theorem C145_accuracy_partial : forall c r (T : transfer) kmin kmax ksteps p deg e,
  0 < kmin <= kmax -> (deg <= 15)%nat ->
  (forall x, log10 kmin <= x <= log10 kmax -> continuous (variance_density (fun k => T c k ^ 2 * primordial_matter_power c k) r) x) ->
  (forall x, log10 kmin <= x <= log10 kmax -> Rabs (variance_density (fun k => T c k ^ 2 * primordial_matter_power c k) r x - poly p deg x) <= e) ->
  Rabs (sigmasqr_steps c r T kmin kmax ksteps - RInt (variance_density (fun k => T c k ^ 2 * primordial_matter_power c k) r) (log10 kmin) (log10 kmax)) <=
    2 * (log10 kmax - log10 kmin) * e.
Proof. exact sigmasqr_accuracy. Qed.
Print Assumptions C145_accuracy_partial.
Example C145_case : (forall x, log10 1 <= x <= log10 10 -> continuous wig x) /\ exists e, forall x, log10 1 <= x <= log10 10 -> Rabs (wig x - poly (fun _ => 0) 0 x) <= e.
Proof. exact accuracy_case. Qed.
