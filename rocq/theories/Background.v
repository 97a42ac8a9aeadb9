(** * Model of jax_cosmo/background.py

    Functions of one scale factor are pointwise; the array versions map them.  The two cached functions return the
    result together with the (mutated) cosmology object. *)
From Verif Require Import Np Core Ode Interp.

(** background.py 25-53 *)
Definition w (c : cosmology) (a : R) : R := _w0 c + (1.0 - a) * _wa c.

(** background.py 56-90 *)
Definition f_de (c : cosmology) (a : R) : R :=
  -3.0 * (1.0 + _w0 c + _wa c) * ln a + 3.0 * _wa c * (a - 1.0).

(** background.py 93-126; np.power(a, -3) is /a^3 *)
Definition Esqr (c : cosmology) (a : R) : R :=
  Omega_m c * / (a ^ 3) + Omega_k c * / (a ^ 2) + Omega_de c * exp (f_de c a).

(** background.py 129-142 *)
Definition H (c : cosmology) (a : R) : R := const_H0 * sqrt (Esqr c a).

(** background.py 145-168, 171-196 *)
Definition Omega_m_a (c : cosmology) (a : R) : R := Omega_m c * / (a ^ 3) / Esqr c a.
Definition Omega_de_a (c : cosmology) (a : R) : R := Omega_de c * exp (f_de c a) / Esqr c a.

(** background.py 270-294 *)
Definition dchioverda (c : cosmology) (a : R) : R := const_rh / (a ^ 2 * sqrt (Esqr c a)).

(** background.py 227-229 *)
Definition dchioverdlna (c : cosmology) (y x : R) : R := let xa := exp x in dchioverda c xa * xa.

(** python v[-1] *)
Definition lastR (v : list R) : R := getZ 0 v (-1).

(** background.py 225-235: the table of radial_comoving_distance *)
Definition chi_table (c : cosmology) (log10_amin : R) (steps : nat) : list R * list R :=
  let atab := logspace log10_amin 0.0 steps in
  let chitab := odeint1 (dchioverdlna c) 0.0 (map ln atab) in
  (atab, map (fun x => lastR chitab - x) chitab).

Definition set_ws_chi (c : cosmology) (t : list R * list R) : cosmology :=
  Cosmology (_Omega_c c) (_Omega_b c) (_h c) (_n_s c) (_sigma8 c) (_Omega_k c) (_w0 c) (_wa c)
    (_gamma c) (_gamma_growth c) (Some t) (ws_growth c).
Definition set_ws_growth (c : cosmology) (t : list R * list R * option (list R)) : cosmology :=
  Cosmology (_Omega_c c) (_Omega_b c) (_h c) (_n_s c) (_sigma8 c) (_Omega_k c) (_w0 c) (_wa c)
    (_gamma c) (_gamma_growth c) (ws_chi c) (Some t).

(** background.py 223-238: the cache lookup, returning the table and the object after the call *)
Definition chi_cache (c : cosmology) (log10_amin : R) (steps : nat) : (list R * list R) * cosmology :=
  match ws_chi c with
  | Some t => (t, c)
  | None => let t := chi_table c log10_amin steps in (t, set_ws_chi c t)
  end.

(** background.py 199-242 (radial_comoving_distance); the result always has at least one dimension *)
Definition radial_comoving_distance (c : cosmology) (a : array_like) (log10_amin : R) (steps : nat)
  : list R * cosmology :=
  let '((atab, chitab), c') := chi_cache c log10_amin steps in
  (map (fun q => clip_lo (interp1 q atab chitab) 0.0) (atleast_1d a), c').
(** default arguments: log10_amin=-3, steps=256 *)
Definition rcd_default (c : cosmology) (a : array_like) : list R * cosmology := radial_comoving_distance c a (-3) 256.
(** value at one scale factor with default arguments *)
Definition chi (c : cosmology) (a : R) : R := el (fst (rcd_default c (Scalar a))) 0.

(** background.py 245-267 (a_of_chi) *)
Definition a_of_chi (c : cosmology) (x : array_like) : list R * cosmology :=
  let c' := match ws_chi c with
            | None => snd (rcd_default c (Scalar 1.0))
            | Some _ => c
            end in
  match ws_chi c' with
  | Some (atab, chitab) => (map (fun q => interp1 q chitab atab) (atleast_1d x), c')
  | None => ([], c')      (* unreachable: line 264 filled the cache *)
  end.

(** background.py 297-344 (transverse_comoving_distance); lax.switch clamps its index to the three branches *)
Definition f_k_branch (c : cosmology) (x : R) : R :=
  let open_universe := const_rh / sqrtk c * sinh (sqrtk c * x / const_rh) in
  let close_universe := const_rh / sqrtk c * sin (sqrtk c * x / const_rh) in
  match clipZ (curv c + 1) 0 2 with
  | 0%Z => open_universe
  | 1%Z => x
  | _ => close_universe
  end.
Definition transverse_comoving_distance (c : cosmology) (a : array_like) : list R * cosmology :=
  let (xs, c') := rcd_default c a in (map (f_k_branch c) xs, c').
Definition f_k (c : cosmology) (a : R) : R := el (fst (transverse_comoving_distance c (Scalar a))) 0.

(** background.py 347-368 (angular_diameter_distance) *)
Definition angular_diameter_distance (c : cosmology) (a : array_like) : list R * cosmology :=
  let (xs, c') := transverse_comoving_distance c a in (vmul (atleast_1d a) xs, c').

(** background.py 465-475 (D_derivs) *)
Definition D_derivs (c : cosmology) (y : R * R) (x : R) : R * R :=
  let q := (2.0 - 0.5 * (Omega_m_a c x + (1.0 + 3.0 * w c x) * Omega_de_a c x)) / x in
  let r := 1.5 * Omega_m_a c x / x / x in
  (snd y, - q * snd y + r * fst y).

(** background.py 463-484: growth table of the ODE parametrisation *)
Definition growth_table_ODE (c : cosmology) (log10_amin : R) (steps : nat) : list R * list R * list R :=
  let atab := logspace log10_amin 0.0 steps in
  let y := odeint2 (D_derivs c) (el atab 0, 1.0) atab in
  let y1 := map fst y in
  let gtab := map (fun v => v / lastR y1) y1 in
  let ftab := vdiv (vmul (map (fun v => v / lastR y1) (map snd y)) atab) gtab in
  (atab, gtab, ftab).

(** background.py 551-582 (_growth_rate_gamma); x ** gamma for x > 0.  [None ** _] is a TypeError, never reached
    since the flag implies gamma is set; the option defaults to 0. *)
Definition gamma_of (c : cosmology) : R := match _gamma c with Some g => g | None => 0 end.
Definition growth_rate_gamma1 (c : cosmology) (a : R) : R := rpow (Omega_m_a c a) (gamma_of c).

(** background.py 536-544: growth table of the gamma parametrisation *)
Definition growth_table_gamma (c : cosmology) (log10_amin : R) (steps : nat) : list R * list R :=
  let atab := logspace log10_amin 0.0 steps in
  let integrand := fun (y loga : R) => growth_rate_gamma1 c (exp loga) in
  let gtab := map exp (odeint1 integrand (ln (el atab 0)) (map ln atab)) in
  (atab, map (fun v => v / lastR gtab) gtab).

(** background.py 461-487 and 534-547: cache lookup under the common key "background.growth_factor" *)
Definition growth_cache_ODE (c : cosmology) (log10_amin : R) (steps : nat)
  : (list R * list R * option (list R)) * cosmology :=
  match ws_growth c with
  | Some t => (t, c)
  | None => let '(atab, gtab, ftab) := growth_table_ODE c log10_amin steps in
            let t := (atab, gtab, Some ftab) in (t, set_ws_growth c t)
  end.
Definition growth_cache_gamma (c : cosmology) (log10_amin : R) (steps : nat)
  : (list R * list R * option (list R)) * cosmology :=
  match ws_growth c with
  | Some t => (t, c)
  | None => let '(atab, gtab) := growth_table_gamma c log10_amin steps in
            let t := (atab, gtab, None) in (t, set_ws_growth c t)
  end.

(** background.py 443-488 (_growth_factor_ODE) and 515-548 (_growth_factor_gamma); the result is paired with the
    object after the call, also when interp rejects a scalar (the cache is filled before) *)
Definition growth_factor_ODE (c : cosmology) (a : array_like) (log10_amin : R) (steps : nat)
  : res (list R) * cosmology :=
  let '((atab, gtab, _), c') := growth_cache_ODE c log10_amin steps in
  (bind (interp a atab gtab) (fun v => Ok (map (fun q => clip q 0.0 1.0) v)), c').
Definition growth_factor_gamma (c : cosmology) (a : array_like) (log10_amin : R) (steps : nat)
  : res (list R) * cosmology :=
  let '((atab, gtab, _), c') := growth_cache_gamma c log10_amin steps in
  (bind (interp a atab gtab) (fun v => Ok (map (fun q => clip q 0.0 1.0) v)), c').

(** background.py 371-398 (growth_factor): default tables log10_amin=-3, steps=128 *)
Definition growth_factor (c : cosmology) (a : array_like) : res (list R) * cosmology :=
  if _gamma_growth c then growth_factor_gamma c a (-3) 128 else growth_factor_ODE c a (-3) 128.

(** background.py 491-512 (_growth_rate_ODE); a cache filled by the gamma branch has no "f" entry: KeyError *)
Definition growth_rate_ODE (c : cosmology) (a : array_like) : res (list R) * cosmology :=
  let c' := match ws_growth c with
            | None => snd (growth_factor_ODE c (Array1 [1.0]) (-3) 128)
            | Some _ => c
            end in
  match ws_growth c' with
  | Some (atab, _, Some ftab) => (interp a atab ftab, c')
  | _ => (Err KeyError, c')
  end.

(** background.py 401-440 (growth_rate); the gamma branch is elementwise and accepts scalars *)
Definition growth_rate (c : cosmology) (a : array_like) : res (list R) * cosmology :=
  if _gamma_growth c then (Ok (map (growth_rate_gamma1 c) (atleast_1d a)), c) else growth_rate_ODE c a.

(** value of the growth factor / rate at one scale factor (call with an array of length one) *)
Definition D (c : cosmology) (a : R) : R :=
  match fst (growth_factor c (Array1 [a])) with Ok v => el v 0 | Err _ => 0 end.
Definition f_growth (c : cosmology) (a : R) : R :=
  match fst (growth_rate c (Array1 [a])) with Ok v => el v 0 | Err _ => 0 end.
