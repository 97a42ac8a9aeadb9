(** * Model of jax_cosmo/core.py, constants.py, utils.py, parameters.py *)
From Verif Require Import Np.

(** constants.py 9, 12, 15, 21, 27 *)
Definition const_c : R := 299792.458.
Definition const_tcmb : R := 2.726.
Definition const_rh : R := 2997.92458.
Definition const_H0 : R := 100.
Definition const_rhocrit : R := 2.7750 * 1e11.

(** utils.py 2-4 and 7-9 *)
Definition z2a (z : R) : R := 1.0 / (1.0 + z).
Definition a2z (a : R) : R := 1.0 / a - 1.0.

(** core.py 14-65: the attributes set by __init__.  _flags is a dictionary with the single key "gamma_growth"; the
    dictionary _workspace only ever holds two keys (background.py 236, 485, 545): one option per key.  The cached
    dictionaries hold the tables "a","chi" and "a","g"[,"f"]. *)
Record cosmology := Cosmology {
  _Omega_c : R; _Omega_b : R; _h : R; _n_s : R; _sigma8 : R; _Omega_k : R; _w0 : R; _wa : R;
  _gamma : option R;
  _gamma_growth : bool;
  ws_chi : option (list R * list R);
  ws_growth : option (list R * list R * option (list R)) }.

(** core.py 14-65 (__init__) *)
Definition make_cosmology (Omega_c Omega_b h n_s sigma8 Omega_k w0 wa : R) (gamma : option R) : cosmology :=
  Cosmology Omega_c Omega_b h n_s sigma8 Omega_k w0 wa gamma
    (match gamma with Some _ => true | None => false end) None None.

(** core.py 99-117 (tree_flatten); [None] cannot be appended as a float: the flag implies gamma is set *)
Definition cosmo_flatten (c : cosmology) : list R * bool :=
  (([_Omega_c c; _Omega_b c; _h c; _n_s c; _sigma8 c; _Omega_k c; _w0 c; _wa c]
     ++ (if _gamma_growth c then match _gamma c with Some g => [g] | None => [] end else []))%list,
   _gamma_growth c).

(** python list.reverse() reverses in place and returns None *)
Definition py_reverse_result (l : list R) : option (list R) := None.

(** core.py 119-142 (tree_unflatten): unpacking fewer than eight children raises ValueError; line 123 binds
    [children] to the result of list.reverse(), which is None; line 128 then calls None.pop() *)
Definition cosmo_unflatten (aux : bool) (children : list R) : res cosmology :=
  match children with
  | Oc :: Ob :: h :: ns :: s8 :: Ok_ :: w0 :: wa :: rest =>
      let children' := py_reverse_result rest in
      if aux then
        match children' with
        | None => Err AttributeError
        | Some l => match rev l with
                    | g :: _ => Ok (make_cosmology Oc Ob h ns s8 Ok_ w0 wa (Some g))
                    | [] => Err ValueError
                    end
        end
      else Ok (make_cosmology Oc Ob h ns s8 Ok_ w0 wa None)
  | _ => Err ValueError
  end.

(** what a jit-compiled function receives for a Cosmology argument (jax flattens arguments and rebuilds them while
    tracing) *)
Definition cosmo_jit (c : cosmology) : res cosmology :=
  let (children, aux) := cosmo_flatten c in cosmo_unflatten aux children.

(** core.py 145-199: properties *)
Definition Omega (c : cosmology) : R := 1.0 - _Omega_k c.
Definition Omega_b (c : cosmology) : R := _Omega_b c.
Definition Omega_c (c : cosmology) : R := _Omega_c c.
Definition Omega_m (c : cosmology) : R := _Omega_b c + _Omega_c c.
Definition Omega_de (c : cosmology) : R := Omega c - Omega_m c.
Definition Omega_k (c : cosmology) : R := _Omega_k c.
Definition curv (c : cosmology) : Z := (- isign (_Omega_k c))%Z.     (* property k, core.py 170-171 *)
Definition sqrtk (c : cosmology) : R := sqrt (Rabs (_Omega_k c)).

(** parameters.py 10-20 (Planck15()) *)
Definition Planck15 : cosmology := make_cosmology 0.2589 0.04860 0.6774 0.9667 0.8159 0.0 (-1.0) 0.0 None.
