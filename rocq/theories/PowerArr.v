(** * Model of jax_cosmo/power.py on arrays

    Power.v evaluates one pair (k, a).  Here the same functions act on arrays of dimension 0 or 1 with numpy broadcasting,
    np.atleast_1d and .squeeze(), as the code is called by angular_cl and by users.  The object's caches are not threaded
    through (see Power.v). *)
From Verif Require Import Np Core Interp Integrate Background Transfer Power.

(** numpy broadcasting of a binary elementwise operation on arrays of dimension 0 or 1 *)
Definition bop (f : R -> R -> R) (x y : array_like) : res array_like :=
  match x, y with
  | Scalar u, Scalar v => Ok (Scalar (f u v))
  | Scalar u, Array1 m => Ok (Array1 (map (f u) m))
  | Array1 l, Scalar v => Ok (Array1 (map (fun u => f u v) l))
  | Array1 l, Array1 m =>
      if Nat.eqb (length l) (length m) then Ok (Array1 (map2 f l m))
      else if Nat.eqb (length l) 1 then Ok (Array1 (map (f (el l 0)) m))
      else if Nat.eqb (length m) 1 then Ok (Array1 (map (fun u => f u (el m 0)) l))
      else Err TypeError
  end.
(** unary elementwise operation *)
Definition uop (f : R -> R) (x : array_like) : array_like :=
  match x with Scalar u => Scalar (f u) | Array1 l => Array1 (map f l) end.
(** .squeeze() of an array of dimension 0 or 1 *)
Definition squeeze (x : array_like) : array_like :=
  match x with Array1 [v] => Scalar v | _ => x end.

(** vmap of a function that may raise *)
Fixpoint map_res {A B} (f : A -> res B) (l : list A) : res (list B) :=
  match l with [] => Ok [] | x :: l' => bind (f x) (fun y => bind (map_res f l') (fun ys => Ok (y :: ys))) end.

(** background.py 371-398 on an array of dimension 1: the values without the cache *)
Definition growth_values (c : cosmology) (a : list R) : res (list R) := fst (growth_factor c (Array1 a)).

(** power.py 22-54 *)
Definition linear_matter_power_nd (c : cosmology) (k a : array_like) (T : transfer) : res array_like :=
  let k := Array1 (atleast_1d k) in                                           (* 43 *)
  let a := atleast_1d a in                                                    (* 44 *)
  bind (growth_values c a) (fun g =>                                          (* 45 *)
  let t := uop (T c) k in                                                     (* 46 *)
  let pknorm := _sigma8 c ^ 2 / sigmasqr_default c 8.0 T in                   (* 48 *)
  bind (bop Rmult (uop (primordial_matter_power c) k) (uop (fun x => x ^ 2) t)) (fun p =>
  bind (bop Rmult p (uop (fun x => x ^ 2) (Array1 g))) (fun pk =>             (* 50 *)
  Ok (squeeze (uop (fun x => x * pknorm) pk))))).                             (* 53-54 *)

(** power.py 99-110: int_sigma of R_nl for one scale factor; receives the array of nodes ln k, returns one row of 256
    values per node.  np.expand_dims(_, axis=1) needs an array of dimension 1. *)
Definition hf_int_sigma_rows (c : cosmology) (a : R) (T : transfer) (logk : list R) : res (list (list R)) :=
  let k := map exp logk in
  let r := map exp hf_logr in
  bind (linear_matter_power_nd c (Array1 k) (Scalar 1.0) T) (fun pk =>
  bind (growth_values c [a]) (fun g =>
  bind (bop Rmult pk (Array1 (map (fun x => x ^ 3) k))) (fun pk3 =>
  match pk3 with
  | Scalar _ => Err ValueError
  | Array1 v => Ok (map2 (fun kk p => map (fun rr => p * exp (- ((kk * rr) ^ 2)) / (2.0 * PI ^ 2) * el g 0 ^ 2) r) k v)
  end))).
(** power.py 97-116 for one scale factor (the vmap over a maps this); interp of a length-one array gives one value *)
Definition R_nl_arr (c : cosmology) (T : transfer) (a : R) : res R :=
  bind (simps_rows (length hf_logr) (hf_int_sigma_rows c a T) (ln 1e-4) (ln 1e4) 256) (fun sigma =>
  bind (interp (Array1 [1.0]) sigma hf_logr) (fun root =>
  Ok (clip_lo (exp (el root 0)) 1e-6))).
(** power.py 119: 1 / R_nl(a).squeeze(), dimension 0 for a single scale factor *)
Definition k_nl_nd (c : cosmology) (a : list R) (T : transfer) : res array_like :=
  bind (map_res (R_nl_arr c T) a) (fun r => Ok (uop (fun x => 1.0 / x) (squeeze (Array1 r)))).

(** power.py 122-135: integrand of the second step; np.outer flattens 1/k_nl, so a row has 2 * na values: first
    dneff_dlogk for every a, then dC_dlogk for every a (np.stack, axis=1) *)
Definition hf_integrand_rows (c : cosmology) (a knl : list R) (T : transfer) (logk : list R) : res (list (list R)) :=
  let k := map exp logk in
  bind (linear_matter_power_nd c (Array1 k) (Scalar 1.0) T) (fun pk =>
  bind (growth_values c a) (fun g =>
  bind (bop Rmult pk (Array1 (map (fun x => x ^ 3) k))) (fun pk3 =>
  match pk3 with
  | Scalar _ => Err ValueError
  | Array1 v => Ok (map2 (fun kk p =>
      let y := map (fun q => kk * (1.0 / q)) knl in
      let res := map2 (fun yy gg => p * exp (- (yy ^ 2)) * gg ^ 2 / (2.0 * PI ^ 2)) y g in
      map2 (fun rr yy => 2 * rr * yy ^ 2) res y ++ map2 (fun rr yy => 4 * rr * (yy ^ 2 - yy ^ 4)) res y) k v)
  end))).
(** power.py 87-142: (k_nl, n_eff, C) *)
Definition halofit_parameters_nd (c : cosmology) (a : list R) (T : transfer) : res (array_like * list R * list R) :=
  bind (k_nl_nd c a T) (fun knl =>
  bind (simps_rows (2 * length a) (hf_integrand_rows c a (atleast_1d knl) T) (ln 1e-4) (ln 1e4) 256) (fun res =>
  let res0 := firstn (length a) res in let res1 := skipn (length a) res in
  Ok (knl, map (fun x => x - 3.0) res0, map2 (fun x y => x ^ 2 + y) res0 res1))).

(** power.py 251-267; every coefficient is an array.  Association follows the code. *)
Definition assemble_nd (k pklin knl an bn cn gamn aln ben mun nun f1 f2 f3 : array_like) : res array_like :=
  bind (bop Rmult (uop (fun x => x ^ 3) k) pklin) (fun q =>
  let d2l := uop (fun x => x / (2.0 * PI ^ 2)) q in                                        (* 253 *)
  bind (bop Rdiv k knl) (fun y =>                                                          (* 255 *)
  bind (bop rpow (uop (fun x => 1.0 + x) d2l) ben) (fun e1 =>
  bind (bop Rmult aln d2l) (fun e2 =>
  bind (bop Rdiv e1 (uop (fun x => 1 + x) e2)) (fun e3 =>
  bind (bop Rmult d2l e3) (fun e4 =>
  bind (bop Rmult e4 (uop (fun x => exp (- (x / 4.0 + x ^ 2 / 8.0))) y)) (fun d2q =>       (* 258 *)
  bind (bop rpow y (uop (fun x => 3 * x) f1)) (fun p1 =>
  bind (bop Rmult an p1) (fun h1 =>
  bind (bop rpow y f2) (fun p2 =>
  bind (bop Rmult bn p2) (fun q2 =>
  bind (bop Rmult cn f3) (fun cf =>
  bind (bop Rmult cf y) (fun cy =>
  bind (bop rpow cy (uop (fun x => 3.0 - x) gamn)) (fun q3 =>
  bind (bop Rplus (uop (fun x => 1.0 + x) q2) q3) (fun s1 =>
  bind (bop Rdiv h1 s1) (fun hp =>                                                         (* 259-261 *)
  bind (bop Rdiv mun y) (fun m1 =>
  bind (bop Rdiv nun (uop (fun x => x ^ 2) y)) (fun m2 =>
  bind (bop Rplus (uop (fun x => 1.0 + x) m1) m2) (fun s2 =>
  bind (bop Rdiv hp s2) (fun d2h =>                                                        (* 262 *)
  bind (bop Rplus d2q d2h) (fun d2nl =>                                                    (* 264 *)
  bop Rmult (uop (fun x => 2.0 * PI ^ 2 / x ^ 3) k) d2nl))))))))))))))))))))).             (* 265 *)

(** power.py 145-267 (halofit).  The arrays computed from a alone (n, C, Omega_m(a), ..., the coefficients) all have the
    shape of a, so their elementwise formulas are maps over zipped lists; mu_n is a scalar for takahashi2012. *)
Definition halofit_nd (c : cosmology) (k a : array_like) (T : transfer) (prescription : string) : res array_like :=
  let a := atleast_1d a in                                                                 (* 170 *)
  bind (linear_matter_power_nd c k (Array1 a) T) (fun pklin =>                             (* 173 *)
  bind (halofit_parameters_nd c a T) (fun '(knl, n, C) =>                                  (* 176 *)
  let om_m := map (Omega_m_a c) a in
  let om_de := map (Omega_de_a c) a in
  let ww := map (w c) a in
  let frac := map2 (fun d m => d / (1.0 - m)) om_de om_m in                                (* 178-181 *)
  if String.eqb prescription "smith2003" then
    let co := map2 hf_smith n C in
    let f := map2 hf_f_smith om_m frac in
    bind (assemble_nd k pklin knl (Array1 (map hf_a co)) (Array1 (map hf_b co)) (Array1 (map hf_c co)) (Array1 (map hf_gamma co))
            (Array1 (map hf_alpha co)) (Array1 (map hf_beta co)) (Array1 (map hf_mu co)) (Array1 (map hf_nu co))
            (Array1 (map (fun x => fst (fst x)) f)) (Array1 (map (fun x => snd (fst x)) f)) (Array1 (map snd f))) (fun r => Ok (squeeze r))
  else if String.eqb prescription "takahashi2012" then
    let co := map2 (fun p q => hf_takahashi (fst p) (snd p) (fst q) (snd q)) (combine n C) (combine om_de ww) in
    let f := map hf_f_takahashi om_m in
    bind (assemble_nd k pklin knl (Array1 (map hf_a co)) (Array1 (map hf_b co)) (Array1 (map hf_c co)) (Array1 (map hf_gamma co))
            (Array1 (map hf_alpha co)) (Array1 (map hf_beta co)) (Scalar 0.0) (Array1 (map hf_nu co))
            (Array1 (map (fun x => fst (fst x)) f)) (Array1 (map (fun x => snd (fst x)) f)) (Array1 (map snd f))) (fun r => Ok (squeeze r))
  else Err NotImplementedError)).
