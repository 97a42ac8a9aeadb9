(** * Model of InterpolatedUnivariateSpline on arrays of any rank, jax_cosmo/scipy/interpolate.py 43-443

    Spline.v takes numbers and vectors as data and evaluates at one point.  Here data, query points and integration bounds are arrays
    of any shape, and every line acts on whole arrays.  Primitives from their documented meaning. *)
From Verif Require Import Np Interp Spline Nd.

(** arrays of integers *)
Record ndi := Ndi { ishp : list nat; iget : list nat -> Z }.
Definition imap (f : Z -> Z) (x : ndi) : ndi := Ndi (ishp x) (fun i => f (iget x i)).
(** np.digitize(x, bins): entry by entry, with the shape of x *)
Definition digitize_nd (x : nd) (bins : list R) : ndi := Ndi (shp x) (fun i => Z.of_nat (digitize (get x i) bins)).
(** v[ind] of a vector indexed by an array of integers: has the shape of ind *)
Definition take (v : list R) (ind : ndi) : nd := Nd (ishp ind) (fun i => getZ 0 v (iget ind i)).

(** interpolate.py 290-292 and 377-379 *)
Definition piece_indices (knots : list R) (xs : nd) : ndi :=
  let ind := imap (fun j => j - 1)%Z (digitize_nd xs knots) in
  imap (fun j => clipZ j 0 (Z.of_nat (length knots) - 2)) ind.

(** interpolate.py 270-317 (_compute_coeffs): t, a, b, c, d; c and d are the number 0 where the code does not compute them *)
Definition compute_coeffs_nd (s : spline) (xs : nd) : res (nd * nd * nd * nd * nd) :=
  let x := sp_x s in let y := sp_y s in let coefficients := sp_coef s in
  let knots := spline_knots (sp_k s) x in                                                          (* 276-287 *)
  let ind := piece_indices knots xs in                                                             (* 290-292 *)
  bind (bop2 Rminus xs (take knots ind)) (fun t =>                                                 (* 293 *)
  let h := take (diff knots) ind in                                                                (* 294 *)
  if Z.eqb (sp_k s) 1 then Ok (t, take y ind, take coefficients ind, num0 0, num0 0)               (* 296-298 *)
  else if Z.eqb (sp_k s) 2 then                                                                    (* 300-306 *)
    let dt := take (vsub x (init knots)) ind in
    let b := take coefficients ind in
    let b1 := take coefficients (imap (fun j => j + 1)%Z ind) in
    bind (bop2 Rmult b dt) (fun bdt =>
    bind (bop2 Rminus (take y ind) bdt) (fun a1 =>
    bind (bop2 Rminus b1 b) (fun db =>
    bind (bop2 Rmult db (uop1 (fun u => u ^ 2) dt)) (fun q1 =>
    bind (bop2 Rdiv q1 (uop1 (fun u => 2 * u) h)) (fun q2 =>
    bind (bop2 Rminus a1 q2) (fun a =>
    bind (bop2 Rdiv db (uop1 (fun u => 2 * u) h)) (fun c =>
    Ok (t, a, b, c, num0 0))))))))
  else                                                                                             (* 308-315 *)
    let c := take coefficients ind in
    let c1 := take coefficients (imap (fun j => j + 1)%Z ind) in
    let a := take y ind in
    let a1 := take y (imap (fun j => j + 1)%Z ind) in
    bind (bop2 Rminus a1 a) (fun da =>
    bind (bop2 Rdiv da h) (fun b0 =>
    bind (bop2 Rplus (uop1 (fun u => 2 * u) c) c1) (fun cc =>
    bind (bop2 Rmult cc h) (fun ch =>
    bind (bop2 Rminus b0 (uop1 (fun u => u / 3.0) ch)) (fun b =>
    bind (bop2 Rminus c1 c) (fun dc =>
    bind (bop2 Rdiv dc (uop1 (fun u => 3 * u) h)) (fun d =>
    Ok (t, a, b, c, d))))))))).

(** interpolate.py 245-268 (__call__) *)
Definition spline_call_nd (s : spline) (xs : nd) : res nd :=
  bind (compute_coeffs_nd s xs) (fun '(t, a, b, c, d) =>
  bind (bop2 Rmult b t) (fun bt =>
  bind (bop2 Rplus a bt) (fun r1 =>
  if Z.eqb (sp_k s) 1 then Ok r1                                                                   (* 258 *)
  else
    bind (bop2 Rmult c (uop1 (fun u => u ^ 2) t)) (fun ct =>
    bind (bop2 Rplus r1 ct) (fun r2 =>
    if Z.eqb (sp_k s) 2 then Ok r2                                                                 (* 262 *)
    else
      bind (bop2 Rmult d (uop1 (fun u => u ^ 3) t)) (fun dt => bop2 Rplus r2 dt)))))).             (* 266 *)

(** interpolate.py 319-353 (derivative) *)
Definition spline_derivative_nd (s : spline) (xs : nd) (n : Z) : res nd :=
  if negb ((0 <=? n)%Z && (n <? sp_k s + 1)%Z) then Err AssertionError                              (* 325 *)
  else if Z.eqb n 0 then spline_call_nd s xs                                                       (* 327-328 *)
  else
    bind (compute_coeffs_nd s xs) (fun '(t, a, b, c, d) =>
    if Z.eqb (sp_k s) 1 then Ok b                                                                  (* 331-333 *)
    else if Z.eqb (sp_k s) 2 then                                                                  (* 336-341 *)
      if Z.eqb n 1 then bind (bop2 Rmult (uop1 (fun u => 2 * u) c) t) (fun ct => bop2 Rplus b ct)
      else Ok (uop1 (fun u => 2 * u) c)
    else if Z.eqb n 1 then                                                                         (* 346-347 *)
      bind (bop2 Rmult (uop1 (fun u => 2 * u) c) t) (fun ct =>
      bind (bop2 Rplus b ct) (fun r1 =>
      bind (bop2 Rmult (uop1 (fun u => 3 * u) d) (uop1 (fun u => u ^ 2) t)) (fun dt => bop2 Rplus r1 dt)))
    else if Z.eqb n 2 then                                                                         (* 348-349 *)
      bind (bop2 Rmult (uop1 (fun u => 6 * u) d) t) (fun dt => bop2 Rplus (uop1 (fun u => 2 * u) c) dt)
    else Ok (uop1 (fun u => 6 * u) d)).                                                            (* 350-351 *)

(** interpolate.py 355-421 (antiderivative).  The vectors a, b, c, d and cst do not depend on the query and are built as in
    [spline_antiderivative] *)
Definition spline_antiderivative_nd (s : spline) (xs : nd) : res nd :=
  let x := sp_x s in let y := sp_y s in let coefficients := sp_coef s in
  let knots := spline_knots (sp_k s) x in                                                          (* 363-374 *)
  let ind := piece_indices knots xs in                                                             (* 377-379 *)
  bind (bop2 Rminus xs (take knots ind)) (fun t =>                                                 (* 380 *)
  let h := diff knots in
  if Z.eqb (sp_k s) 1 then                                                                         (* 382-387 *)
    let a := init y in
    let b := coefficients in
    let cst := 0 :: cumsum (vadd (vmul a h) (map (fun u => u / 2) (vmul b (vsq h)))) in
    bind (bop2 Rmult (take a ind) t) (fun p1 =>
    bind (bop2 Rplus (take cst ind) p1) (fun r1 =>
    bind (bop2 Rmult (take b ind) (uop1 (fun u => u ^ 2) t)) (fun p2 => bop2 Rplus r1 (uop1 (fun u => u / 2) p2))))
  else if Z.eqb (sp_k s) 2 then                                                                    (* 389-399 *)
    let dt := vsub x (init knots) in
    let b := init coefficients in
    let b1 := tl coefficients in
    let a := vsub (vsub y (vmul b dt)) (vdiv (vmul (vsub b1 b) (vsq dt)) (vscale 2 h)) in
    let c := vdiv (vsub b1 b) (vscale 2 h) in
    let cst := 0 :: cumsum (vadd (vadd (vmul a h) (map (fun u => u / 2) (vmul b (vsq h))))
                                 (map (fun u => u / 3) (vmul c (map (fun u => u ^ 3) h)))) in
    bind (bop2 Rmult (take a ind) t) (fun p1 =>
    bind (bop2 Rplus (take cst ind) p1) (fun r1 =>
    bind (bop2 Rmult (take b ind) (uop1 (fun u => u ^ 2) t)) (fun p2 =>
    bind (bop2 Rplus r1 (uop1 (fun u => u / 2) p2)) (fun r2 =>
    bind (bop2 Rmult (take c ind) (uop1 (fun u => u ^ 3) t)) (fun p3 => bop2 Rplus r2 (uop1 (fun u => u / 3) p3))))))
  else                                                                                             (* 401-421 *)
    let c := init coefficients in
    let c1 := tl coefficients in
    let a := init y in
    let a1 := tl y in
    let b := vsub (vdiv (vsub a1 a) h) (map (fun u => u / 3.0) (vmul (vadd (vscale 2 c) c1) h)) in
    let d := vdiv (vsub c1 c) (vscale 3 h) in
    let cst := 0 :: cumsum (vadd (vadd (vadd (vmul a h) (map (fun u => u / 2) (vmul b (vsq h))))
                                       (map (fun u => u / 3) (vmul c (map (fun u => u ^ 3) h))))
                                 (map (fun u => u / 4) (vmul d (map (fun u => u ^ 4) h)))) in
    bind (bop2 Rmult (take a ind) t) (fun p1 =>
    bind (bop2 Rplus (take cst ind) p1) (fun r1 =>
    bind (bop2 Rmult (take b ind) (uop1 (fun u => u ^ 2) t)) (fun p2 =>
    bind (bop2 Rplus r1 (uop1 (fun u => u / 2) p2)) (fun r2 =>
    bind (bop2 Rmult (take c ind) (uop1 (fun u => u ^ 3) t)) (fun p3 =>
    bind (bop2 Rplus r2 (uop1 (fun u => u / 3) p3)) (fun r3 =>
    bind (bop2 Rmult (take d ind) (uop1 (fun u => u ^ 4) t)) (fun p4 => bop2 Rplus r3 (uop1 (fun u => u / 4) p4))))))))).

(** np.array([a, b]) of two arrays: they are stacked along a new first axis and must have one shape *)
Definition stack2 (a b : nd) : res nd :=
  if list_eq_dec Nat.eq_dec (shp a) (shp b)
  then Ok (Nd (2%nat :: shp a) (fun i => get (if Nat.eqb (hd 0%nat i) 0 then a else b) (tl i)))
  else Err ValueError.
(** np.diff(x): differences along the last axis *)
Definition diff_last (x : nd) : nd :=
  Nd (removelast (shp x) ++ [(last (shp x) 0 - 1)%nat])
     (fun i => get x (removelast i ++ [Datatypes.S (last i 0%nat)]) - get x (removelast i ++ [last i 0%nat])).
(** the truth value of a comparison: an array must have a single entry (arrays without entries, where releases of numpy differ,
    count as errors here) *)
Definition truth (x : nd) : res bool :=
  match indices (shp x) with [i] => Ok (if Req_EM_T (get x i) 0 then false else true) | _ => Err ValueError end.
(** interpolate.py 423-443 (integral) *)
Definition spline_integral_nd (s : spline) (a b : nd) : res nd :=
  bind (bop2 (fun u v => if Rlt_dec u v then 1 else 0) b a) (fun lt =>
  bind (truth lt) (fun swap =>                                                                     (* 439 *)
  let '(a, b, sign) := if swap then (b, a, -1) else (a, b, 1) in                                   (* 438-441 *)
  bind (stack2 a b) (fun xs =>                                                                     (* 442 *)
  bind (spline_antiderivative_nd s xs) (fun v => Ok (uop1 (fun u => sign * u) (diff_last v)))))).  (* 443 *)

(** interpolate.py 45-232 (__init__): lines 110-116 on arrays of any shape; the rest is [spline_init] on the two vectors *)
Definition spline_init_nd (solve : solve_t) (x0 y0 : nd) (k : Z) (endpoints : string) (coefficients : option (list R)) : res spline :=
  if negb (Z.eqb k 1 || Z.eqb k 2 || Z.eqb k 3)%Z then Err AssertionError                           (* 112 *)
  else
    let x := atleast1 x0 in                                                                        (* 113 *)
    let y := atleast1 y0 in                                                                        (* 114 *)
    if negb (Nat.eqb (hd 0%nat (shp x)) (hd 0%nat (shp y))) then Err AssertionError                 (* 115 *)
    else if negb (Nat.eqb (length (shp x)) 1 && Nat.eqb (length (shp y)) 1) then Err AssertionError (* 116 *)
    else spline_init solve (Array1 (flat x)) (Array1 (flat y)) k endpoints coefficients.
