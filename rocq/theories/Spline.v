(** * Model of InterpolatedUnivariateSpline, jax_cosmo/scipy/interpolate.py 43-443 *)
From Verif Require Import Np Interp.

(** np.linalg.solve(A, s) for an n x n matrix *)
Definition solve_t := nat -> list (list R) -> list R -> list R.

(** v[:-1]; v[1:] is [tl v] *)
Definition init (v : list R) : list R := firstn (length v - 1) v.
(** v ** 2 *)
Definition vsq (v : list R) : list R := map (fun u => u ^ 2) v.
(** [np.zeros(n)] *)
Definition vzeros (n : nat) : list R := repeat 0 n.

(** interpolate.py 228-232: the attributes *)
Record spline := Spline { sp_k : Z; sp_x : list R; sp_y : list R; sp_coef : list R; sp_end : string }.

(** interpolate.py 136-144, 277-285 and 364-372: the knots of the quadratic spline *)
Definition quad_knots (x : list R) : list R :=
  let knots := map (fun u => u / 2.0) (vadd (tl x) (init x)) in
  ([getZ 0 x 0 - (getZ 0 x 1 - getZ 0 x 0) / 2.0] ++ knots ++ [getZ 0 x (-1) + (getZ 0 x (-1) - getZ 0 x (-2)) / 2.0])%list.
(** interpolate.py 276-287 and 363-374 *)
Definition spline_knots (k : Z) (x : list R) : list R := if Z.eqb k 2 then quad_knots x else x.

(** interpolate.py 145-190: system matrix and right-hand side of the quadratic spline *)
Definition quad_matrix (x : list R) : list (list R) :=
  let knots := quad_knots x in
  let n := length knots in
  let h := diff knots in
  let dt := vsub x (init knots) in
  let A := diag ([1] ++ vadd (vsub (vsub (vscale 2 (tl dt)) (vdiv (vsq (tl dt)) (tl h))) (vdiv (vsq (init dt)) (init h)))
                             (init h) ++ [1]) in                                                    (* 152-165 *)
  let A := madd A (diag_up 1 ([- (1 + getZ 0 h 0 / getZ 0 h 1)] ++ vdiv (vsq (tl dt)) (tl h))) in   (* 167-170 *)
  let A := madd A (diag_up 2 ([getZ 0 h 0 / getZ 0 h 1] ++ vzeros (n - 3))) in                      (* 171-173 *)
  let A := madd A (diag_lo 1 (vadd (vsub (init h) (vscale 2 (init dt))) (vdiv (vsq (init dt)) (init h))
                              ++ [- (1 + getZ 0 h (-1) / getZ 0 h (-2))])) in                       (* 175-183 *)
  madd A (diag_lo 2 (vzeros (n - 3) ++ [getZ 0 h (-1) / getZ 0 h (-2)])).                           (* 184-187 *)
Definition quad_rhs (y : list R) : list R := ([0] ++ vscale 2 (diff y) ++ [0])%list.                 (* 190 *)

(** interpolate.py 202-219: system matrix of the cubic spline *)
Definition cubic_matrix (natural : bool) (x : list R) : list (list R) :=
  let h := diff x in
  let n_data := length x in
  let A00 := if natural then 1.0 else getZ 0 h 1 in
  let A01 := if natural then 0.0 else - (getZ 0 h 0 + getZ 0 h 1) in
  let A02 := if natural then 0.0 else getZ 0 h 0 in
  let ANN := if natural then 1.0 else getZ 0 h (-2) in
  let AN1 := if natural then - 1.0 else - (getZ 0 h (-2) + getZ 0 h (-1)) in
  let AN2 := if natural then 0.0 else getZ 0 h (-1) in
  let A := diag ([A00] ++ vscale 2 (vadd (init h) (tl h)) ++ [ANN]) in
  let upper_diag1 := diag_up 1 ([A01] ++ tl h) in
  let upper_diag2 := diag_up 2 ([A02] ++ vzeros (n_data - 3)) in
  let lower_diag1 := diag_lo 1 (init h ++ [AN1]) in
  let lower_diag2 := diag_lo 2 (vzeros (n_data - 3) ++ [AN2]) in
  madd A (madd (madd (madd upper_diag1 upper_diag2) lower_diag1) lower_diag2).
(** interpolate.py 222-223 *)
Definition cubic_rhs (x y : list R) : list R :=
  let h := diff x in
  let p := diff y in
  ([0] ++ vscale 3 (vsub (vdiv (tl p) (tl h)) (vdiv (init p) (init h))) ++ [0])%list.

(** interpolate.py 45-232 (__init__).  [k] is int(k).  Arrays of two or more dimensions: SplineNd.v (line 116
    rejects them). *)
Definition spline_init (solve : solve_t) (x0 y0 : array_like) (k : Z) (endpoints : string) (coefficients : option (list R))
  : res spline :=
  if negb (Z.eqb k 1 || Z.eqb k 2 || Z.eqb k 3)%Z then Err AssertionError                           (* 112 *)
  else
    let x := atleast_1d x0 in
    let y := atleast_1d y0 in
    if negb (Nat.eqb (length x) (length y)) then Err AssertionError                                  (* 115 *)
    else
      let n_data := length x in
      match coefficients with
      | Some co => Ok (Spline k x y co endpoints)
      | None =>
          if Z.eqb k 1 then
            if negb (Nat.ltb 1 n_data) then Err AssertionError                                      (* 127 *)
            else Ok (Spline k x y (vdiv (diff y) (diff x)) endpoints)                               (* 128 *)
          else if Z.eqb k 2 then
            if negb (Nat.ltb 2 n_data) then Err AssertionError                                      (* 131 *)
            else if negb (String.eqb endpoints "not-a-knot") then Err AssertionError                (* 132 *)
            else Ok (Spline k x y (solve (length (quad_knots x)) (quad_matrix x) (quad_rhs y)) endpoints)
          else
            if negb (Nat.ltb 3 n_data) then Err AssertionError                                      (* 196 *)
            else
              let endpoints := if String.eqb endpoints "natural" || String.eqb endpoints "not-a-knot" then endpoints
                               else "natural"%string in                                             (* 197-199 *)
              Ok (Spline k x y (solve n_data (cubic_matrix (String.eqb endpoints "natural") x) (cubic_rhs x y)) endpoints)
      end.

(** interpolate.py 235-243 (tree_flatten, tree_unflatten) *)
Definition spline_flatten (s : spline) : (list R * list R * list R) * (string * Z) :=
  ((sp_x s, sp_y s, sp_coef s), (sp_end s, sp_k s)).
Definition spline_unflatten (solve : solve_t) (aux : string * Z) (children : list R * list R * list R) : res spline :=
  let '(x, y, co) := children in
  spline_init solve (Array1 x) (Array1 y) (snd aux) (fst aux) (Some co).

(** interpolate.py 290-292 and 377-379: the piece used for a query point *)
Definition piece_index (knots : list R) (q : R) : Z :=
  clipZ (Z.of_nat (digitize q knots) - 1) 0 (Z.of_nat (length knots) - 2).

(** interpolate.py 270-317 (_compute_coeffs) for one query point: t and the coefficients a, b, c, d; c and d are 0
    where the code does not compute them *)
Definition compute_coeffs (s : spline) (q : R) : R * R * R * R * R :=
  let x := sp_x s in let y := sp_y s in let coefficients := sp_coef s in
  let knots := spline_knots (sp_k s) x in
  let ind := piece_index knots q in
  let t := q - getZ 0 knots ind in
  let h := getZ 0 (diff knots) ind in
  if Z.eqb (sp_k s) 1 then (t, getZ 0 y ind, getZ 0 coefficients ind, 0, 0)                          (* 296-298 *)
  else if Z.eqb (sp_k s) 2 then                                                                      (* 300-306 *)
    let dt := getZ 0 (vsub x (init knots)) ind in
    let b := getZ 0 coefficients ind in
    let b1 := getZ 0 coefficients (ind + 1) in
    let a := getZ 0 y ind - b * dt - (b1 - b) * dt ^ 2 / (2 * h) in
    let c := (b1 - b) / (2 * h) in
    (t, a, b, c, 0)
  else                                                                                               (* 308-315 *)
    let c := getZ 0 coefficients ind in
    let c1 := getZ 0 coefficients (ind + 1) in
    let a := getZ 0 y ind in
    let a1 := getZ 0 y (ind + 1) in
    let b := (a1 - a) / h - (2 * c + c1) * h / 3.0 in
    let d := (c1 - c) / (3 * h) in
    (t, a, b, c, d).

(** interpolate.py 245-268 (__call__) for one query point *)
Definition spline_call (s : spline) (q : R) : R :=
  let '(t, a, b, c, d) := compute_coeffs s q in
  if Z.eqb (sp_k s) 1 then a + b * t
  else if Z.eqb (sp_k s) 2 then a + b * t + c * t ^ 2
  else a + b * t + c * t ^ 2 + d * t ^ 3.

(** interpolate.py 319-353 (derivative) *)
Definition spline_derivative (s : spline) (q : R) (n : Z) : res R :=
  if negb ((0 <=? n)%Z && (n <? sp_k s + 1)%Z) then Err AssertionError                               (* 325 *)
  else if Z.eqb n 0 then Ok (spline_call s q)
  else
    let '(t, a, b, c, d) := compute_coeffs s q in
    if Z.eqb (sp_k s) 1 then Ok b
    else if Z.eqb (sp_k s) 2 then (if Z.eqb n 1 then Ok (b + 2 * c * t) else Ok (2 * c))
    else if Z.eqb n 1 then Ok (b + 2 * c * t + 3 * d * t ^ 2)
    else if Z.eqb n 2 then Ok (2 * c + 6 * d * t)
    else Ok (6 * d).

(** interpolate.py 355-421 (antiderivative) for one query point *)
Definition spline_antiderivative (s : spline) (q : R) : R :=
  let x := sp_x s in let y := sp_y s in let coefficients := sp_coef s in
  let knots := spline_knots (sp_k s) x in
  let ind := piece_index knots q in
  let t := q - getZ 0 knots ind in
  let h := diff knots in
  if Z.eqb (sp_k s) 1 then                                                                           (* 382-387 *)
    let a := init y in
    let b := coefficients in
    let cst := 0 :: cumsum (vadd (vmul a h) (map (fun u => u / 2) (vmul b (vsq h)))) in
    getZ 0 cst ind + getZ 0 a ind * t + getZ 0 b ind * t ^ 2 / 2
  else if Z.eqb (sp_k s) 2 then                                                                      (* 389-399 *)
    let dt := vsub x (init knots) in
    let b := init coefficients in
    let b1 := tl coefficients in
    let a := vsub (vsub y (vmul b dt)) (vdiv (vmul (vsub b1 b) (vsq dt)) (vscale 2 h)) in
    let c := vdiv (vsub b1 b) (vscale 2 h) in
    let cst := 0 :: cumsum (vadd (vadd (vmul a h) (map (fun u => u / 2) (vmul b (vsq h))))
                                 (map (fun u => u / 3) (vmul c (map (fun u => u ^ 3) h)))) in
    getZ 0 cst ind + getZ 0 a ind * t + getZ 0 b ind * t ^ 2 / 2 + getZ 0 c ind * t ^ 3 / 3
  else                                                                                               (* 401-421 *)
    let c := init coefficients in
    let c1 := tl coefficients in
    let a := init y in
    let a1 := tl y in
    let b := vsub (vdiv (vsub a1 a) h) (map (fun u => u / 3.0) (vmul (vadd (vscale 2 c) c1) h)) in
    let d := vdiv (vsub c1 c) (vscale 3 h) in
    let cst := 0 :: cumsum (vadd (vadd (vadd (vmul a h) (map (fun u => u / 2) (vmul b (vsq h))))
                                       (map (fun u => u / 3) (vmul c (map (fun u => u ^ 3) h))))
                                 (map (fun u => u / 4) (vmul d (map (fun u => u ^ 4) h)))) in
    getZ 0 cst ind + getZ 0 a ind * t + getZ 0 b ind * t ^ 2 / 2 + getZ 0 c ind * t ^ 3 / 3 + getZ 0 d ind * t ^ 4 / 4.

(** interpolate.py 423-443 (integral): a one-element array *)
Definition spline_integral (s : spline) (a b : R) : list R :=
  let '(a, b, sign) := if Rlt_dec b a then (b, a, -1) else (a, b, 1) in
  vscale sign (diff [spline_antiderivative s a; spline_antiderivative s b]).
