(** * Model of power.py for scale factors of rank two

    PowerNd.v takes a number or vector a.  Here a is an array of any shape for the linear power spectrum, and a column
    a[:, None] for halofit. *)
From Verif Require Import Np Core Integrate Interp Background Transfer Power PowerArr Nd NzArr BgArr PowerNd.

(** power.py 22-54, as [linear_grid] *)
Definition linear_nd (c : cosmology) (k a : nd) (T : transfer) : res nd :=
  let k := atleast1 k in                                                      (* 43 *)
  let a := atleast1 a in                                                      (* 44 *)
  bind (growth_nd c a) (fun g =>                                              (* 45 *)
  let t := uop1 (T c) k in                                                    (* 46 *)
  let pknorm := _sigma8 c ^ 2 / sigmasqr_default c 8.0 T in                   (* 48 *)
  bind (bop2 Rmult (uop1 (primordial_matter_power c) k) (uop1 (fun x => x ^ 2) t)) (fun p =>
  bind (bop2 Rmult p (uop1 (fun x => x ^ 2) g)) (fun pk =>                    (* 50 *)
  Ok (squeeze_nd (uop1 (fun x => x * pknorm) pk))))).                         (* 53-54 *)

(** a[:, None] *)
Definition column_of (v : list R) : nd := Nd [length v; 1%nat] (fun i => el v (hd 0%nat i)).
(** np.expand_dims(x, 0) *)
Definition expand_first (x : nd) : nd := Nd (1%nat :: shp x) (fun i => get x (tl i)).
(** power.py 122-135 for the column of [v]; the two arrays that line 135 stacks.  The vmap of line 119 hands R_nl the rows
    a[i], vectors of one entry, so its result squeezes to the array of [k_nl_nd], which np.outer flattens *)
Definition integrand_column (c : cosmology) (v knl : list R) (T : transfer) (logk : list R) : res (nd * nd) :=
  let k := map exp logk in                                                                  (* 123 *)
  let y := Nd [length k; length knl] (fun i => el k (nth 0 i 0%nat) * (1.0 / el knl (nth 1 i 0%nat))) in   (* 124 *)
  bind (linear_matter_power_nd c (Array1 k) (Scalar 1.0) T) (fun pk =>                      (* 125 *)
  bind (growth_nd c (atleast1 (column_of v))) (fun g =>
  let g := expand_first g in                                                                (* 126 *)
  bind (bop Rmult pk (Array1 (map (fun x => x ^ 3) k))) (fun pk3 =>
  bind (bop2 Rmult (expand_last (of_like pk3)) (uop1 (fun x => exp (- (x ^ 2))) y)) (fun r1 =>
  bind (bop2 Rmult r1 (uop1 (fun x => x ^ 2) g)) (fun r2 =>
  let res := uop1 (fun x => x / (2.0 * PI ^ 2)) r2 in                                       (* 127-132 *)
  bind (bop2 Rmult (uop1 (fun x => 2 * x) res) (uop1 (fun x => x ^ 2) y)) (fun dneff =>     (* 133 *)
  bind (bop2 Rmult (uop1 (fun x => 4 * x) res) (uop1 (fun x => x ^ 2 - x ^ 4) y)) (fun dC =>(* 134 *)
  Ok (dneff, dC)))))))).
(** power.py 145-176: halofit on the column of [v] as far as the integrand of the second step; [rest] stands for the
    remaining lines, which are not modelled for columns *)
Definition halofit_column (c : cosmology) (k : nd) (v : list R) (T : transfer) (rest : nd -> array_like -> nd * nd -> res nd) : res nd :=
  bind (linear_nd c k (column_of v) T) (fun pklin =>                                        (* 173 *)
  bind (k_nl_nd c v T) (fun knl =>                                                          (* 119 *)
  bind (integrand_column c v (atleast_1d knl) T (linspace (ln 1e-4) (ln 1e4) (256 + 1))) (fun y =>(* 137, integrate.py 197-198 *)
  rest pklin knl y))).
