(** * Model of kde_nz for catalogues with several columns, redshift.py 99-131

    NzArr.v takes a vector as catalogue.  Here catalogue and weights are arrays.  Simplified: weights of rank three or more and
    rank 0 results of np.dot are not represented (TypeError). *)
From Verif Require Import Np Integrate Interp Redshift Nd QuadNd.

(** np.dot(x, w): contracts the last axis of x with the last axis of a vector w or the first axis of a matrix w *)
Definition dot_nd (x w : nd) : res nd :=
  match shp w with
  | [n] => if Nat.eqb (last (shp x) 0%nat) n
           then Ok (Nd (removelast (shp x)) (fun i => vsum (tab n (fun j => get x (i ++ [j]) * get w [j]))))
           else Err TypeError
  | [n; c] => if Nat.eqb (last (shp x) 0%nat) n
              then Ok (Nd (removelast (shp x) ++ [c]) (fun i => vsum (tab n (fun j => get x (removelast i ++ [j]) * get w [j; last i 0%nat]))))
              else Err TypeError
  | _ => Err TypeError
  end.
(** redshift.py 124-131 *)
Definition kde_nd (zcat weight : nd) (bw : R) (z : nd) : res nd :=
  let w := atleast1 weight in                                                 (* 127 *)
  let q := vsum (flat w) in                                                   (* 128 *)
  let X := expand_last zcat in                                                (* 129 *)
  bind (bop2 (kde_kernel bw) X z) (fun k =>                                   (* 130, 118-122 *)
  bind (dot_nd (transpose k) w) (fun y => Ok (uop1 (fun v => v / q) y))).     (* 131 *)
(** redshift.py 28-32 (__call__) with integrate.py 163-200 on the function F = pz_fn, whose values may have further axes *)
Definition norm_call (F : nd -> res nd) (zmax : R) (z : nd) : res nd :=
  bind (F (vec (linspace 0.0 zmax (256 + 1)))) (fun y =>  (* 31 *)
  match shp y with
  | [] => Err TypeError
  | m :: _ =>
      let dx := (zmax - 0.0) / INR 256 in
      bind (bop2 Rplus (every2 0 (m / 2) y) (uop1 (fun u => 4 * u) (every2 1 (m / 2) y))) (fun p =>
      bind (bop2 Rplus p (every2 2 ((m - 1) / 2) y)) (fun q =>
      let norm := uop1 (fun u => dx / 3 * u) (sum_first q) in
      bind (F z) (fun v => bop2 Rdiv v norm)))                                (* 32 *)
  end).
Definition kde_call (zcat weight : nd) (bw zmax : R) (z : nd) : res nd := norm_call (kde_nd zcat weight bw) zmax z.
(** redshift.py 144-146 and 28-32: a systematic_shift of a kde_nz by a number *)
Definition shift_call (zcat weight : nd) (bw bias zmax : R) (z : nd) : res nd :=
  norm_call (fun t => kde_nd zcat weight bw (uop1 (fun x => clip_lo (x - bias) 0) t)) zmax z.
