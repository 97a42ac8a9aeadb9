(** * Model of redshift.py on arrays of any rank

    Redshift.v evaluates the distributions at one redshift.  Here pz_fn and __call__ receive the argument the user passed: a python
    float, a numpy array or a jax array of any shape.  The catalogue and its weights are numbers or vectors.  The cached norm
    and the galaxy density are left out (see Redshift.v). *)
From Verif Require Import Np Integrate Interp Redshift Nd.

Inductive arg := PyFloat (x : R) | NumpyArr (x : nd) | JaxArr (x : nd).
Definition value (z : arg) : nd := match z with PyFloat x => num0 x | NumpyArr x => x | JaxArr x => x end.
(** a number or a vector as an array *)
Definition of_like (x : array_like) : nd := match x with Scalar q => num0 q | Array1 v => vec v end.

(** redshift.py 62-146: class, parameters and config *)
Inductive anz :=
  | ANz (f : anz_family) (zmax : R)
with anz_family :=
  | ASmail (a b z0 : R)
  | ADelta (z0 : R)
  | AKde (zcat weight : array_like) (bw : R)
  | AShift (parent : anz) (bias : R).

Section Pz.
(** what comparing a jax array with the tuple (z0,) gives; it depends on the release of jax and is left open *)
Variable jax_eq_tuple : nd -> R -> res nd.

(** redshift.py 124-131: kde_nz.pz_fn *)
Definition kde_pz (zcat weight : array_like) (bw : R) (z : nd) : res nd :=
  let w := atleast_1d weight in                                               (* 127 *)
  let q := vsum w in                                                          (* 128 *)
  let X := expand_last (of_like zcat) in                                      (* 129 *)
  bind (bop2 (kde_kernel bw) X z) (fun k =>                                   (* 130, 118-122 *)
  bind (dot_vec (transpose k) w) (fun y => Ok (uop1 (fun v => v / q) y))).    (* 131 *)

(** redshift.py 76-78, 94-96, 124-131, 144-146.
    Line 95 binds z0 to the tuple self.params: a python float never equals a tuple; a numpy array converts the tuple to a vector of
    length one.  np.clip returns a jax array. *)
Fixpoint apz (d : anz) (z : arg) : res nd := match d with ANz f _ => afam_pz f z end
with afam_pz (f : anz_family) (z : arg) : res nd :=
  match f with
  | ASmail a b z0 => Ok (uop1 (fun x => rpow x a * exp (- rpow (x / z0) b)) (value z))
  | ADelta z0 =>
      match z with
      | PyFloat _ => Ok (num0 0)
      | NumpyArr x => bop2 (fun u v => if Req_EM_T u v then 1.0 else 0) x (vec [z0])
      | JaxArr x => jax_eq_tuple x z0
      end
  | AKde zcat weight bw => kde_pz zcat weight bw (value z)
  | AShift parent b => apz parent (JaxArr (uop1 (fun x => clip_lo (x - b) 0) (value z)))
  end.

(** redshift.py 28-32 with integrate.py 163-200 and redshift.py 89-92: the norm.  simps evaluates pz_fn on the vector of 257 nodes and
    slices the result along its first axis. *)
Definition anorm (d : anz) : res R :=
  match d with
  | ANz (ADelta _) _ => Ok 1.0
  | ANz _ zmax =>
      bind (apz d (JaxArr (vec (linspace 0.0 zmax (256 + 1))))) (fun v =>
      match shp v with
      | [n] => let y := flat v in
               Ok ((zmax - 0.0) / INR 256 / 3 * vsum (vadd (vadd (evens (removelast y)) (vscale 4 (odds y))) (evens (skipn 2 y))))
      | _ => Err TypeError
      end)
  end.
(** redshift.py 28-32: __call__ *)
Definition acall (d : anz) (z : arg) : res nd :=
  bind (anorm d) (fun n => bind (apz d z) (fun v => Ok (uop1 (fun x => x / n) v))).
End Pz.
