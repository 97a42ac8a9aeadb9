(** * Arrays of any rank, as jax.numpy and numpy handle them

    The main model works on lists, i.e. arrays of rank 0 and 1.  Here an array is its shape and its entries, so that calls with
    arrays of higher rank can be asked about.  Primitives from their documented meaning. *)
From Verif Require Import Np Integrate Interp.

(** shape and entries; [get] matters on indices inside the shape only *)
Record nd := Nd { shp : list nat; get : list nat -> R }.
(** a number (0-d array) and a vector *)
Definition num0 (x : R) : nd := Nd [] (fun _ => x).
Definition vec (v : list R) : nd := Nd [length v] (fun i => el v (hd 0%nat i)).
(** all indices in row-major order, and the flattened array *)
Fixpoint indices (s : list nat) : list (list nat) :=
  match s with [] => [[]] | n :: s' => flat_map (fun i => map (cons i) (indices s')) (seq 0 n) end.
Definition flat (x : nd) : list R := map (get x) (indices (shp x)).

(** broadcasting: shapes are aligned on the right; lengths must agree or be 1 *)
Fixpoint bshape_rev (s t : list nat) : option (list nat) :=
  match s, t with
  | [], _ => Some t
  | _, [] => Some s
  | m :: s', n :: t' =>
      match bshape_rev s' t' with
      | None => None
      | Some r => if Nat.eqb m n then Some (m :: r) else if Nat.eqb m 1 then Some (n :: r) else if Nat.eqb n 1 then Some (m :: r) else None
      end
  end.
Definition bshape (s t : list nat) : option (list nat) :=
  match bshape_rev (rev s) (rev t) with Some r => Some (rev r) | None => None end.
(** the index of an operand of shape [s] that output index [i] reads *)
Definition bidx (s i : list nat) : list nat := map2 (fun d k => if Nat.eqb d 1 then 0%nat else k) s (skipn (length i - length s) i).
(** elementwise operation on two arrays; incompatible shapes raise (TypeError, ValueError in some releases) *)
Definition bop2 (f : R -> R -> R) (x y : nd) : res nd :=
  match bshape (shp x) (shp y) with
  | Some s => Ok (Nd s (fun i => f (get x (bidx (shp x) i)) (get y (bidx (shp y) i))))
  | None => Err TypeError
  end.
(** elementwise operation on one array *)
Definition uop1 (f : R -> R) (x : nd) : nd := Nd (shp x) (fun i => f (get x i)).
(** np.expand_dims(x, axis=-1), x.T, np.atleast_1d(x) *)
Definition expand_last (x : nd) : nd := Nd (shp x ++ [1%nat]) (fun i => get x (removelast i)).
Definition transpose (x : nd) : nd := Nd (rev (shp x)) (fun i => get x (rev i)).
Definition atleast1 (x : nd) : nd := match shp x with [] => Nd [1%nat] (fun _ => get x []) | _ => x end.
(** np.dot(x, w) of an array of rank at least 1 with a vector: contracts the last axis of x *)
Definition dot_vec (x : nd) (w : list R) : res nd :=
  if Nat.eqb (last (shp x) 0%nat) (length w)
  then Ok (Nd (removelast (shp x)) (fun i => vdot (map (fun j => get x (i ++ [j])) (seq 0 (length w))) w))
  else Err TypeError.

(** row [i] of an array of rank at least 1, as vmap hands it to the mapped function *)
Definition row (x : nd) (i : nat) : nd := Nd (tl (shp x)) (fun j => get x (i :: j)).
(** interpolate.py 27-40 for one slice [x] of the query array: the entry of the result where the slice holds [q].
    Line 28 takes the argmin of the flattened differences, lines 31-34 use that one index, lines 35-40 are elementwise. *)
Definition interp_cell (x : nd) (xp fp : list R) (q : R) : R :=
  match bop2 (fun u v => (u - v) ^ 2) x (vec xp) with
  | Err _ => 0
  | Ok d =>
    let ind := Z.of_nat (argmin (flat d)) in
    let ind := clipZ ind 1 (Z.of_nat (length xp) - 2) in
    let xi := getZ 0 xp ind in
    let s := isign (clip q (getZ 0 xp 1) (getZ 0 xp (-2)) - xi) in
    let j := (ind + copysign1 s)%Z in
    let a := (getZ 0 fp j - getZ 0 fp ind) / (getZ 0 xp j - getZ 0 xp ind) in
    let b := getZ 0 fp ind - a * getZ 0 xp ind in
    a * q + b
  end.
(** interpolate.py 15-40: vmap over the first axis of x; the slices have the remaining shape, which must broadcast against xp *)
Definition interp_nd (x : nd) (xp fp : list R) : res nd :=
  match shp x with
  | [] => Err ValueError
  | p :: s =>
      match bshape s [length xp] with
      | None => Err TypeError
      | Some _ => Ok (Nd (p :: s) (fun i => interp_cell (row x (hd 0%nat i)) xp fp (get x i)))
      end
  end.
