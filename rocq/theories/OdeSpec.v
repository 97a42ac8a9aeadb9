(** * Specification for odeint and interp *)
From Verif Require Import Np.

(** one classical Runge-Kutta step of y' = f(y,t) from (s,y) to t, for vectors as functions of an index *)
Definition rk4_vec (f : (nat -> R) -> R -> nat -> R) (y : nat -> R) (s t : R) (i : nat) : R :=
  let h := t - s in
  let k1 := f y s in
  let k2 := f (fun j => y j + h / 2 * k1 j) (s + h / 2) in
  let k3 := f (fun j => y j + h / 2 * k2 j) (s + h / 2) in
  let k4 := f (fun j => y j + h * k3 j) t in
  y i + h * (k1 i + 2 * k2 i + 2 * k3 i + k4 i) / 6.

(** the same for a single number *)
Definition rk4_num (f : R -> R -> R) (y s t : R) : R :=
  let h := t - s in
  let k1 := f y s in
  let k2 := f (y + h / 2 * k1) (s + h / 2) in
  let k3 := f (y + h / 2 * k2) (s + h / 2) in
  let k4 := f (y + h * k3) t in
  y + h * (k1 + 2 * k2 + 2 * k3 + k4) / 6.

(** strictly increasing / decreasing arrays *)
Definition incr (v : list R) : Prop := forall i j, (i < j < length v)%nat -> el v i < el v j.
Definition decr (v : list R) : Prop := forall i j, (i < j < length v)%nat -> el v j < el v i.

(** the straight line through (x0,y0) and (x1,y1) *)
Definition line (x0 y0 x1 y1 x : R) : R := y0 + (y1 - y0) / (x1 - x0) * (x - x0).
(** the line through nodes i and i+1 of the table *)
Definition cell (xp fp : list R) (i : nat) (x : R) : R := line (el xp i) (el fp i) (el xp (i + 1)) (el fp (i + 1)) x.
