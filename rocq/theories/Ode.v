(** * Model of jax_cosmo/scipy/ode.py *)
From Verif Require Import Np.

(** ode.py 11-19 (rk4), for a state type V with addition and multiplication by a scalar (floats: R; 1D arrays of
    two entries: pairs) *)
Definition rk4 {V} (add : V -> V -> V) (scl : R -> V -> V) (fn : V -> R -> V) (carry : V * R) (t : R) : (V * R) * V :=
  let (y, t_prev) := carry in
  let h := t - t_prev in
  let k1 := fn y t_prev in
  let k2 := fn (add y (scl (h / 2) k1)) (t_prev + h / 2) in
  let k3 := fn (add y (scl (h / 2) k2)) (t_prev + h / 2) in
  let k4 := fn (add y (scl h k3)) t in
  let y := add y (scl (1.0 / 6.0 * h) (add (add (add k1 (scl 2 k2)) (scl 2 k3)) k4)) in
  ((y, t), y).

(** ode.py 6-22 (odeint): scan over t starting at t[0] *)
Definition odeint {V} (add : V -> V -> V) (scl : R -> V -> V) (fn : V -> R -> V) (y0 : V) (t : list R) : list V :=
  snd (scan (rk4 add scl fn) (y0, el t 0) t).

(** float state *)
Definition odeint1 (fn : R -> R -> R) (y0 : R) (t : list R) : list R := odeint Rplus Rmult fn y0 t.

(** state np.array([y0, y1]) *)
Definition padd (u v : R * R) : R * R := (fst u + fst v, snd u + snd v).
Definition pscl (c : R) (u : R * R) : R * R := (c * fst u, c * snd u).
Definition odeint2 (fn : R * R -> R -> R * R) (y0 : R * R) (t : list R) : list (R * R) := odeint padd pscl fn y0 t.
