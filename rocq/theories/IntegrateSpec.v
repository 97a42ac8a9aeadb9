(** * Specification for quadrature *)
From Verif Require Import Np.
From Coquelicot Require Import Coquelicot.

(** node i of N equal subintervals of [a,b] *)
Definition node (a b : R) (N i : nat) : R := a + INR i * ((b - a) / INR N).

(** the composite Simpson sum of the docstring, integrate.py 166-168 *)
Definition simpson (f : R -> R) (a b : R) (N : nat) : R :=
  (b - a) / INR N / 3 *
  Rsum (N / 2) (fun i => f (node a b N (2 * i)) + 4 * f (node a b N (2 * i + 1)) + f (node a b N (2 * i + 2))).

(** polynomial with coefficients c 0 .. c d, and its exact integral *)
Definition poly (c : nat -> R) (d : nat) (x : R) : R := Rsum (S d) (fun k => c k * x ^ k).
Definition poly_int (c : nat -> R) (d : nat) (a b : R) : R :=
  Rsum (S d) (fun k => c k * (b ^ (S k) - a ^ (S k)) / INR (S k)).

(** composite trapezoid rule with N panels *)
Definition trapezoid (f : R -> R) (a b : R) (N : nat) : R :=
  (b - a) / INR N * Rsum N (fun i => (f (node a b N i) + f (node a b N (i + 1))) / 2).

(** Romberg table: first column trapezoid sums with 2^i panels, Richardson extrapolation to the right *)
Fixpoint romberg (f : R -> R) (a b : R) (i k : nat) : R :=
  match k with
  | O => trapezoid f a b (2 ^ i)
  | S k' => match i with
            | O => trapezoid f a b 1
            | S i' => (4 ^ k * romberg f a b i k' - romberg f a b i' k') / (4 ^ k - 1)
            end
  end.
