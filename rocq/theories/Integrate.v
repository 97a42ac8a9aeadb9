(** * Model of jax_cosmo/scipy/integrate.py *)
From Verif Require Import Np.

(** integrate.py 22-35 (_difftrap1); the interval list [a, b] is two arguments *)
Definition difftrap1 (f : R -> R) (a b : R) : R := 0.5 * (f a + f b).

(** integrate.py 38-56 (_difftrapn); f accepts the array of points elementwise *)
Definition difftrapn (f : R -> R) (a b : R) (numtraps : nat) : R :=
  let numtosum := Nat.div numtraps 2 in
  let h := (1.0 * b - 1.0 * a) / INR numtosum in
  let lox := a + 0.5 * h in
  vsum (map f (tab numtosum (fun i => lox + h * INR i))).

(** integrate.py 59-65 (_romberg_diff) *)
Definition romberg_diff (b c : R) (k : nat) : R := (4 ^ k * c - b) / (4 ^ k - 1).

(** integrate.py 140-143 (scan_fn of romb) *)
Definition romb_scan (carry : R * nat) (y : R) : (R * nat) * R :=
  let (x, k) := carry in
  let x := romberg_diff y x (k + 1) in ((x, (k + 1)%nat), x).

(** integrate.py 150-152: one new row of the work array; removelast is state[:-1] *)
Definition romb_row (x : R) (state : list R) : list R :=
  x :: snd (scan romb_scan (x, 0%nat) (removelast state)).

(** integrate.py 145-155: the python for loop over i = i0, i0+1, ..., [fuel] iterations; returns the last i, the
    work array and err *)
Fixpoint romb_loop (f : R -> R) (a b : R) (fuel i : nat) (ordsum : R) (state : list R) (err : R)
  : nat * list R * R :=
  match fuel with
  | O => ((i - 1)%nat, state, err)
  | S fuel' =>
      let n := (2 ^ i)%nat in
      let ordsum := ordsum + difftrapn f a b n in
      let x := (b - a) * ordsum / INR n in
      let new_state := romb_row x state in
      romb_loop f a b fuel' (i + 1) ordsum new_state (Rabs (el state (i - 1) - el new_state i))
  end.

(** integrate.py 68-160 (romb) for a scalar-valued integrand, result and error estimate (both are returned with
    return_error=True).  With divmax = 0 the loop variable [i] is unbound when line 160 reads it: NameError. *)
Definition romb (f : R -> R) (a b : R) (divmax : nat) : res (R * R) :=
  let ordsum := difftrap1 f a b in
  let state := repeat ((b - a) * ordsum) (divmax + 1) in
  match divmax with
  | O => Err NameError
  | S _ => let '(i, st, err) := romb_loop f a b divmax 1 ordsum state 0 in Ok (el st i, err)
  end.

(** python slice y[start::2] *)
Fixpoint evens {A} (l : list A) : list A :=
  match l with [] => [] | [x] => [x] | x :: _ :: t => x :: evens t end.
Definition odds {A} (l : list A) : list A := evens (tl l).

(** integrate.py 163-200 (simps) for a scalar-valued integrand: y[0:-1:2], y[1::2], y[2::2] *)
Definition simps (f : R -> R) (a b : R) (N : nat) : res R :=
  if Nat.eqb (N mod 2) 1 then Err ValueError
  else
    let dx := (b - a) / INR N in
    let x := linspace a b (N + 1) in
    let y := map f x in
    Ok (dx / 3 * vsum (vadd (vadd (evens (removelast y)) (vscale 4 (odds y))) (evens (skipn 2 y)))).

(** the same for an integrand that receives the whole array of nodes and returns one row of [nc] values per node
    (np.sum(axis=0) runs over nodes), possibly raising *)
Definition simps_rows (nc : nat) (f : list R -> res (list (list R))) (a b : R) (N : nat) : res (list R) :=
  if Nat.eqb (N mod 2) 1 then Err ValueError
  else
    let dx := (b - a) / INR N in
    let x := linspace a b (N + 1) in
    bind (f x) (fun y =>
    Ok (vscale (dx / 3)
         (sum0 nc (madd (madd (evens (removelast y)) (map (vscale 4) (odds y))) (evens (skipn 2 y)))))).
