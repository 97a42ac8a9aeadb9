(** * Model of integrate.py for integrands as python passes them

    Integrate.v takes a function of one number and maps it over the nodes.  Here the integrand is a python function with extra
    arguments, called on numbers and on vectors.  Simplified: on a number it returns a number. *)
From Verif Require Import Np Integrate Nd.

(** what the function returns on a number and on a vector of nodes *)
Record pyfn := PyFn { on_number : R -> R; on_vector : list R -> nd }.
(** np.sum of all entries *)
Definition total (x : nd) : R := vsum (flat x).

(** integrate.py 38-56 (_difftrapn) *)
Definition difftrapn_fn (F : pyfn) (a b : R) (numtraps : nat) : R :=
  let numtosum := Nat.div numtraps 2 in
  let h := (1.0 * b - 1.0 * a) / INR numtosum in
  let lox := a + 0.5 * h in
  total (on_vector F (tab numtosum (fun i => lox + h * INR i))).
(** integrate.py 145-155, as [romb_loop] *)
Fixpoint romb_loop_fn (F : pyfn) (a b : R) (fuel i : nat) (ordsum : R) (state : list R) (err : R) : nat * list R * R :=
  match fuel with
  | O => ((i - 1)%nat, state, err)
  | S fuel' =>
      let n := (2 ^ i)%nat in
      let ordsum := ordsum + difftrapn_fn F a b n in
      let x := (b - a) * ordsum / INR n in
      let new_state := romb_row x state in
      romb_loop_fn F a b fuel' (i + 1) ordsum new_state (Rabs (el state (i - 1) - el new_state i))
  end.
(** integrate.py 68-160 (romb): vfunc = jit(lambda x: function(x, *args)); result and error estimate *)
Definition romb_fn {X} (function : X -> pyfn) (args : X) (a b : R) (divmax : nat) : res (R * R) :=
  let vfunc := function args in                                                             (* 130 *)
  let ordsum := 0.5 * (on_number vfunc a + on_number vfunc b) in                            (* 35, 135 *)
  let state := repeat ((b - a) * ordsum) (divmax + 1) in                                    (* 136-137 *)
  match divmax with
  | O => Err NameError
  | S _ => let '(i, st, err) := romb_loop_fn vfunc a b divmax 1 ordsum state 0 in Ok (el st i, err)
  end.
(** integrate.py 163-200 (simps): a number cannot be sliced (TypeError for python numbers, IndexError for arrays); integrands
    of rank above one are [simps_rows] *)
Definition simps_fn (F : pyfn) (a b : R) (N : nat) : res R :=
  if Nat.eqb (N mod 2) 1 then Err ValueError
  else
    let dx := (b - a) / INR N in
    let y := on_vector F (linspace a b (N + 1)) in
    match shp y with
    | [_] => let y := flat y in Ok (dx / 3 * vsum (vadd (vadd (evens (removelast y)) (vscale 4 (odds y))) (evens (skipn 2 y))))
    | _ => Err TypeError
    end.
