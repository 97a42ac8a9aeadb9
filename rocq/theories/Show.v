(** * Printed forms: core.py 67-96 (__str__, __repr__) and jax_utils.py 20-21 (container.__repr__); the option ksteps of
    power.py sigmasqr

    [show] is python's str of a number and [show_arr] of an array: parameters of the model. *)
From Coq Require Import String Ascii.
From Verif Require Import Np Core Pytree Transfer Power.
Local Open Scope string_scope.

(** the character \n *)
Definition newline : string := String (ascii_of_nat 10) EmptyString.

(** core.py 67-93 (Cosmology.__str__) *)
Definition cosmo_str (show : R -> string) (c : cosmology) : string :=
  "Cosmological parameters: " ++ newline ++
  "    h:        " ++ show (_h c) ++ " " ++ newline ++
  "    Omega_b:  " ++ show (_Omega_b c) ++ " " ++ newline ++
  "    Omega_c:  " ++ show (_Omega_c c) ++ " " ++ newline ++
  "    Omega_k:  " ++ show (_Omega_k c) ++ " " ++ newline ++
  "    w0:       " ++ show (_w0 c) ++ " " ++ newline ++
  "    wa:       " ++ show (_wa c) ++ " " ++ newline ++
  "    n:        " ++ show (_n_s c) ++ " " ++ newline ++
  "    sigma8:   " ++ show (_sigma8 c).
(** core.py 95-96 (Cosmology.__repr__) *)
Definition cosmo_repr := cosmo_str.

(** python's str of a tuple and of a list whose elements print as [l] *)
Fixpoint commas (l : list string) (close : string) : string :=
  match l with [] => close | x :: l' => ", " ++ x ++ commas l' close end.
Definition tuple_str (l : list string) : string :=
  match l with [] => "()" | [x] => "(" ++ x ++ ",)" | x :: l' => "(" ++ x ++ commas l' ")" end.
Definition list_str (l : list string) : string :=
  match l with [] => "[]" | x :: l' => "[" ++ x ++ commas l' "]" end.

(** jax_utils.py 20-21 (container.__repr__, inherited by every class of redshift.py, bias.py and probes.py): str of the
    tuple self.params, in which elements print by their own __repr__.  Quotes inside strings are not escaped. *)
Fixpoint val_repr (show : R -> string) (show_arr : list R -> string) (v : val) : string :=
  match v with
  | VNum r => show r
  | VArr a => show_arr a
  | VNone => "None"
  | VBool b => if b then "True" else "False"
  | VStr s => "'" ++ s ++ "'"
  | VTuple l => tuple_str (map (val_repr show show_arr) l)
  | VList l => list_str (map (val_repr show show_arr) l)
  | VObj _ params _ _ _ => tuple_str (map (val_repr show show_arr) params)
  end.

(** power.py 57-79 (sigmasqr) with all its arguments: ksteps (default 5) is never read; the number of subdivisions is the
    constant divmax=7 of line 78 *)
Definition sigmasqr_steps (c : cosmology) (Rr : R) (T : transfer) (kmin kmax : R) (ksteps : nat) : R :=
  sigmasqr c Rr T kmin kmax.
