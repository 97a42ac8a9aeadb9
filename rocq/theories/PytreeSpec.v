(** * Specification for the pytree round trip *)
From Verif Require Import Np Pytree.

(** values a user can build: plain data, tuples and lists, objects returned by a constructor of a class other than
    WeakLensing, and redshift distributions after a call *)
Inductive made : val -> Prop :=
  | made_num r : made (VNum r)
  | made_arr v : made (VArr v)
  | made_none : made VNone
  | made_bool b : made (VBool b)
  | made_str s : made (VStr s)
  | made_tuple l : Forall made l -> made (VTuple l)
  | made_list l : Forall made l -> made (VList l)
  | made_new c args kw v : c <> WeakLensing -> Forall made args -> Forall (fun p => made (snd p)) kw -> construct c args kw = Ok v -> made v
  | made_called v r : made v -> made (after_call v r).

(** the same object as far as anything but the cached normalisation is concerned: same class, parameters,
    configuration and galaxy density *)
Inductive same : val -> val -> Prop :=
  | same_refl v : same v v
  | same_tuple l l' : Forall2 same l l' -> same (VTuple l) (VTuple l')
  | same_list l l' : Forall2 same l l' -> same (VList l) (VList l')
  | same_obj c ps ps' cfg g g' n n' : Forall2 same ps ps' -> same g g' -> same (VObj c ps cfg g n) (VObj c ps' cfg g' n').
