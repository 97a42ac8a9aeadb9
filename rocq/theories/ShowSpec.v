(** * Specification for printed forms *)
From Coq Require Import String Ascii Reals List.
Local Open Scope R_scope.

(** the characters of a string *)
Fixpoint chars (s : string) : list ascii := match s with EmptyString => nil | String a s' => a :: chars s' end.
(** A way to print numbers: on the numbers of [F] (those the machine can hold) different numbers print differently, and
    nothing that is printed contains a blank, a comma or a closing bracket. *)
Definition prints (F : R -> Prop) (show : R -> string) : Prop :=
  (forall x y, F x -> F y -> show x = show y -> x = y) /\
  (forall x, F x -> ~ In " "%char (chars (show x)) /\ ~ In ","%char (chars (show x)) /\ ~ In ")"%char (chars (show x))).
