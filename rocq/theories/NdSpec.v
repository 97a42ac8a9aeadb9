(** * Specification: functions that act elementwise on arrays *)
From Verif Require Import Np Nd.

(** an index into an array of shape s *)
Definition inside (s i : list nat) : Prop := Forall2 (fun n k => (k < n)%nat) s i.
(** r is F of every entry of z, with the shape of z *)
Definition elementwise (F : R -> R) (z r : nd) : Prop := shp r = shp z /\ forall i, inside (shp z) i -> get r i = F (get z i).
