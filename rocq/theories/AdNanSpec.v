(** * Specification: finite results, and the redshift distributions whose gradients are defined *)
From Coquelicot Require Import Coquelicot.
From Verif Require Import Np SparseX Redshift Ad AdNan AdNuis.

(** an ordinary value, and an ordinary tangent or none *)
Definition finite (x : xdual) : Prop := (exists a, fst x = Fin a) /\ (snd x = None \/ exists t, snd x = Some (Fin t)).
Definition x_val (x : xdual) : R := match fst x with Fin a => a | _ => 0 end.
Definition x_tan (x : xdual) : R := match snd x with Some (Fin t) => t | _ => 0 end.
(** a parameter with its tangent, at time t *)
Definition moving (t : R) (x : xdual) : R := x_val x + t * x_tan x.
(** all parameters of a distribution are finite *)
Fixpoint finite_nz (d : gnz xdual) : Prop := match d with GNz f g _ => finite_fam f /\ finite g end
with finite_fam (f : gfam xdual) : Prop :=
  match f with
  | GSmail a b z0 => finite a /\ finite b /\ finite z0
  | GDelta z0 => finite z0
  | GKde zcat wt _ => (forall x, In x zcat -> finite x) /\ forall x, In x wt -> finite x
  | GShift p b => finite_nz p /\ finite b
  end.
(** a number that is not differentiated, one that is, at rate t *)
Definition still (x : R) : xdual := (Fin x, None).
Definition moves_at (t x : R) : xdual := (Fin x, Some (Fin t)).
(** a Smail distribution, exponent of the cut-off below 1, whose cut-off redshift is differentiated *)
Definition root_smail (d : gnz xdual) : Prop :=
  match gnz_fam d with
  | GSmail a b z0 => finite a /\ finite b /\ finite z0 /\ 0 < x_val a /\ 0 < x_val b < 1 /\ 0 < x_val z0 /\ snd z0 <> None
  | _ => False
  end.
(** a Smail distribution, exponent of the cut-off below 1, shifted by a non-negative bias that is differentiated *)
Definition root_shift (d : gnz xdual) : Prop :=
  match gnz_fam d with
  | GShift (GNz (GSmail a b z0) _ _) be =>
      finite a /\ finite b /\ finite z0 /\ finite be /\ 1 < x_val a /\ 0 < x_val b < 1 /\ 0 < x_val z0 /\ 0 <= x_val be < gnz_zmax d /\ snd be <> None
  | _ => False
  end.
