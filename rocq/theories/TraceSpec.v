(** * Specification for the caches under jit *)
From Verif Require Import Np Core Background BgSpec Trace.

(** the two tables of a Cosmology *)
Inductive table := Distances | GrowthTable.
(** a call needs a table *)
Definition needs (k : call) (t : table) : Prop :=
  match t with
  | Distances => match k with Radial _ | AofChi _ | Transverse _ | AngDiam _ => True | _ => False end
  | GrowthTable => match k with Growth _ | Rate _ => True | _ => False end
  end.
(** tables needed from the current object, and tables it certainly holds after the program, not counting what happens under jit *)
Fixpoint touches (p : prog) (t : table) : Prop :=
  match p with
  | Nothing => False
  | Do k => needs k t
  | Then p q => touches p t \/ touches q t
  | JitClosure p => touches p t
  | JitArgument _ => False
  end.
Fixpoint computes (p : prog) (t : table) : Prop :=
  match p with
  | Nothing => False
  | Do k => needs k t
  | Then p q => computes p t \/ computes q t
  | JitClosure _ | JitArgument _ => False
  end.
(** Discipline: the tables used by a jitted function that captures the object are computed before, outside of it.  [w]: the
    tables known to be there. *)
Fixpoint disciplined (w : table -> Prop) (p : prog) : Prop :=
  match p with
  | Nothing | Do _ => True
  | Then p q => disciplined w p /\ disciplined (fun t => w t \/ computes p t) q
  | JitClosure p => (forall t, touches p t -> w t) /\ disciplined w p
  | JitArgument p => disciplined (fun _ => False) p
  end.
(** calls one after the other *)
Definition calls (ks : list call) : prog := fold_right (fun k p => Then (Do k) p) Nothing ks.
