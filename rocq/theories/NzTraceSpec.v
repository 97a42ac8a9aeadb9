(** * Specification for the cached normalisations under jit *)
From Verif Require Import Np Core Redshift Trace NzTrace.

(** the distributions as constructed *)
Definition as_built (d : nz) : Prop := d = nz_new (nz_fam d) (nz_gals d) (nz_zmax d).
(** every call answered by the distribution as constructed, in order *)
Fixpoint answers (S : list nz) (p : nprog) : list (list R) :=
  match p with
  | NNothing => []
  | Eval i z => match nth_error S i with Some d => [fst (nz_call d z)] | None => [] end
  | NThen p q => answers S p ++ answers S q
  | NzClosure p | NzArgument p => answers S p
  end.
(** distributions evaluated as captured objects, and distributions certainly evaluated outside jit *)
Fixpoint evaluates (p : nprog) (i : nat) : Prop :=
  match p with
  | NNothing => False
  | Eval j _ => i = j
  | NThen p q => evaluates p i \/ evaluates q i
  | NzClosure p => evaluates p i
  | NzArgument _ => False
  end.
Fixpoint warms (p : nprog) (i : nat) : Prop :=
  match p with
  | NNothing => False
  | Eval j _ => i = j
  | NThen p q => warms p i \/ warms q i
  | NzClosure _ | NzArgument _ => False
  end.
(** Discipline: a captured distribution evaluated under jit was evaluated before, outside.  [w]: the distributions known to
    have their norm. *)
Fixpoint careful (w : nat -> Prop) (p : nprog) : Prop :=
  match p with
  | NNothing | Eval _ _ => True
  | NThen p q => careful w p /\ careful (fun i => w i \/ warms p i) q
  | NzClosure p => (forall i, evaluates p i -> w i) /\ careful w p
  | NzArgument p => careful (fun _ => False) p
  end.
(** source planes have the constant norm 1.0 *)
Definition plane_at (S : list nz) (i : nat) : Prop := exists d, nth_error S i = Some d /\ is_delta d = true.
(** no captured object is evaluated: distributions are passed to kernels, or evaluated inside functions that receive them *)
Fixpoint passes (p : nprog) : Prop :=
  match p with NNothing => True | Eval _ _ => False | NThen p q => passes p /\ passes q | NzClosure p => passes p | NzArgument p => careful (fun _ => False) p end.
Definition evals (l : list (nat * list R)) : nprog := fold_right (fun e p => NThen (Eval (fst e) (snd e)) p) NNothing l.
