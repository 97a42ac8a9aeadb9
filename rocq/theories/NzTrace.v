(** * The cached normalisation of redshift distributions under jax.jit

    redshift.py 28-32 stores self._norm while the function runs; under jax.jit the stored value is a tracer.  This file models
    which trace the norm of every distribution belongs to, as Trace.v does for the tables of a Cosmology, with the same trusted
    facts about JAX and the same simplifications. *)
From Verif Require Import Np Core Redshift Trace.

(** User programs acting on a list of distributions.  [Eval i z]: nzs[i](z).  [NzClosure p]: jax.jit(lambda: p)() with the
    distributions captured from the enclosing scope.  [NzArgument p]: jax.jit(lambda nzs: p)(nzs); the kernels of probes.py
    (18, 79, 104) receive distributions this way. *)
Inductive nprog :=
  | NNothing
  | Eval (i : nat) (z : list R)
  | NThen (p q : nprog)
  | NzClosure (p : nprog)
  | NzArgument (p : nprog).

Definition update {A} (i : nat) (x : A) (l : list A) : list A := firstn i l ++ x :: skipn (S i) l.

(** the same program with every jax.jit removed; a number without a distribution is not a program, and does nothing *)
Fixpoint neager (p : nprog) (s : list nz) : outcome * list nz :=
  match p with
  | NNothing => (Done [], s)
  | Eval i z => match nth_error s i with Some d => let (v, d') := nz_call d z in (Done [v], update i d' s) | None => (Done [], s) end
  | NThen p q =>
      match neager p s with
      | (Done v, s1) => match neager q s1 with (Done u, s2) => (Done (v ++ u), s2) | r => r end
      | r => r
      end
  | NzClosure p | NzArgument p => neager p s
  end.

(** a distribution (redshift.py 16-21) with the trace of its norm: None for a concrete number.  Parameters need no such mark:
    a distribution with traced parameters exists only inside the function whose trace they belong to. *)
Definition tnz := (nz * option nat)%type.
(** redshift.py 28-32 in a context *)
Definition nstep (ctx : context) (o : tnz) (z : list R) : outcome * tnz :=
  let (d, t) := o in
  let (v, d') := nz_call d z in
  let t' := if missing (nz_norm d) then hd_error ctx else t in
  (if alive ctx t' then Done [v] else UnexpectedTracer, (d', t')).
(** redshift.py 51-60 in the caller of a jitted function: the norm is not among the leaves *)
Definition rebuilt (o : tnz) : tnz := (nz_jit (fst o), None).
Fixpoint nexec (p : nprog) (ctx : context) (s : list tnz) (next : nat) : outcome * list tnz * nat :=
  match p with
  | NNothing => (Done [], s, next)
  | Eval i z => match nth_error s i with Some o => let (r, o') := nstep ctx o z in (r, update i o' s, next) | None => (Done [], s, next) end
  | NThen p q =>
      match nexec p ctx s next with
      | (Done v, s1, n1) => match nexec q ctx s1 n1 with (Done u, s2, n2) => (Done (v ++ u), s2, n2) | r => r end
      | r => r
      end
  | NzClosure p => nexec p (next :: ctx) s (S next)
  | NzArgument p => let '(r, _, n) := nexec p (next :: ctx) (map rebuilt s) (S next) in (r, s, n)
  end.
Definition concrete (d : nz) : tnz := (d, None).
(** at top level, on distributions with concrete norms *)
Definition ntop (p : nprog) (s : list nz) : outcome := fst (fst (nexec p [] (map concrete s) 0)).
