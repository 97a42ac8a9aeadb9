(** * The caches of a Cosmology under jax.jit

    background.py 223-238, 461-488 and 534-547 store arrays in the dictionary cosmo._workspace while the function runs.
    When the function runs under jax.jit those arrays are tracers of the trace being built, and using a tracer after
    its trace has ended raises jax.errors.UnexpectedTracerError.  This file models which trace every stored array
    belongs to.  Trusted (JAX, not in /repo): while a function is traced by jit every array operation, also one on
    concrete arrays, is recorded in the innermost trace and returns a tracer of it; an operation on a tracer of a trace
    that has ended raises; a pytree argument of a jitted function is flattened by the caller and rebuilt from tracers.
    Simplified: every jitted function is called once (a second call with equal shapes reuses the compiled code and
    does not run the Python body); grad and vmap without jit are not represented. *)
From Verif Require Import Np Core Background BgSpec.

(** User programs acting on one Cosmology object.  [JitClosure p]: jax.jit(lambda: p)() with the object captured from the
    enclosing scope.  [JitArgument p]: jax.jit(lambda cosmo: p)(cosmo). *)
Inductive prog :=
  | Nothing
  | Do (k : call)
  | Then (p q : prog)
  | JitClosure (p : prog)
  | JitArgument (p : prog).

(** all results in order, or the first exception *)
Inductive outcome :=
  | Done (v : list (list R))
  | Raised (e : exn)
  | UnexpectedTracer.

Definition of_res (r : res (list R)) : outcome := match r with Ok v => Done [v] | Err e => Raised e end.

(** the same program with every jax.jit removed *)
Fixpoint eager (p : prog) (c : cosmology) : outcome * cosmology :=
  match p with
  | Nothing => (Done [], c)
  | Do k => let (r, c') := run1 k c in (of_res r, c')
  | Then p q =>
      match eager p c with
      | (Done v, c1) => match eager q c1 with (Done u, c2) => (Done (v ++ u), c2) | r => r end
      | r => r
      end
  | JitClosure p | JitArgument p => eager p c
  end.

(** A Cosmology object (core.py 14-65) with, for its parameters and for the arrays of each workspace entry, the trace they
    belong to: None for concrete arrays *)
Record tobj := TObj { obj : cosmology; t_params : option nat; t_chi : option nat; t_growth : option nat }.
(** the traces being built, innermost first *)
Definition context := list nat.
Definition alive (ctx : context) (t : option nat) : bool :=
  match t with None => true | Some t => existsb (Nat.eqb t) ctx end.

(** which workspace entry a call uses: background.py 223-238, 262-267, 342, 368 and 461-488, 505-512, 534-547 *)
Definition uses_chi (k : call) : bool :=
  match k with Radial _ | AofChi _ | Transverse _ | AngDiam _ => true | Growth _ | Rate _ => false end.
Definition uses_growth (c : cosmology) (k : call) : bool :=
  match k with Growth _ => true | Rate _ => negb (_gamma_growth c) | _ => false end.
(** calls that read the parameters even when the table is there: background.py 329-344 (k, sqrtk) and 582 (gamma) *)
Definition uses_params (c : cosmology) (k : call) : bool :=
  match k with Transverse _ | AngDiam _ => true | Rate _ => _gamma_growth c | _ => false end.
Definition missing {A} (o : option A) : bool := match o with None => true | Some _ => false end.

(** one call in a context *)
Definition step (ctx : context) (k : call) (o : tobj) : outcome * tobj :=
  let c := obj o in
  let fill_chi := uses_chi k && missing (ws_chi c) in
  let fill_growth := uses_growth c k && missing (ws_growth c) in
  if (fill_chi || fill_growth || uses_params c k) && negb (alive ctx (t_params o)) then (UnexpectedTracer, o)
  else
    let (r, c') := run1 k c in
    let o' := TObj c' (t_params o) (if fill_chi then hd_error ctx else t_chi o) (if fill_growth then hd_error ctx else t_growth o) in
    if uses_chi k && negb (alive ctx (t_chi o')) || uses_growth c k && negb (alive ctx (t_growth o')) then (UnexpectedTracer, o')
    else (of_res r, o').

(** execution; the last component counts the traces started so far *)
Fixpoint exec (p : prog) (ctx : context) (o : tobj) (next : nat) : outcome * tobj * nat :=
  match p with
  | Nothing => (Done [], o, next)
  | Do k => let (r, o') := step ctx k o in (r, o', next)
  | Then p q =>
      match exec p ctx o next with
      | (Done v, o1, n1) => match exec q ctx o1 n1 with (Done u, o2, n2) => (Done (v ++ u), o2, n2) | r => r end
      | r => r
      end
  | JitClosure p => exec p (next :: ctx) o (S next)
  | JitArgument p =>
      if negb (alive ctx (t_params o)) then (UnexpectedTracer, o, next)
      else match cosmo_jit (obj o) with
           | Err e => (Raised e, o, next)
           | Ok d => let '(r, _, n) := exec p (next :: ctx) (TObj d (Some next) None None) (S next) in (r, o, n)
           end
  end.
(** a program run at top level on an object with concrete parameters and no cached tables *)
Definition top (p : prog) (c : cosmology) : outcome := fst (fst (exec p [] (TObj c None None None) 0)).
