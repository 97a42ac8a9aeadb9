(** * Property theorems C113: the caches of a Cosmology and jax.jit *)
From Coq Require Import Reals List.
From Verif Require Import Np Interp Core Background BgSpec Trace TraceSpec TraceProofs TraceFinal.
Import ListNotations.
Local Open Scope R_scope.


(** C113  jit does not change the outcome of a program: false for a captured object whose tables are first computed under jit *)
Theorem C113_transparent_partial : forall c p, fresh c -> _gamma_growth c = false -> _gamma c = None ->
  disciplined (fun _ => False) p -> top p c = fst (eager p c).
Proof. exact disciplined_transparent. Qed.
Print Assumptions C113_transparent_partial.
Theorem C113_leak : forall c ks k, fresh c -> _gamma_growth c = false -> (forall k', In k' (k :: ks) -> exists v, fst (run1 k' c) = Ok v) ->
  (top (Then (JitClosure (calls ks)) (Do k)) c = UnexpectedTracer <-> exists k' t, In k' ks /\ needs k' t /\ needs k t) /\
  (top (Then (JitClosure (calls ks)) (JitClosure (Do k))) c = UnexpectedTracer <-> exists k' t, In k' ks /\ needs k' t /\ needs k t).
Proof. exact leak_iff. Qed.
Print Assumptions C113_leak.
Theorem C113_transparency_refuted : exists c p, fresh c /\ _gamma_growth c = false /\ _gamma c = None /\
  (exists v, fst (eager p c) = Done v) /\ top p c = UnexpectedTracer.
Proof. exact leak_refuted. Qed.
Print Assumptions C113_transparency_refuted.
Example C113_case : (fresh Planck15 /\ _gamma_growth Planck15 = false /\ _gamma Planck15 = None) /\ disciplined (fun _ => False) warm_then_jit.
Proof. exact (conj planck_fresh warm_disciplined). Qed.
