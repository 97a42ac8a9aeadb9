(** * C134: cached normalisations and jax.jit *)
From Coq Require Import Reals List.
From Verif Require Import Np Core Redshift Trace NzTrace NzTraceSpec NzTraceProofs.
Import ListNotations.
Local Open Scope R_scope.


(** C134  jit does not change what redshift distributions return: true for surveys used through kernels and for distributions evaluated outside first; false for a captured distribution first evaluated under jit *)
Theorem C134_passed : forall S p, Forall as_built S -> passes p -> ntop p S = fst (neager p S) /\ ntop p S = Done (answers S p).
Proof. exact passing_transparent. Qed.
Print Assumptions C134_passed.
Theorem C134_careful_partial : forall S p, Forall as_built S -> careful (plane_at S) p -> ntop p S = fst (neager p S) /\ ntop p S = Done (answers S p).
Proof. exact careful_transparent. Qed.
Print Assumptions C134_careful_partial.
Theorem C134_leak : forall S l i z d, Forall as_built S -> nth_error S i = Some d ->
  (ntop (NThen (NzClosure (evals l)) (Eval i z)) S = UnexpectedTracer <-> is_delta d = false /\ exists z', In (i, z') l) /\
  (ntop (NThen (NzClosure (evals l)) (NzClosure (Eval i z))) S = UnexpectedTracer <-> is_delta d = false /\ exists z', In (i, z') l).
Proof. exact norm_leak. Qed.
Print Assumptions C134_leak.
Theorem C134_transparency_refuted : exists S p, Forall as_built S /\ (exists v, fst (neager p S) = Done v) /\ ntop p S = UnexpectedTracer.
Proof. exact norm_leak_refuted. Qed.
Print Assumptions C134_transparency_refuted.
Example C134_case : Forall as_built two_bins /\ careful (plane_at two_bins) warm_first /\ passes kernel_only.
Proof. exact (conj two_bins_built (conj warm_first_careful kernel_only_passes)). Qed.
