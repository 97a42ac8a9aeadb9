(** * Concrete cases for values and gradients of forward mode *)
From Verif Require Import Np NpLemmas Core Sparse SparseSpec SparseProofs DetSpec MxBridge Likelihood LikelihoodSpec LikelihoodProofs ExLikelihood Integrate Interp Background BgSpec BgPositive BgCompare Transfer Power Redshift Probes AngularCl AclSpec GradSpec
  ContFinal ExAdProbes ExAdHalofit ExAdLike ExCov Ad AdSpec AdPower AdProbes AdHalofit AdLike AdLikeSpec AdArrSpec AdProbesFinal AdJacSpec AdJac AdJacFinal.
Opaque chi_table growth_table_ODE growth_table_gamma logspace.
Local Open Scope R_scope.

Lemma vdot_comb k w row (u : nat -> list R) v : (forall q, length (u q) = length v) -> (forall i, el v i = Rsum k (fun q => w q * el (u q) i)) ->
  vdot row v = Rsum k (fun q => w q * vdot row (u q)).
Proof.
  revert u v. induction row as [ | r row IH]; intros u v HL HE.
  - symmetry. apply Rsum_0_ext. intros q _. unfold vdot. cbn. ring.
  - destruct v as [ | x v].
    + symmetry. apply Rsum_0_ext. intros q _. specialize (HL q). destruct (u q); [ unfold vdot; cbn; ring | discriminate ].
    + assert (E : forall q, vdot (r :: row) (u q) = r * el (u q) 0 + vdot row (tl (u q))).
      { intros q. specialize (HL q). destruct (u q) as [ | y l]; [ discriminate | ]. reflexivity. }
      change (r * x + vdot row v = Rsum k (fun q => w q * vdot (r :: row) (u q))).
      rewrite (IH (fun q => tl (u q)) v).
      * pose proof (HE 0%nat) as H0. unfold el at 1 in H0. cbn [nth] in H0. rewrite H0, <- Rsum_scal, <- Rsum_plus. apply Rsum_ext. intros q _. rewrite E. ring.
      * intros q. specialize (HL q). destruct (u q); [ discriminate | now injection HL ].
      * intros i. specialize (HE (S i)). unfold el at 1 in HE. cbn [nth] in HE. unfold el at 1. rewrite HE. apply Rsum_ext. intros q _. specialize (HL q). destruct (u q); [ discriminate | reflexivity ].
Qed.
Lemma la_mx_linear : solve_linear la_mx /\ linalg_sized la_mx.
Proof.
  split.
  - intros n m k w u v HL HE i. cbn [la_mx la_cho_solve]. unfold mv, el at 1. destruct (Nat.lt_ge_cases i (length (linv_mx n m))) as [Hi | Hi].
    + rewrite (nth_indep _ 0 (vdot [] v)) by now rewrite map_length. rewrite (map_nth (fun row => vdot row v)). rewrite (vdot_comb k w _ u v HL HE). apply Rsum_ext. intros q _.
      unfold el. rewrite (nth_indep _ 0 (vdot [] (u q))) by now rewrite map_length. now rewrite (map_nth (fun row => vdot row (u q))).
    + rewrite nth_overflow by now rewrite map_length. symmetry. apply Rsum_0_ext. intros q _. unfold el. rewrite nth_overflow by now rewrite map_length. ring.
  - intros n m. assert (W : wf2 n n (linv_mx n m)) by apply wf2_of_mx. split; [ exact W | ]. intros v. unfold wf1. cbn [la_cho_solve la_mx]. rewrite length_mv. apply W.
Qed.
Lemma ex_C126 : let c := planck_s 0.8159 in built c /\ _gamma c = None /\ (forall b, limber_epoch ex_survey b -> 0 < b /\ D c b <> 0) /\
  exists la, linalg_ok la /\ linalg_sized la.
Proof.
  cbv zeta. split; [ apply planck_s_built | ]. split; [ reflexivity | ].
  assert (S : shallow (concat (map bins_of ex_survey))) by apply ex_C123. split.
  - intros b Hb. apply (limber_range _ _ S) in Hb. pose proof (planck_s_growth 0.8159 b Hb). pose proof (table_node_range 128 1 ltac:(lia) ltac:(lia)). lra.
  - exists la_mx. split; [ apply la_mx_ok | apply la_mx_linear ].
Qed.
Lemma ex_oracles : exists la, linalg_ok la /\ linalg_shaped la /\ solve_linear la.
Proof. exists la_mx. split; [ apply la_mx_ok | split; [ apply la_mx_shaped | apply la_mx_linear ]]. Qed.
