(** * Proofs about flattening of Cosmology objects *)
From Verif Require Import Np Core BgSpec.

Lemma jit_without_gamma c : _gamma_growth c = false -> exists d, cosmo_jit c = Ok d /\
  _Omega_c d = _Omega_c c /\ _Omega_b d = _Omega_b c /\ _h d = _h c /\ _n_s d = _n_s c /\ _sigma8 d = _sigma8 c /\
  _Omega_k d = _Omega_k c /\ _w0 d = _w0 c /\ _wa d = _wa c /\ _gamma d = None /\ _gamma_growth d = false /\ fresh d.
Proof.
  intros E. destruct c as [Oc Ob h ns s8 Ok_ w0 wa g gg wc wg]. simpl in E. subst gg.
  eexists. split; [ reflexivity | ]. simpl. repeat split; reflexivity.
Qed.
Lemma jit_twice c d : cosmo_jit c = Ok d -> cosmo_jit d = Ok d.
Proof.
  destruct c as [Oc Ob h ns s8 Ok_ w0 wa g gg wc wg]. destruct gg; [ destruct g; discriminate | ].
  intros E. injection E as <-. reflexivity.
Qed.
Lemma jit_with_gamma c g : _gamma c = Some g -> _gamma_growth c = true -> cosmo_jit c = Err AttributeError.
Proof. destruct c as [Oc Ob h ns s8 Ok_ w0 wa g' gg wc wg]. simpl. intros -> ->. reflexivity. Qed.
Lemma jit_gamma_lost : exists Oc Ob h ns s8 Ok_ w0 wa g,
  let c := make_cosmology Oc Ob h ns s8 Ok_ w0 wa (Some g) in
  cosmo_jit c <> Ok c /\ cosmo_jit c = Err AttributeError.
Proof. exists 0.3, 0.05, 0.7, 0.96, 0.8, 0, (-1), 0, 0.55. split; [ discriminate | reflexivity ]. Qed.
