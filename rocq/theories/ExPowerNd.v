(** * Cases for the power spectra on arrays of any rank *)
From Coquelicot Require Import Coquelicot.
From Verif Require Import Np NpLemmas Core Interp Background BgSpec Transfer Power PowerArr PowerArrSpec PowerArrProofs ExPower ExCov ExLaws BgFinal4.
From Verif Require Import Nd NdSpec NzArr PowerNd PowerNdSpec NdBroadcast PowerNdProofs.
Opaque chi_table growth_table_ODE growth_table_gamma logspace.

Lemma no_shape c T k a p : reachable c -> (forall s, ~ against k a s) -> linear_grid c k a T = Err TypeError /\ halofit_grid c k a T p = Err TypeError.
Proof.
  intros Hr N. apply (mismatch c T Hr). destruct (bshape (shp (atleast1 k)) [width a]) as [s | ] eqn:E; [ | reflexivity ]. elim (N s). now apply against_bshape.
Qed.
Lemma unknown_nd c T k a s p : reachable c -> against k a s -> p <> "smith2003"%string -> p <> "takahashi2012"%string -> halofit_grid c k a T p = Err NotImplementedError.
Proof.
  intros Hr B N1 N2. destruct (linear_grid_values c T Hr k a s B) as (r & E & _). unfold halofit_grid. rewrite linear_atleast, E. cbn [bind]. rewrite (parameters_eq c T Hr). cbn [bind]. cbv zeta.
  apply String.eqb_neq in N1, N2. now rewrite N1, N2.
Qed.
(** wavenumbers 0.1 and 1 as a column; a 2 x 3 array *)
Definition kcol : nd := Nd [2%nat; 1%nat] (fun i => if Nat.eqb (hd 0%nat i) 0 then 0.1 else 1).
Definition kmat : nd := Nd [2%nat; 3%nat] (fun i => 0.1 * INR (1 + nth 0 i 0%nat + nth 1 i 0%nat)).
Lemma column_false : exists c T k a s p, reachable c /\ against k a s /\ known p /\
  (exists u f, linear_grid c k a T = Ok u /\ holds_on s u f) /\ ~ exists v f, halofit_grid c k a T p = Ok v /\ holds_on s v f.
Proof.
  exists Planck15, eisenhu, kcol, (Scalar 0.5), [2%nat; 1%nat], "takahashi2012"%string. pose proof (proj1 planck_ok) as Hr. split; [ exact Hr | ].
  assert (B : against kcol (Scalar 0.5) [2%nat; 1%nat]) by reflexivity. split; [ exact B | split; [ now right | split ]].
  - destruct (linear_grid_values Planck15 eisenhu Hr kcol (Scalar 0.5) _ B) as (u & E & H). exists u. eexists. split; [ exact E | exact H ].
  - intros (v & f & E & [Hs _]). destruct (column Planck15 eisenhu Hr kcol 0.5 2 "takahashi2012" eq_refl ltac:(lia) ltac:(now right)) as (u & v' & _ & E' & _ & Hs' & _).
    rewrite E in E'. assert (v = v') by congruence. subst v'. rewrite Hs in Hs'. discriminate.
Qed.
Lemma case_nd : reachable Planck15 /\
  against kcol (Array1 [0.5; 0.7; 1]) [2%nat; 3%nat] /\ against kmat (Array1 [0.5; 0.7; 1]) [2%nat; 3%nat] /\ against kmat (Scalar 1) [2%nat; 3%nat] /\ units_first [2%nat; 3%nat] /\
  units_first [1%nat; 3%nat] /\ ~ units_first [2%nat; 1%nat] /\ (forall s, ~ against kmat (Array1 [0.5; 1]) s) /\
  exists v, halofit_grid Planck15 kcol (Array1 [0.5; 0.7; 1]) eisenhu "takahashi2012" = Ok v /\ shp v = [2%nat; 3%nat] /\
    get v [0%nat; 1%nat] = halofit_default Planck15 0.1 0.7 eisenhu /\ get v [1%nat; 0%nat] = halofit_default Planck15 1 0.5 eisenhu.
Proof.
  pose proof (proj1 planck_ok) as Hr. split; [ exact Hr | ]. split; [ reflexivity | split; [ reflexivity | split; [ reflexivity | ]]].
  split; [ exists 0%nat, [2%nat; 3%nat]; split; [ reflexivity | simpl; lia ] | ]. split; [ exists 1%nat, [3%nat]; split; [ reflexivity | simpl; lia ] | ].
  split. { intros ([ | j] & t & E & N); cbn [repeat app] in E; [ subst t; simpl in N; tauto | discriminate ]. }
  split; [ discriminate | ].
  destruct (grid Planck15 eisenhu Hr kcol [0.5; 0.7; 1] 2 "takahashi2012" eq_refl ltac:(lia) ltac:(simpl; lia) ltac:(now right)) as (u & v & _ & E & _ & Hs & G).
  exists v. split; [ exact E | split; [ exact Hs | ]]. destruct (G 0%nat 1%nat ltac:(lia) ltac:(simpl; lia)) as [_ G1]. destruct (G 1%nat 0%nat ltac:(lia) ltac:(simpl; lia)) as [_ G2].
  change (get kcol [0%nat; 0%nat]) with 0.1 in G1. change (get kcol [1%nat; 0%nat]) with 1 in G2. change (el [0.5; 0.7; 1] 1) with 0.7 in G1. change (el [0.5; 0.7; 1] 0) with 0.5 in G2.
  unfold halofit_default. split; [ now rewrite G1 | now rewrite G2 ].
Qed.
