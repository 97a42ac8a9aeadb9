(** * Proofs about the cached normalisations under jit *)
From Verif Require Import Np NpLemmas Core Integrate Redshift Trace TraceProofs NzTrace NzTraceSpec.

Lemma nth_update {A} (x : A) l i j : (i < length l)%nat -> nth_error (update i x l) j = if Nat.eqb j i then Some x else nth_error l j.
Proof.
  revert i j. induction l as [ | y l IH]; intros i j H; cbn in H; [ lia | ]. destruct i as [ | i]; [ destruct j; reflexivity | ].
  destruct j as [ | j]; [ reflexivity | ]. cbn. unfold update in IH. rewrite IH by lia. reflexivity.
Qed.
Lemma nth_error_len {A} (l : list A) i x : nth_error l i = Some x -> (i < length l)%nat.
Proof. intros H. apply nth_error_Some. congruence. Qed.

Lemma norm_eq d d0 : pz_fn d = pz_fn d0 -> nz_zmax d = nz_zmax d0 -> nz_simps_norm d = nz_simps_norm d0.
Proof. intros H1 H2. unfold nz_simps_norm. now rewrite H1, H2. Qed.
Local Opaque nz_simps_norm simps.
(** same distribution as d0, norm absent or right *)
Definition norm_of (d : nz) : R := if is_delta d then 1.0 else nz_simps_norm d.
Definition like (d0 d : nz) : Prop := pz_fn d = pz_fn d0 /\ nz_zmax d = nz_zmax d0 /\ is_delta d = is_delta d0 /\
  (nz_norm d = None /\ is_delta d0 = false \/ nz_norm d = Some (norm_of d0)).
Lemma like_call d0 d z : like d0 d -> fst (nz_call d z) = map (fun q => pz_fn d0 q / norm_of d0) z /\ like d0 (snd (nz_call d z)) /\ nz_norm (snd (nz_call d z)) <> None.
Proof.
  intros (H1 & H2 & H3 & H4). destruct d as [f g zm n]. unfold nz_call; cbn [fst snd nz_fam nz_gals nz_zmax nz_norm] in *.
  assert (E : match n with Some v => v | None => nz_simps_norm (Nz f g zm n) end = norm_of d0).
  { destruct H4 as [[-> H4] | ->]; [ | reflexivity ]. unfold norm_of. rewrite H4. now apply norm_eq. }
  rewrite E, H1. split; [ reflexivity | split; [ | discriminate ]]. split; [ exact H1 | split; [ exact H2 | split; [ exact H3 | right; reflexivity ]]].
Qed.
Lemma built_norm d : as_built d -> nz_norm d = if is_delta d then Some 1.0 else None.
Proof. intros E. destruct d as [f g zm n]. unfold as_built, nz_new in E. cbn in E. injection E as ->. now destruct f. Qed.
Lemma like_self d : as_built d -> like d d.
Proof. intros E. unfold like. do 3 (split; [ reflexivity | ]). rewrite (built_norm d E). unfold norm_of, is_delta. destruct d as [f g zm n]. destruct f; cbn; auto. Qed.
Fixpoint jit_pz (d : nz) : forall z, pz_fn (nz_jit d) z = pz_fn d z
with jit_fam (f : nz_family) : forall z, fam_pz (fam_jit f) z = fam_pz f z.
Proof.
  - destruct d as [f g zm n]. intros z. exact (jit_fam f z).
  - destruct f as [a b z0 | z0 | zc wt bw | p b]; intros z; try reflexivity. exact (jit_pz p _).
Qed.
Lemma like_jit d0 d : like d0 d -> like d0 (nz_jit d).
Proof.
  intros (H1 & H2 & H3 & H4). split; [ rewrite <- H1; apply FunctionalExtensionality.functional_extensionality, jit_pz | ].
  destruct d as [f g zm n]. cbn [nz_zmax] in H2. unfold is_delta in H3 at 1. cbn [nz_fam] in H3. unfold norm_of. split; [ exact H2 | split ].
  - rewrite <- H3. now destruct f.
  - destruct f; cbn in *; rewrite <- H3; auto.
Qed.

(** ** eager programs *)
Definition likes (S s : list nz) : Prop := Forall2 like S s.
Lemma likes_nth S s i : likes S s -> match nth_error S i with Some d0 => exists d, nth_error s i = Some d /\ like d0 d | None => nth_error s i = None end.
Proof. intros H. revert i. induction H as [ | x y l m Hx H IH]; intros [ | i]; cbn; eauto. apply IH. Qed.
Lemma likes_update S s i d0 d : likes S s -> nth_error S i = Some d0 -> like d0 d -> likes S (update i d s).
Proof.
  intros H. revert i. induction H as [ | x y l m Hx H IH]; intros [ | i] E Hd; cbn in E; try discriminate.
  - injection E as ->. constructor; assumption.
  - unfold update. cbn. constructor; [ exact Hx | ]. now apply IH.
Qed.
Lemma eager_answers S p : Forall as_built S -> forall s, likes S s -> exists s', neager p s = (Done (answers S p), s') /\ likes S s'.
Proof.
  intros HB. induction p as [ | i z | p IHp q IHq | p IHp | p IHp]; intros s Hs; cbn [neager answers]; [ eauto | | | now apply IHp | now apply IHp ].
  - pose proof (likes_nth S s i Hs) as N. destruct (nth_error S i) as [d0 | ] eqn:E0; [ | rewrite N; eauto ].
    destruct N as (d & -> & L). destruct (like_call d0 d z L) as (V & L' & _). destruct (nz_call d z) as [v d'] eqn:EC. cbn [fst snd] in *.
    assert (B0 : as_built d0) by (rewrite Forall_forall in HB; apply HB; eapply nth_error_In; exact E0).
    destruct (like_call d0 d0 z (like_self d0 B0)) as (V0 & _). exists (update i d' s). split; [ now rewrite V0, V | now apply (likes_update S s i d0) ].
  - destruct (IHp s Hs) as (s1 & -> & H1). destruct (IHq s1 H1) as (s2 & -> & H2). eauto.
Qed.

(** ** careful programs *)
Definition nstate (S : list nz) (ctx : context) (w : nat -> Prop) (s : list tnz) : Prop :=
  Forall2 (fun d0 (o : tnz) => like d0 (fst o) /\ (nz_norm (fst o) <> None -> alive ctx (snd o) = true)) S s /\
  forall i o, w i -> nth_error s i = Some o -> nz_norm (fst o) <> None.
(** a program inside a jit leaves what has a norm alone *)
Definition nkeeps (p : nprog) (s s' : list tnz) : Prop := length s' = length s /\ forall i o, nth_error s i = Some o -> nz_norm (fst o) <> None \/ ~ evaluates p i ->
  exists o', nth_error s' i = Some o' /\ snd o' = snd o /\ (nz_norm (fst o') = None <-> nz_norm (fst o) = None).
Lemma nkeeps_trans p q r s1 s2 s3 : (forall i, evaluates p i -> evaluates r i) -> (forall i, evaluates q i -> evaluates r i) -> nkeeps p s1 s2 -> nkeeps q s2 s3 -> nkeeps r s1 s3.
Proof.
  intros Hp Hq [L1 H1] [L2 H2]. split; [ congruence | ]. intros i o E C. destruct (H1 i o E) as (o1 & E1 & T1 & N1); [ destruct C as [C | C]; [ now left | right; auto ] | ].
  destruct (H2 i o1 E1) as (o2 & E2 & T2 & N2); [ destruct C as [C | C]; [ left; tauto | right; auto ] | ]. exists o2. split; [ exact E2 | split; [ congruence | tauto ]].
Qed.
Lemma f2_nth {A B} (P : A -> B -> Prop) l m i : Forall2 P l m -> match nth_error l i with Some x => exists y, nth_error m i = Some y /\ P x y | None => nth_error m i = None end.
Proof. intros H. revert i. induction H as [ | x y l m Hx H IH]; intros [ | i]; cbn; eauto. apply IH. Qed.
Lemma f2_update {A B} (P : A -> B -> Prop) l m i x y : Forall2 P l m -> nth_error l i = Some x -> P x y -> Forall2 P l (update i y m).
Proof.
  intros H. revert i. induction H as [ | a b l m Hx H IH]; intros [ | i] E Hd; cbn in E; try discriminate.
  - injection E as ->. constructor; assumption.
  - unfold update. cbn. constructor; [ exact Hx | ]. now apply IH.
Qed.
Lemma update_len {A} (x : A) l i : (i < length l)%nat -> length (update i x l) = length l.
Proof. intros H. unfold update. rewrite app_length, firstn_length_le by lia. cbn [length]. rewrite skipn_length. lia. Qed.
Lemma careful_exec S p : Forall as_built S -> forall ctx w s n, careful w p -> nstate S ctx w s ->
  exists s' n', nexec p ctx s n = (Done (answers S p), s', n') /\ nstate S ctx (fun i => w i \/ warms p i) s' /\ nkeeps p s s'.
Proof.
  intros HB. induction p as [ | i z | p IHp q IHq | p IHp | p IHp]; intros ctx w s n HD Hs; cbn [nexec answers].
  - exists s, n. split; [ reflexivity | split ]; [ | split; [ reflexivity | intros i o E _; exists o; tauto ]]. destruct Hs as [H1 H2]. split; [ exact H1 | ]. intros i o [Wi | []]. now apply H2.
  - destruct Hs as [H1 H2]. pose proof (f2_nth _ S s i H1) as N. destruct (nth_error S i) as [d0 | ] eqn:E0.
    2:{ rewrite N. exists s, n. split; [ reflexivity | split ]; [ | split; [ reflexivity | intros j o E _; exists o; tauto ]]. split; [ exact H1 | ]. intros j o [Wi | Wi] Ej; [ now apply (H2 j) | ]. cbn in Wi. subst j. congruence. }
    destruct N as ([d t] & Ei & L & A). rewrite Ei. unfold nstep. destruct (like_call d0 d z L) as (V & L' & NN). destruct (nz_call d z) as [v d'] eqn:EC. cbn [fst snd] in *.
    assert (B0 : as_built d0) by (rewrite Forall_forall in HB; apply HB; eapply nth_error_In; exact E0). destruct (like_call d0 d0 z (like_self d0 B0)) as (V0 & _).
    assert (A' : alive ctx (if missing (nz_norm d) then hd_error ctx else t) = true) by (destruct (nz_norm d); cbn; [ apply A; discriminate | apply alive_hd ]).
    rewrite A'. assert (Li := nth_error_len _ _ _ Ei). eexists _, n. split; [ rewrite V0, V; reflexivity | split; [ split | split ]].
    + apply (f2_update _ S s i d0); [ exact H1 | exact E0 | cbn [fst snd]; auto ].
    + intros j o [Wj | Wj] Ej; rewrite nth_update in Ej by exact Li; destruct (Nat.eqb_spec j i) as [ -> | Hj ]; try (injection Ej as <-; exact NN); [ now apply (H2 j) | ]. contradiction.
    + now apply update_len.
    + intros j o Ej C. rewrite nth_update by exact Li. destruct (Nat.eqb_spec j i) as [ -> | Hj ]; [ | exists o; tauto ]. rewrite Ei in Ej. injection Ej as <-. cbn [fst snd] in *.
      destruct C as [C | C]; [ | exfalso; now apply C ]. eexists. split; [ reflexivity | ]. cbn [fst snd]. destruct (nz_norm d); [ cbn; split; [ reflexivity | tauto ] | congruence ].
  - cbn [careful] in HD. destruct HD as [D1 D2]. destruct (IHp ctx w s n D1 Hs) as (s1 & n1 & -> & H1 & K1). destruct (IHq ctx _ s1 n1 D2 H1) as (s2 & n2 & -> & H2 & K2).
    exists s2, n2. split; [ reflexivity | split ].
    + destruct H2 as [H2 H3]. split; [ exact H2 | ]. intros i o Wi. apply H3. cbn [warms] in Wi. tauto.
    + apply (nkeeps_trans p q _ s s1 s2); try assumption; cbn [evaluates]; tauto.
  - cbn [careful] in HD. destruct HD as [D1 D2]. assert (Hs' : nstate S (n :: ctx) w s).
    { destruct Hs as [H1 H2]. split; [ | exact H2 ]. clear -H1. induction H1 as [ | a b l m [L A] H1 IH]; constructor; [ | exact IH ]. split; [ exact L | ]. intros NN. apply alive_weaken. auto. }
    destruct (IHp (n :: ctx) w s (Datatypes.S n) D2 Hs') as (s1 & n1 & E & H1 & K1). exists s1, n1. split; [ exact E | ]. split; [ | exact K1 ].
    destruct Hs as [G1 G2], H1 as [H1 H2], K1 as [L1 K1]. split; [ | intros i o [Wi | []]; apply H2; now left ].
    assert (KK : forall i o, nth_error s i = Some o -> exists o', nth_error s1 i = Some o' /\ snd o' = snd o /\ (nz_norm (fst o') = None <-> nz_norm (fst o) = None)).
    { intros i o Ei. apply (K1 i o Ei). destruct (nz_norm (fst o)) eqn:EN; [ left; discriminate | right ]. intros Ev. apply (G2 i o (D1 i Ev) Ei EN). }
    clear -G1 H1 KK L1. revert s1 L1 H1 KK. induction G1 as [ | d0 o l m [L A] G1 IH]; intros s1 L1 H1 KK; inversion H1 as [ | ? o1 ? m1 [La Aa] H1']; subst; constructor.
    + destruct (KK 0%nat o eq_refl) as (o' & E & T & NN). cbn in E. injection E as <-. split; [ exact La | ]. intros Q. rewrite T. apply A. tauto.
    + apply IH; [ cbn in L1; lia | exact H1' | ]. intros i x Ei. exact (KK (Datatypes.S i) x Ei).
  - cbn [careful] in HD. assert (Hs' : nstate S (n :: ctx) (fun _ => False) (map rebuilt s)).
    { destruct Hs as [H1 _]. split; [ | intros i o [] ]. clear -H1. induction H1 as [ | d0 o l m [L A] H1 IH]; cbn [map]; constructor; [ | exact IH ]. split; [ now apply like_jit | reflexivity ]. }
    destruct (IHp (n :: ctx) _ _ (Datatypes.S n) HD Hs') as (s1 & n1 & -> & _ & _). exists s, n1. split; [ reflexivity | split ].
    + destruct Hs as [H1 H2]. split; [ exact H1 | ]. intros i o [Wi | []]. now apply H2.
    + split; [ reflexivity | ]. intros i o Ei _. exists o. tauto.
Qed.

Lemma start_state S (w : nat -> Prop) : Forall as_built S -> (forall i, w i -> plane_at S i) -> nstate S [] w (map concrete S).
Proof.
  intros HB HW. split.
  - clear HW. induction HB as [ | d l Hd HB IH]; cbn [map]; constructor; [ | exact IH ]. split; [ now apply like_self | reflexivity ].
  - intros i o Wi Ei. destruct (HW i Wi) as (d & Ed & De). rewrite nth_error_map, Ed in Ei. injection Ei as <-. cbn [fst].
    assert (B : as_built d) by (rewrite Forall_forall in HB; apply HB; eapply nth_error_In; exact Ed). unfold concrete. cbn [fst]. rewrite (built_norm d B), De. discriminate.
Qed.
Lemma careful_transparent : forall S p, Forall as_built S -> careful (plane_at S) p -> ntop p S = fst (neager p S) /\ ntop p S = Done (answers S p).
Proof.
  intros S p HB HD. destruct (careful_exec S p HB [] (plane_at S) (map concrete S) 0%nat HD (start_state S _ HB (fun i H => H))) as (s' & n' & E & _).
  assert (L : likes S S) by (clear HD E; induction HB; constructor; [ now apply like_self | assumption ]).
  destruct (eager_answers S p HB S L) as (s & E2 & _). unfold ntop. rewrite E, E2. split; reflexivity.
Qed.
Lemma careful_mono p : forall w w' : nat -> Prop, (forall i, w i -> w' i) -> careful w p -> careful w' p.
Proof.
  induction p as [ | i z | p IHp q IHq | p IHp | p IHp]; intros w w' H; cbn [careful]; auto.
  - intros [A B]. split; [ now apply (IHp w) | ]. apply (IHq (fun i => w i \/ warms p i)); [ | exact B ]. intros i [C | C]; auto.
  - intros [A B]. split; [ auto | now apply (IHp w) ].
Qed.
Lemma passes_touches p : passes p -> forall i, ~ evaluates p i.
Proof.
  induction p as [ | j z | p IHp q IHq | p IHp | p IHp]; cbn; intros H i; try tauto; [ | now apply IHp ].
  intros [A | A]; [ now apply (IHp (proj1 H) i) | now apply (IHq (proj2 H) i) ].
Qed.
Lemma passes_careful p : forall w, passes p -> careful w p.
Proof.
  induction p as [ | i z | p IHp q IHq | p IHp | p IHp]; intros w; cbn [passes careful]; auto.
  - intros [A B]. split; [ now apply IHp | now apply IHq ].
  - intros A. split; [ intros i Ev; exfalso; now apply (passes_touches p A i) | now apply IHp ].
Qed.
(** a captured survey used through kernels only *)
Lemma passing_transparent : forall S p, Forall as_built S -> passes p -> ntop p S = fst (neager p S) /\ ntop p S = Done (answers S p).
Proof. intros S p HB HP. apply careful_transparent; [ exact HB | now apply passes_careful ]. Qed.

(** ** exactly when a captured distribution leaks its norm *)
Lemma evals_exec S l : Forall as_built S -> forall s n, Forall2 (fun d0 (o : tnz) => like d0 (fst o) /\ (nz_norm (fst o) = None \/ is_delta d0 = true /\ snd o = None \/ is_delta d0 = false /\ snd o = Some 0%nat)) S s ->
  exists v s', nexec (evals l) [0%nat] s n = (Done v, s', n) /\
   Forall2 (fun d0 (o : tnz) => like d0 (fst o) /\ (nz_norm (fst o) = None \/ is_delta d0 = true /\ snd o = None \/ is_delta d0 = false /\ snd o = Some 0%nat)) S s' /\
   forall i o', nth_error s' i = Some o' -> exists o, nth_error s i = Some o /\ (nz_norm (fst o') <> None <-> nz_norm (fst o) <> None \/ exists z, In (i, z) l).
Proof.
  intros HB. induction l as [ | [i z] l IH]; intros s n Hs.
  - exists [], s. split; [ reflexivity | split; [ exact Hs | ]]. intros i o E. exists o. split; [ exact E | ]. split; [ tauto | ]. intros [H | (z & [])]. exact H.
  - change (evals ((i, z) :: l)) with (NThen (Eval i z) (evals l)). cbn [nexec]. pose proof (f2_nth _ S s i Hs) as N. destruct (nth_error S i) as [d0 | ] eqn:E0.
    + destruct N as ([d t] & Ei & L & A). rewrite Ei. unfold nstep. destruct (like_call d0 d z L) as (_ & L' & NN). destruct (nz_call d z) as [v d'] eqn:EC. cbn [fst snd] in *.
      assert (L4 := proj2 (proj2 (proj2 L))).
      assert (A' : alive [0%nat] (if missing (nz_norm d) then hd_error [0%nat] else t) = true /\ (is_delta d0 = true /\ (if missing (nz_norm d) then hd_error [0%nat] else t) = None \/ is_delta d0 = false /\ (if missing (nz_norm d) then hd_error [0%nat] else t) = Some 0%nat)).
      { destruct (nz_norm d) as [v0 | ]; cbn [missing hd_error].
        - destruct A as [A | [[A ->] | [A ->]]]; [ discriminate | auto | auto ].
        - destruct L4 as [[_ L4] | L4]; [ auto | discriminate ]. }
      destruct A' as [A1 A2]. rewrite A1. assert (Li := nth_error_len _ _ _ Ei).
      destruct (IH (update i (d', if missing (nz_norm d) then hd_error [0%nat] else t) s) n) as (v2 & s2 & E2 & H2 & H3).
      { apply (f2_update _ S s i d0); [ exact Hs | exact E0 | cbn [fst snd]; split; [ exact L' | right; exact A2 ]]. }
      exists ([v] ++ v2), s2. split; [ change tnz with (nz * option nat)%type in E2 |- *; rewrite E2; reflexivity | split; [ exact H2 | ]].
      intros j o' Ej. destruct (H3 j o' Ej) as (o & Eo & Iff). rewrite nth_update in Eo by exact Li. destruct (Nat.eqb_spec j i) as [ -> | Hj ].
      * injection Eo as <-. exists (d, t). split; [ exact Ei | ]. cbn [fst] in Iff. split; [ intros _; right; exists z; now left | intros _; tauto ].
      * exists o. split; [ exact Eo | ]. rewrite Iff. split; [ intros [Q | (z' & Q)]; [ now left | right; exists z'; now right ] | intros [Q | (z' & [Q | Q])]; [ now left | congruence | right; eauto ]].
    + rewrite N. destruct (IH s n Hs) as (v2 & s2 & E2 & H2 & H3). rewrite E2. eexists _, s2. split; [ reflexivity | split; [ exact H2 | ]].
      intros j o' Ej. destruct (H3 j o' Ej) as (o & Eo & Iff). exists o. split; [ exact Eo | ]. rewrite Iff.
      split; [ intros [Q | (z' & Q)]; [ now left | right; exists z'; now right ] | intros [Q | (z' & [Q | Q])]; [ now left | | right; eauto ]]. injection Q as <- <-. congruence.
Qed.
Lemma norm_leak : forall S l i z d, Forall as_built S -> nth_error S i = Some d ->
  (ntop (NThen (NzClosure (evals l)) (Eval i z)) S = UnexpectedTracer <-> is_delta d = false /\ exists z', In (i, z') l) /\
  (ntop (NThen (NzClosure (evals l)) (NzClosure (Eval i z))) S = UnexpectedTracer <-> is_delta d = false /\ exists z', In (i, z') l).
Proof.
  intros S l i z d HB Hd.
  assert (H0 : Forall2 (fun d0 (o : tnz) => like d0 (fst o) /\ (nz_norm (fst o) = None \/ is_delta d0 = true /\ snd o = None \/ is_delta d0 = false /\ snd o = Some 0%nat)) S (map concrete S)).
  { clear -HB. induction HB as [ | x s Hx HB IH]; cbn [map]; constructor; [ | exact IH ]. split; [ now apply like_self | ]. unfold concrete; cbn [fst snd]. rewrite (built_norm x Hx). destruct (is_delta x); auto. }
  destruct (evals_exec S l HB _ 1%nat H0) as (v & s' & E & H1 & H2). pose proof (f2_nth _ S s' i H1) as N. rewrite Hd in N. destruct N as ([e t] & Ei & L & A). cbn [fst snd] in *.
  destruct (H2 i _ Ei) as (o & Eo & Iff). rewrite nth_error_map, Hd in Eo. injection Eo as <-. unfold concrete in Iff; cbn [fst] in Iff.
  assert (Bd : as_built d) by (rewrite Forall_forall in HB; apply HB; eapply nth_error_In; exact Hd).
  assert (N0 : nz_norm d <> None <-> is_delta d = true) by (rewrite (built_norm d Bd); destruct (is_delta d); split; congruence).
  assert (K : forall ctx, alive ctx (Some 0%nat) = false -> (if alive ctx (if missing (nz_norm e) then hd_error ctx else t) then True else False) <-> ~ (is_delta d = false /\ exists z', In (i, z') l)).
  { intros ctx Dead. destruct (nz_norm e) as [v0 | ]; cbn [missing].
    - destruct A as [A | [[A ->] | [A ->]]]; [ discriminate | | ].
      + cbn [alive]. split; [ intros _ [Q _]; congruence | auto ].
      + rewrite Dead. split; [ contradiction | ]. intros Q. apply Q. split; [ exact A | ]. assert (C : Some v0 <> None) by discriminate. apply Iff in C. destruct C as [C | C]; [ apply N0 in C; congruence | exact C ].
    - rewrite alive_hd. split; [ | auto ]. intros _ [_ Q]. apply (proj2 Iff (or_intror Q)). reflexivity. }
  unfold ntop. cbn [nexec]. rewrite E, Ei. unfold nstep. destruct (nz_call e z) as [u e']. cbn [fst snd].
  split.
  - specialize (K [] eq_refl). destruct (alive [] _); cbn [fst]; split; try discriminate; try (intros _; reflexivity); [ intros Q; exfalso; now apply K | ]. intros _.
    destruct (is_delta d) eqn:De; [ exfalso; apply K; intros [Q _]; discriminate | ]. split; [ reflexivity | ]. destruct (Classical_Prop.classic (exists z', In (i, z') l)) as [Q | Q]; [ exact Q | exfalso; apply K; tauto ].
  - specialize (K [1%nat] eq_refl). destruct (alive [1%nat] _); cbn [fst]; split; try discriminate; try (intros _; reflexivity); [ intros Q; exfalso; now apply K | ]. intros _.
    destruct (is_delta d) eqn:De; [ exfalso; apply K; intros [Q _]; discriminate | ]. split; [ reflexivity | ]. destruct (Classical_Prop.classic (exists z', In (i, z') l)) as [Q | Q]; [ exact Q | exfalso; apply K; tauto ].
Qed.

(** ** cases *)
Definition two_bins : list nz := [nz_new (Smail 1 2 1) 1 10; nz_new (Shift (nz_new (Smail 1 2 1) 1 10) (1 / 10)) 1 10; nz_new (Delta 1) 1 10].
Lemma two_bins_built : Forall as_built two_bins. Proof. repeat constructor. Qed.
Definition warm_first : nprog := NThen (Eval 0 [1]) (NThen (NzClosure (NThen (Eval 0 [2]) (NThen (Eval 2 [2]) (NzArgument (Eval 1 [1; 2]))))) (Eval 1 [3])).
Lemma warm_first_careful : careful (plane_at two_bins) warm_first.
Proof.
  cbn. repeat split; try (intros i Hi; exact Hi); try contradiction. intros i [Hi | [Hi | []]]; subst i; [ right; reflexivity | ]. left. exists (nz_new (Delta 1) 1 10). split; reflexivity.
Qed.
Definition kernel_only : nprog := NThen (NzClosure (NThen (NzArgument (Eval 0 [1; 2])) (NzArgument (Eval 1 [1; 2])))) (NzArgument (NThen (Eval 0 [3]) (Eval 1 [3]))).
Lemma kernel_only_passes : passes kernel_only. Proof. cbn. repeat split. Qed.
Lemma norm_leak_refuted : exists S p, Forall as_built S /\ (exists v, fst (neager p S) = Done v) /\ ntop p S = UnexpectedTracer.
Proof.
  exists two_bins, (NThen (NzClosure (evals [(0%nat, [1])])) (Eval 0 [1])). split; [ exact two_bins_built | split; [ cbn; eauto | ]].
  apply (proj1 (norm_leak two_bins [(0%nat, [1])] 0 [1] (nz_new (Smail 1 2 1) 1 10) two_bins_built eq_refl)). split; [ reflexivity | ]. exists [1]. now left.
Qed.
