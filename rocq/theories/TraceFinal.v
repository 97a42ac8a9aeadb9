(** * Exactly when a captured Cosmology leaks a tracer *)
From Verif Require Import Np Core Interp CoreProofs Background BgSpec BgProofs Trace TraceSpec TraceProofs.
Opaque chi_table growth_table_ODE growth_table_gamma logspace.

(** tables filled so far belong to trace 0 *)
Definition poisoned (c0 : cosmology) (o : tobj) : Prop :=
  inv_ws c0 (obj o) /\ t_params o = None /\ (ws_chi (obj o) <> None -> t_chi o = Some 0%nat) /\ (ws_growth (obj o) <> None -> t_growth o = Some 0%nat).
Definition has_table (o : tobj) (t : table) : Prop :=
  match t with Distances => ws_chi (obj o) <> None | GrowthTable => ws_growth (obj o) <> None end.

Lemma opt_dec {A} (o : option A) : o = None \/ o <> None.
Proof. destruct o; [ right; discriminate | now left ]. Qed.

Lemma poison_step c0 o k : _gamma_growth c0 = false -> poisoned c0 o ->
  let '(r, o') := step [0%nat] k o in
  r = of_res (fst (run1 k (obj o))) /\ poisoned c0 o' /\ forall t, has_table o' t <-> has_table o t \/ needs k t.
Proof.
  intros Gf (HI & HP & HC & HG). unfold step. cbv zeta.
  pose proof (inv_flag _ _ HI) as Fl. rewrite Gf in Fl. rewrite HP. simpl negb. rewrite Bool.andb_false_r.
  pose proof (run1_inv c0 (obj o) k HI) as HI'.
  pose proof (uses_chi_needs k) as Nx. pose proof (uses_growth_needs (obj o) k Fl) as Ng.
  pose proof (ws_after_chi (obj o) k) as Ac. pose proof (ws_same_chi (obj o) k) as Sc.
  pose proof (ws_after_growth (obj o) k) as Ag. pose proof (ws_same_growth (obj o) k) as Sg.
  destruct (run1 k (obj o)) as [r c'] eqn:ER. simpl in *.
  assert (X : uses_chi k = true \/ ws_chi (obj o) <> None -> (if uses_chi k && missing (ws_chi (obj o)) then Some 0%nat else t_chi o) = Some 0%nat).
  { intros U. destruct (ws_chi (obj o)) eqn:E; simpl.
    - rewrite Bool.andb_false_r. apply HC. discriminate.
    - destruct U as [-> | U]; [ reflexivity | congruence ]. }
  assert (Y : uses_growth (obj o) k = true \/ ws_growth (obj o) <> None -> (if uses_growth (obj o) k && missing (ws_growth (obj o)) then Some 0%nat else t_growth o) = Some 0%nat).
  { intros U. destruct (ws_growth (obj o)) eqn:E; simpl.
    - rewrite Bool.andb_false_r. apply HG. discriminate.
    - destruct U as [-> | U]; [ reflexivity | congruence ]. }
  match goal with |- context [if ?b then _ else _] => replace b with false end.
  2: { symmetry. apply Bool.orb_false_iff. split; apply Bool.andb_false_iff.
       - destruct (uses_chi k) eqn:U; [ right; rewrite X by auto; reflexivity | now left ].
       - destruct (uses_growth (obj o) k) eqn:U; [ right; rewrite Y by auto; reflexivity | now left ]. }
  split; [ reflexivity | split ].
  - unfold poisoned; simpl. split; [ exact HI' | split; [ reflexivity | split ]]; intros Hn.
    + apply X. destruct (uses_chi k); [ now left | right; now rewrite Sc in Hn ].
    + apply Y. destruct (uses_growth (obj o) k); [ now left | right; now rewrite Sg in Hn ].
  - intros [ | ]; simpl.
    + destruct (uses_chi k) eqn:U.
      * destruct (Ac eq_refl) as [A _]. split; intros _; [ right; now apply Nx | exact A ].
      * rewrite Sc by reflexivity. split; [ now left | intros [A | A]; [ exact A | apply Nx in A; discriminate ]].
    + destruct (uses_growth (obj o) k) eqn:U.
      * pose proof (Ag eq_refl) as A. split; intros _; [ right; now apply Ng | exact A ].
      * rewrite Sg by reflexivity. split; [ now left | intros [A | A]; [ exact A | apply Ng in A; discriminate ]].
Qed.

Lemma poison_calls c0 ks : _gamma_growth c0 = false -> (forall k, In k ks -> exists v, fst (run1 k c0) = Ok v) -> fresh c0 ->
  forall o n, poisoned c0 o ->
  exists vs o', exec (calls ks) [0%nat] o n = (Done vs, o', n) /\ poisoned c0 o' /\
    forall t, has_table o' t <-> has_table o t \/ exists k, In k ks /\ needs k t.
Proof.
  intros Gf Hok F. induction ks as [ | k ks IH]; intros o n HP.
  - exists [], o. simpl. split; [ reflexivity | split; [ exact HP | ]]. intros t. split; [ now left | intros [A | (k & [] & _)]; exact A ].
  - pose proof (poison_step c0 o k Gf HP) as ST. simpl. destruct (step [0%nat] k o) as [r o1].
    destruct ST as (E & P1 & T1).
    destruct (Hok k (or_introl eq_refl)) as [v Hv].
    rewrite (run1_value c0 (obj o) c0 k (proj1 HP) (inv_fresh c0 F)), Hv in E. simpl in E. subst r.
    destruct (IH (fun k' H => Hok k' (or_intror H)) o1 n P1) as (vs & o' & -> & P2 & T2).
    exists ([v] ++ vs), o'. split; [ reflexivity | split; [ exact P2 | ]].
    intros t. rewrite T2, T1. split.
    + intros [[A | A] | (k' & A & B)]; [ now left | right; exists k; split; [ now left | exact A ] | right; exists k'; split; [ now right | exact B ]].
    + intros [A | (k' & [<- | A] & B)]; [ now left; left | now left; right | right; now exists k' ].
Qed.

(** in a context not containing trace 0 *)
Lemma poison_read c0 o k ctx : _gamma_growth c0 = false -> ~ In 0%nat ctx -> poisoned c0 o ->
  (exists v, fst (run1 k (obj o)) = Ok v) ->
  fst (step ctx k o) = UnexpectedTracer <-> exists t, has_table o t /\ needs k t.
Proof.
  intros Gf Nc (HI & HP & HC & HG) [v Hv]. unfold step. cbv zeta.
  pose proof (inv_flag _ _ HI) as Fl. rewrite Gf in Fl. rewrite HP. simpl negb. rewrite Bool.andb_false_r.
  pose proof (uses_chi_needs k) as Nx. pose proof (uses_growth_needs (obj o) k Fl) as Ng.
  assert (D0 : alive ctx (Some 0%nat) = false).
  { unfold alive. destruct (existsb (Nat.eqb 0) ctx) eqn:E; [ | reflexivity ]. exfalso. apply existsb_exists in E. destruct E as (x & A & B). apply Nat.eqb_eq in B. subst. contradiction. }
  destruct (run1 k (obj o)) as [r c'] eqn:ER. simpl in Hv. subst r. cbn [t_chi t_growth obj].
  destruct (uses_chi k) eqn:U1, (uses_growth (obj o) k) eqn:U2; simpl.
  - destruct k; discriminate.
  - destruct (ws_chi (obj o)) eqn:E; simpl.
    + rewrite HC by congruence. rewrite D0. simpl. split; [ intros _ | reflexivity ]. exists Distances. split; [ simpl; congruence | now apply Nx ].
    + rewrite alive_hd. simpl. split; [ discriminate | ]. intros (t & A & B). exfalso. destruct t; simpl in A; [ congruence | ]. apply Ng in B. discriminate.
  - destruct (ws_growth (obj o)) eqn:E; simpl.
    + rewrite HG by congruence. rewrite D0. simpl. split; [ intros _ | reflexivity ]. exists GrowthTable. split; [ simpl; congruence | now apply Ng ].
    + rewrite alive_hd. simpl. split; [ discriminate | ]. intros (t & A & B). exfalso. destruct t; simpl in A; [ | congruence ]. apply Nx in B. discriminate.
  - split; [ discriminate | ]. intros (t & A & B). exfalso. destruct t; [ apply Nx in B | apply Ng in B ]; discriminate.
Qed.

Theorem leak_iff : forall c ks k, fresh c -> _gamma_growth c = false -> (forall k', In k' (k :: ks) -> exists v, fst (run1 k' c) = Ok v) ->
  (top (Then (JitClosure (calls ks)) (Do k)) c = UnexpectedTracer <-> exists k' t, In k' ks /\ needs k' t /\ needs k t) /\
  (top (Then (JitClosure (calls ks)) (JitClosure (Do k))) c = UnexpectedTracer <-> exists k' t, In k' ks /\ needs k' t /\ needs k t).
Proof.
  intros c ks k F G Hok.
  assert (P0 : poisoned c (TObj c None None None)).
  { unfold poisoned; simpl. destruct F as [f1 f2]. rewrite f1, f2. split; [ now apply inv_fresh | repeat split; congruence ]. }
  destruct (poison_calls c ks G (fun k' H => Hok k' (or_intror H)) F _ 1%nat P0) as (vs & o' & E & P & T).
  assert (T' : (exists k' t, In k' ks /\ needs k' t /\ needs k t) <-> exists t, has_table o' t /\ needs k t).
  { split.
    - intros (k' & t & A & B & C). exists t. split; [ | exact C ]. apply T. right. now exists k'.
    - intros (t & A & B). apply T in A. destruct A as [A | (k' & A & C)].
      + exfalso. destruct F as [f1 f2]. destruct t; simpl in A; rewrite ?f1, ?f2 in A; congruence.
      + now exists k', t. }
  rewrite T'.
  assert (V : exists v, fst (run1 k (obj o')) = Ok v).
  { destruct (Hok k (or_introl eq_refl)) as [v Hv]. exists v. rewrite <- Hv. apply (run1_value c); [ apply P | now apply inv_fresh ]. }
  unfold top. cbn [exec]. rewrite E. split.
  - rewrite <- (poison_read c o' k [] G (fun H => H) P V). destruct (step [] k o') as [[u | e | ] o2]; simpl; split; congruence.
  - assert (N1 : ~ In 0%nat [1%nat]) by (intros [A | []]; discriminate).
    rewrite <- (poison_read c o' k [1%nat] G N1 P V). destruct (step [1%nat] k o') as [[u | e | ] o2]; simpl; split; congruence.
Qed.

(** ** cases *)
Lemma planck_fresh : fresh Planck15 /\ _gamma_growth Planck15 = false /\ _gamma Planck15 = None.
Proof. repeat split. Qed.
Lemma leak_refuted : exists c p, fresh c /\ _gamma_growth c = false /\ _gamma c = None /\
  (exists v, fst (eager p c) = Done v) /\ top p c = UnexpectedTracer.
Proof.
  exists Planck15, (Then (JitClosure (Do (Radial (Array1 [0.5])))) (Do (Radial (Array1 [0.5])))).
  split; [ split; reflexivity | split; [ reflexivity | split; [ reflexivity | split ]]].
  - cbn [eager]. destruct (run1 (Radial (Array1 [0.5])) Planck15) as [r c1] eqn:E1.
    assert (R1 : exists v, r = Ok v) by (cbn [run1] in E1; destruct (rcd_default Planck15 (Array1 [0.5])); inversion E1; eauto).
    destruct R1 as [v1 ->]. simpl of_res. cbv iota.
    destruct (run1 (Radial (Array1 [0.5])) c1) as [r c2] eqn:E2.
    assert (R2 : exists v, r = Ok v) by (cbn [run1] in E2; destruct (rcd_default c1 (Array1 [0.5])); inversion E2; eauto).
    destruct R2 as [v2 ->]. simpl. eauto.
  - pose proof (leak_iff Planck15 [Radial (Array1 [0.5])] (Radial (Array1 [0.5])) (conj eq_refl eq_refl) eq_refl) as L.
    assert (Hok : forall k', In k' [Radial (Array1 [0.5]); Radial (Array1 [0.5])] -> exists v, fst (run1 k' Planck15) = Ok v).
    { intros k' [<- | [<- | []]]; cbn [run1]; destruct (rcd_default Planck15 (Array1 [0.5])); simpl; eauto. }
    destruct (L Hok) as [[_ L1] _].
    assert (W : exists k' t, In k' [Radial (Array1 [0.5])] /\ needs k' t /\ needs (Radial (Array1 [0.5])) t) by (exists (Radial (Array1 [0.5])), Distances; simpl; auto).
    specialize (L1 W). clear L W Hok. unfold top in *. cbn [exec calls fold_right] in L1 |- *.
    destruct (step [0%nat] (Radial (Array1 [0.5])) (TObj Planck15 None None None)) as [[u | e | ] o1]; rewrite ?app_nil_r in L1; exact L1.
Qed.
(** a disciplined program with both kinds of jit *)
Definition warm_then_jit : prog :=
  Then (Do (Radial (Array1 [1.0]))) (Then (Do (Growth (Array1 [1.0])))
    (Then (JitClosure (Then (Do (AngDiam (Array1 [0.5]))) (Do (Rate (Array1 [0.5])))))
      (Then (JitArgument (Do (Transverse (Array1 [0.5])))) (Do (AofChi (Array1 [100])))))).
Lemma warm_disciplined : disciplined (fun _ => False) warm_then_jit.
Proof.
  unfold warm_then_jit. cbn [disciplined computes touches needs]. repeat split; auto.
  intros [ | ]; [ now left; right | ]. intros _. right. exact I.
Qed.
