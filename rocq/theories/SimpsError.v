(** * Error bound of composite Simpson *)
From Coquelicot Require Import Coquelicot.
From Verif Require Import Np NpLemmas IntegrateSpec SimpsProofs.

(** integrating a bound on the derivative *)
Lemma bound_up g g' K k T : (forall t, 0 <= t <= T -> is_derive g t (g' t)) -> g 0 = 0 ->
  (forall t, 0 <= t <= T -> Rabs (g' t) <= K * t ^ k) ->
  forall t, 0 <= t <= T -> Rabs (g t) <= K / INR (S k) * t ^ S k.
Proof.
  intros HD H0 HB t Ht. assert (HS : INR (S k) <> 0) by (apply not_0_INR; lia).
  assert (P : forall s, 0 <= s <= t -> is_derive (fun s => K / INR (S k) * s ^ S k) s (K * s ^ k)).
  { intros s _. auto_derive; [ exact I | ]. replace (Nat.pred (S k)) with k by reflexivity. change (match k with 0%nat => 1 | S _ => INR k + 1 end) with (INR (S k)). field. exact HS. }
  assert (MVT : forall u u', (forall s, 0 <= s <= t -> is_derive u s (u' s)) -> (forall s, 0 <= s <= t -> 0 <= u' s) -> u 0 <= u t).
  { intros u u' Du Hu. destruct (Req_dec t 0) as [-> | Hne]; [ lra | ].
    destruct (MVT_cor2 u u' 0 t ltac:(lra)) as (c & E & Hc).
    { intros s Hs. apply is_derive_Reals, Du; lra. }
    specialize (Hu c ltac:(lra)). nra. }
  apply Rabs_le. split.
  - pose proof (MVT (fun s => K / INR (S k) * s ^ S k + g s) (fun s => K * s ^ k + g' s)) as M.
    cbv beta in M. rewrite H0, pow_i in M by lia. cut (K / INR (S k) * 0 + 0 <= K / INR (S k) * t ^ S k + g t); [ lra | ]. apply M.
    + intros s Hs. apply (is_derive_plus (V := R_NormedModule)); [ apply P; lra | apply HD; lra ].
    + intros s Hs. specialize (HB s ltac:(lra)). apply Rabs_le_between in HB. lra.
  - pose proof (MVT (fun s => K / INR (S k) * s ^ S k - g s) (fun s => K * s ^ k - g' s)) as M.
    cbv beta in M. rewrite H0, pow_i in M by lia. cut (K / INR (S k) * 0 - 0 <= K / INR (S k) * t ^ S k - g t); [ lra | ]. apply M.
    + intros s Hs. apply (is_derive_minus (V := R_NormedModule)); [ apply P; lra | apply HD; lra ].
    + intros s Hs. specialize (HB s ltac:(lra)). apply Rabs_le_between in HB. lra.
Qed.

(** sums and products with four functions *)
Lemma comb_derive (A B C D : R -> R) t a b c d al be ga k :
  is_derive A t a -> is_derive B t b -> is_derive C t c -> is_derive D t d ->
  is_derive (fun t => al * A t + be * B t + ga - t / 3 * (C t + k * D t)) t
    (al * a + be * b - 1 / 3 * (C t + k * D t) - t / 3 * (c + k * d)).
Proof.
  intros HA HB HC HD. auto_derive; [ repeat split; eexists; eassumption | ].
  assert (EA : Derive (fun x : R => A x) t = a) by (apply is_derive_unique; exact HA).
  assert (EB : Derive (fun x : R => B x) t = b) by (apply is_derive_unique; exact HB).
  assert (EC : Derive (fun x : R => C x) t = c) by (apply is_derive_unique; exact HC).
  assert (ED : Derive (fun x : R => D x) t = d) by (apply is_derive_unique; exact HD).
  rewrite EA, EB, EC, ED.
  field.
Qed.

(** one panel *)
Section Panel.
  Variables (f f1 f2 f3 f4 F : R -> R) (m h M : R).
  Hypothesis Hh : 0 <= h.
  Let I x := m - h <= x <= m + h.
  Hypothesis D1 : forall x, I x -> is_derive f x (f1 x).
  Hypothesis D2 : forall x, I x -> is_derive f1 x (f2 x).
  Hypothesis D3 : forall x, I x -> is_derive f2 x (f3 x).
  Hypothesis D4 : forall x, I x -> is_derive f3 x (f4 x).
  Hypothesis HM : forall x, I x -> Rabs (f4 x) <= M.
  Hypothesis DF : forall x, I x -> is_derive F x (f x).

  Definition e0 t := F (m + t) - F (m - t) - t / 3 * (f (m - t) + 4 * f m + f (m + t)).
  Definition e1 t := 2 / 3 * (f (m + t) + f (m - t)) - 4 / 3 * f m - t / 3 * (f1 (m + t) - f1 (m - t)).
  Definition e2 t := 1 / 3 * (f1 (m + t) - f1 (m - t)) - t / 3 * (f2 (m + t) + f2 (m - t)).
  Definition e3 t := - t / 3 * (f3 (m + t) - f3 (m - t)).

  Lemma Dp (g g' : R -> R) t : (forall x, I x -> is_derive g x (g' x)) -> 0 <= t <= h -> is_derive (fun t => g (m + t)) t (g' (m + t)).
  Proof.
    intros Hg Ht. replace (g' (m + t)) with (1 * g' (m + t)) by ring.
    apply (is_derive_comp (V := R_NormedModule) g (fun t => m + t)); [ apply Hg; unfold I; lra | auto_derive; [ exact Logic.I | ring ] ].
  Qed.
  Lemma Dm (g g' : R -> R) t : (forall x, I x -> is_derive g x (g' x)) -> 0 <= t <= h -> is_derive (fun t => g (m - t)) t (- g' (m - t)).
  Proof.
    intros Hg Ht. replace (- g' (m - t)) with ((-1) * g' (m - t)) by ring.
    apply (is_derive_comp (V := R_NormedModule) g (fun t => m - t)); [ apply Hg; unfold I; lra | auto_derive; [ exact Logic.I | ring ] ].
  Qed.
  Lemma De0 t : 0 <= t <= h -> is_derive e0 t (e1 t).
  Proof.
    intros Ht.
    pose proof (comb_derive _ _ _ _ t _ _ _ _ 1 (-1) 0 1 (Dp _ _ t DF Ht) (Dm _ _ t DF Ht) (Dp _ _ t D1 Ht) (Dm _ _ t D1 Ht)) as C.
    pose proof (is_derive_scal (fun t => t) t (4 / 3 * f m) 1 (is_derive_id t)) as L.
    pose proof (is_derive_minus (V := R_NormedModule) _ _ t _ _ C L) as E.
    eapply is_derive_ext; [ | replace (e1 t) with (minus (1 * f (m + t) + -1 * - f (m - t) - 1 / 3 * (f (m + t) + 1 * f (m - t)) - t / 3 * (f1 (m + t) + 1 * - f1 (m - t))) (4 / 3 * f m * 1)); [ exact E | ] ].
    - intros s. unfold e0, minus, plus, opp; simpl. field.
    - unfold e1, minus, plus, opp; simpl. field.
  Qed.
  Lemma De1 t : 0 <= t <= h -> is_derive e1 t (e2 t).
  Proof.
    intros Ht.
    pose proof (comb_derive _ _ _ _ t _ _ _ _ (2 / 3) (2 / 3) (- (4 / 3 * f m)) (-1) (Dp _ _ t D1 Ht) (Dm _ _ t D1 Ht) (Dp _ _ t D2 Ht) (Dm _ _ t D2 Ht)) as C.
    eapply is_derive_ext; [ | match type of C with is_derive _ _ ?l => replace (e2 t) with l; [ exact C | ] end ].
    - intros s. unfold e1. simpl. field.
    - unfold e2. field.
  Qed.
  Lemma De2 t : 0 <= t <= h -> is_derive e2 t (e3 t).
  Proof.
    intros Ht.
    pose proof (comb_derive _ _ _ _ t _ _ _ _ (1 / 3) (- (1 / 3)) 0 1 (Dp _ _ t D2 Ht) (Dm _ _ t D2 Ht) (Dp _ _ t D3 Ht) (Dm _ _ t D3 Ht)) as C.
    eapply is_derive_ext; [ | match type of C with is_derive _ _ ?l => replace (e3 t) with l; [ exact C | ] end ].
    - intros s. unfold e2. simpl. field.
    - unfold e3. field.
  Qed.
  Lemma e3_bound t : 0 <= t <= h -> Rabs (e3 t) <= (2 / 3 * M) * t ^ 2.
  Proof.
    intros Ht. unfold e3. rewrite Rabs_mult.
    replace (Rabs (- t / 3)) with (t / 3) by (unfold Rdiv; rewrite Rabs_mult, Rabs_Ropp, !Rabs_right; lra).
    assert (Rabs (f3 (m + t) - f3 (m - t)) <= M * (2 * t)).
    { destruct (Req_dec t 0) as [-> | Hne].
      - replace (m + 0) with m by ring. replace (m - 0) with m by ring. unfold Rminus. rewrite Rplus_opp_r, Rabs_R0. lra.
      - destruct (MVT_cor2 f3 f4 (m - t) (m + t) ltac:(lra)) as (c & E & Hc).
        { intros x Hx. apply is_derive_Reals, D4. unfold I; lra. }
        rewrite E, Rabs_mult. replace (m + t - (m - t)) with (2 * t) by ring. rewrite (Rabs_right (2 * t)) by lra.
        apply Rmult_le_compat_r; [ lra | ]. apply HM. unfold I; lra. }
    nra.
  Qed.
  Lemma panel_error : Rabs (F (m + h) - F (m - h) - h / 3 * (f (m - h) + 4 * f m + f (m + h))) <= M / 90 * h ^ 5.
  Proof.
    assert (E2 : e2 0 = 0) by (unfold e2; replace (m + 0) with m by ring; replace (m - 0) with m by ring; field).
    assert (E1 : e1 0 = 0) by (unfold e1; replace (m + 0) with m by ring; replace (m - 0) with m by ring; field).
    assert (E0 : e0 0 = 0) by (unfold e0; replace (m + 0) with m by ring; replace (m - 0) with m by ring; field).
    pose proof (bound_up e2 e3 _ 2 h De2 E2 e3_bound) as B2.
    pose proof (bound_up e1 e2 _ 3 h De1 E1 B2) as B1.
    pose proof (bound_up e0 e1 _ 4 h De0 E0 B1 h ltac:(lra)) as B0. unfold e0 in B0.
    eapply Rle_trans; [ exact B0 | ]. apply Req_le. simpl INR. field.
  Qed.
End Panel.

(** antiderivative of a function continuous on [a,b] *)
Lemma clamp_continuous a b x : continuous (fun x => Rmin (Rmax x a) b) x.
Proof.
  apply (continuous_ext (fun x => ((x + a) / 2 + Rabs (x - a) / 2 + b) / 2 - Rabs ((x + a) / 2 + Rabs (x - a) / 2 - b) / 2)).
  - intros y. match goal with |- @eq _ ?u ?v => change (@eq R u v) end. unfold Rmin, Rmax. destruct (Rle_dec y a) as [Hy | Hy].
    + rewrite (Rabs_left1 (y - a)) by lra. replace ((y + a) / 2 + - (y - a) / 2) with a by lra.
      destruct (Rle_dec a b); [ rewrite Rabs_left1 by lra | rewrite Rabs_right by lra ]; lra.
    + rewrite (Rabs_right (y - a)) by lra. replace ((y + a) / 2 + (y - a) / 2) with y by lra.
      destruct (Rle_dec y b); [ rewrite Rabs_left1 by lra | rewrite Rabs_right by lra ]; lra.
  - assert (A : continuous (fun y => Rabs (y - a)) x).
    { apply (continuous_comp (fun y => y - a) Rabs); [ apply (ex_derive_continuous (fun y => y - a)); now auto_derive | apply continuous_Rabs ]. }
    assert (B : continuous (fun y => (y + a) / 2 + Rabs (y - a) / 2) x).
    { apply (continuous_plus (fun y => (y + a) / 2) (fun y => Rabs (y - a) / 2)).
      - apply (ex_derive_continuous (fun y => (y + a) / 2)). now auto_derive.
      - apply (continuous_mult (fun y => Rabs (y - a)) (fun _ => / 2)); [ exact A | apply continuous_const ]. }
    apply (continuous_minus (fun y => ((y + a) / 2 + Rabs (y - a) / 2 + b) / 2) (fun y => Rabs ((y + a) / 2 + Rabs (y - a) / 2 - b) / 2)).
    + apply (continuous_mult (fun y => (y + a) / 2 + Rabs (y - a) / 2 + b) (fun _ => / 2)); [ | apply continuous_const ].
      apply (continuous_plus _ (fun _ => b)); [ exact B | apply continuous_const ].
    + apply (continuous_mult (fun y => Rabs ((y + a) / 2 + Rabs (y - a) / 2 - b)) (fun _ => / 2)); [ | apply continuous_const ].
      apply (continuous_comp (fun y => (y + a) / 2 + Rabs (y - a) / 2 - b) Rabs); [ | apply continuous_Rabs ].
      apply (continuous_minus _ (fun _ => b)); [ exact B | apply continuous_const ].
Qed.
Lemma clamp_id a b x : a <= x <= b -> Rmin (Rmax x a) b = x.
Proof. intros H. rewrite Rmax_left by lra. apply Rmin_left; lra. Qed.
Lemma clamp_in a b x : a <= b -> a <= Rmin (Rmax x a) b <= b.
Proof. intros H. split; [ apply Rmin_glb; [ apply Rmax_r | assumption ] | apply Rmin_r ]. Qed.

Lemma antiderivative_exists f a b : a <= b -> (forall x, a <= x <= b -> continuous f x) ->
  exists F, (forall x, a <= x <= b -> is_derive F x (f x)) /\ RInt f a b = F b - F a.
Proof.
  intros Hab Hc. set (g := fun x => f (Rmin (Rmax x a) b)).
  assert (Hg : forall x, continuous g x).
  { intros x. apply (continuous_comp (fun x => Rmin (Rmax x a) b) f); [ apply clamp_continuous | apply Hc, clamp_in, Hab ]. }
  assert (HI : forall u v, ex_RInt g u v).
  { intros u v. apply (ex_RInt_continuous (V := R_CompleteNormedModule)). intros; apply Hg. }
  exists (fun x => RInt g a x). split.
  - intros x Hx. replace (f x) with (g x) by (unfold g; now rewrite clamp_id).
    apply (is_derive_RInt (V := R_NormedModule) g (fun x => RInt g a x) a x); [ | apply Hg ].
    exists (mkposreal 1 Rlt_0_1). intros y _. apply (RInt_correct (V := R_CompleteNormedModule)), HI.
  - rewrite (RInt_point (V := R_CompleteNormedModule)). unfold zero; simpl. rewrite Rminus_0_r.
    apply (RInt_ext (V := R_CompleteNormedModule)). intros x Hx. rewrite Rmin_left, Rmax_right in Hx by assumption. unfold g. rewrite clamp_id; [ reflexivity | lra ].
Qed.

Lemma simpson_error f f1 f2 f3 f4 a b M N : a <= b -> Nat.Even N -> (2 <= N)%nat ->
  (forall x, a <= x <= b -> is_derive f x (f1 x) /\ is_derive f1 x (f2 x) /\ is_derive f2 x (f3 x) /\ is_derive f3 x (f4 x) /\ Rabs (f4 x) <= M) ->
  Rabs (simpson f a b N - RInt f a b) <= M * (b - a) ^ 5 / (180 * INR N ^ 4).
Proof.
  intros Hab [k Hk] HN HD.
  destruct (antiderivative_exists f a b Hab) as (F & HF & EI).
  { intros x Hx. apply (ex_derive_continuous f). exists (f1 x). apply HD, Hx. }
  rewrite EI. clear EI. assert (Hk0 : (1 <= k)%nat) by lia.
  assert (HNp : 0 < INR N) by (apply lt_0_INR; lia).
  set (h := (b - a) / INR N). assert (Hh : 0 <= h) by (apply Rmult_le_pos; [ lra | left; now apply Rinv_0_lt_compat ]).
  assert (Enode : forall i, node a b N i = a + INR i * h) by reflexivity.
  assert (Eb : a + INR N * h = b) by (unfold h; field; lra).
  assert (EN2 : (N / 2 = k)%nat) by (rewrite Hk, Nat.mul_comm; apply Nat.div_mul; lia).
  set (P := fun i => F (a + INR (2 * (i + 1)) * h) - F (a + INR (2 * i) * h)).
  set (S_ := fun i => h / 3 * (f (node a b N (2 * i)) + 4 * f (node a b N (2 * i + 1)) + f (node a b N (2 * i + 2)))).
  assert (E1 : F b - F a = Rsum k P).
  { unfold P. rewrite (Rsum_ext k _ (fun i => F (a + INR (2 * S i) * h) - F (a + INR (2 * i) * h))) by (intros i _; now rewrite Nat.add_1_r).
    rewrite (Rsum_telescope k (fun i => F (a + INR (2 * i) * h))). rewrite <- Hk, Eb. change (2 * 0)%nat with 0%nat. simpl INR. rewrite Rmult_0_l, Rplus_0_r. reflexivity. }
  assert (E2 : simpson f a b N = Rsum k S_).
  { unfold simpson, S_. rewrite EN2, Rsum_scal. reflexivity. }
  rewrite E1, E2, <- Rsum_minus. eapply Rle_trans; [ apply Rsum_abs | ].
  apply Rle_trans with (Rsum k (fun _ => M / 90 * h ^ 5)).
  2: { rewrite Rsum_const. apply Req_le. unfold h. rewrite Hk, mult_INR. simpl (INR 2). assert (0 < INR k) by (apply lt_0_INR; lia). field. lra. }
  apply Rsum_le. intros i Hi. rewrite Rabs_minus_sym.
  assert (Hi2 : INR (2 * i) + 2 <= INR N).
  { replace 2 with (INR 2) by reflexivity. rewrite <- plus_INR. apply le_INR. lia. }
  pose proof (pos_INR (2 * i)) as Hi0. set (m := a + (INR (2 * i) + 1) * h).
  assert (HI : forall x, m - h <= x <= m + h -> a <= x <= b) by (intros x; unfold m; intros Hx; split; nra).
  pose proof (panel_error f f1 f2 f3 f4 F m h M Hh
    (fun x Hx => proj1 (HD x (HI x Hx))) (fun x Hx => proj1 (proj2 (HD x (HI x Hx)))) (fun x Hx => proj1 (proj2 (proj2 (HD x (HI x Hx)))))
    (fun x Hx => proj1 (proj2 (proj2 (proj2 (HD x (HI x Hx)))))) (fun x Hx => proj2 (proj2 (proj2 (proj2 (HD x (HI x Hx))))))
    (fun x Hx => HF x (HI x Hx))) as PE.
  unfold P, S_. rewrite !Enode.
  replace (a + INR (2 * (i + 1)) * h) with (m + h).
  2: { unfold m. replace (2 * (i + 1))%nat with (2 * i + 2)%nat by lia. rewrite plus_INR. simpl (INR 2). ring. }
  replace (a + INR (2 * i) * h) with (m - h) by (unfold m; ring).
  replace (a + INR (2 * i + 1) * h) with m by (unfold m; rewrite plus_INR; simpl (INR 1); ring).
  replace (a + INR (2 * i + 2) * h) with (m + h) by (unfold m; rewrite plus_INR; simpl (INR 2); ring).
  exact PE.
Qed.
