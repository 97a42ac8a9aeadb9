(** * A distribution shifted by 0 has no second derivative with respect to the shift *)
From Coquelicot Require Import Coquelicot.
From Verif Require Import Np NpLemmas Core Interp Integrate IntegrateSpec Redshift RedshiftProofs Ad AdSpec AdProofs AdRel AdNuis AdNuisSpec AdNuisNz AdNuisFinal AdNanProofs AdOver JetRules JetSpec JetFinal JetNuisSpec JetNz.
Local Open Scope R_scope.
Local Notation jet f z := (jet_of f 0 z).
Definition jets_at (f : R -> R) : Prop := exists z, jet f z.
Lemma js_ext f g : (forall s, f s = g s) -> jets_at f -> jets_at g. Proof. intros E (z & J). exists z. exact (jet_respects f g z E J). Qed.
Lemma js_loc f g : locally 0 (fun s => f s = g s) -> jets_at f -> jets_at g. Proof. intros E (z & J). exists z. exact (j_loc 0 f g z E J). Qed.
Lemma js_cst x : jets_at (fun _ => x). Proof. exists (cst (num_over num_dual) x). apply (j_cst 0). Qed.
Lemma js_add f g : jets_at f -> jets_at g -> jets_at (fun s => f s + g s). Proof. intros (x & H) (y & K). eexists. exact (j_add 0 f g x y H K). Qed.
Lemma js_sub f g : jets_at f -> jets_at g -> jets_at (fun s => f s - g s). Proof. intros (x & H) (y & K). eexists. exact (j_sub 0 f g x y H K). Qed.
Lemma js_mul f g : jets_at f -> jets_at g -> jets_at (fun s => f s * g s). Proof. intros (x & H) (y & K). eexists. exact (j_mul 0 f g x y H K). Qed.
Lemma js_div f g : g 0 <> 0 -> jets_at f -> jets_at g -> jets_at (fun s => f s / g s). Proof. intros N (x & H) (y & K). eexists. exact (j_div 0 f g x y N H K). Qed.
Lemma js_Rsum n (f : nat -> R -> R) : (forall i, jets_at (f i)) -> jets_at (fun s => Rsum n (fun i => f i s)).
Proof. intros H. induction n as [ | n IH]; [ exact (js_cst 0) | ]. exact (js_add (fun s => Rsum n (fun i => f i s)) (f n) IH (H n)). Qed.

(** ** max(-t, 0)^2 exp(-max(-t, 0)) has a kink in its slope *)
Definition kink (t : R) : R := rpow (Rmax (0 - t) 0) 2 * exp (- rpow (Rmax (0 - t) 0 / 1) 1).
Lemma kink_pos t : 0 <= t -> kink t = 0.
Proof. intros H. unfold kink. rewrite Rmax_right by lra. rewrite rpow_0l by lra. ring. Qed.
Lemma kink_neg t : t < 0 -> kink t = t ^ 2 * exp t.
Proof.
  intros H. unfold kink. rewrite Rmax_left by lra. unfold rpow. destruct (Req_EM_T (0 - t) 0); [ lra | ]. destruct (Req_EM_T ((0 - t) / 1) 0); [ lra | ].
  replace ((0 - t) / 1) with (0 - t) by field. rewrite Rmult_1_l, exp_ln by lra. replace (- (0 - t)) with t by ring. f_equal.
  replace (2 * ln (0 - t)) with (ln (0 - t) + ln (0 - t)) by ring. rewrite exp_plus, exp_ln by lra. ring.
Qed.
Lemma near s : s <> 0 -> locally s (fun u => (s < 0 -> u < 0) /\ (0 < s -> 0 < u)).
Proof.
  intros H. destruct (Rtotal_order s 0) as [L | [L | L]]; [ | easy | ].
  - generalize (open_lt 0 s L). apply filter_imp. intros u Hu. split; [ easy | lra ].
  - generalize (open_gt 0 s L). apply filter_imp. intros u Hu. split; [ lra | easy ].
Qed.
Lemma kink_no_jet : ~ jets_at kink.
Proof.
  intros (z & k' & L & _ & [_ D2]). assert (L0 := locally_singleton _ _ L). cbv beta in L0. destruct L as [e L]. set (l := snd (snd z)) in *.
  assert (VP : forall s, 0 < s < e -> k' s = 0).
  { intros s Hs. assert (Bs : ball 0 e s) by (apply Rabs_def1; unfold minus, plus, opp; simpl; lra). specialize (L s Bs). rewrite <- (is_derive_unique _ _ _ L). apply is_derive_unique.
    apply (is_derive_ext_loc (fun _ => 0)); [ | apply (is_derive_const (V := R_NormedModule)) ]. generalize (near s ltac:(lra)). apply filter_imp. intros u [_ Hu]. symmetry. apply kink_pos. specialize (Hu (proj1 Hs)). lra. }
  assert (VN : forall s, - e < s < 0 -> k' s = (2 * s + s ^ 2) * exp s).
  { intros s Hs. assert (Bs : ball 0 e s) by (apply Rabs_def1; unfold minus, plus, opp; simpl; lra). specialize (L s Bs). rewrite <- (is_derive_unique _ _ _ L). apply is_derive_unique.
    apply (is_derive_ext_loc (fun u => u ^ 2 * exp u)); [ | auto_derive; [ exact I | ring ]]. generalize (near s ltac:(lra)). apply filter_imp. intros u [Hu _]. symmetry. apply kink_neg, Hu, Hs. }
  assert (V0 : k' 0 = 0).
  { destruct (Req_dec (k' 0) 0) as [E | NE]; [ exact E | exfalso ]. apply is_derive_Reals in L0. destruct (L0 (Rabs (k' 0)) (Rabs_pos_lt _ NE)) as [dl Hd]. assert (Pd := cond_pos dl).
    specialize (Hd (dl / 2) ltac:(lra)). rewrite Rabs_right in Hd by lra. specialize (Hd ltac:(lra)). rewrite Rplus_0_l, !kink_pos in Hd by lra. unfold Rdiv in Hd. rewrite Rminus_0_r, Rmult_0_l, Rminus_0_l, Rabs_Ropp in Hd. lra. }
  apply is_derive_Reals in D2. destruct (D2 (1 / 4) ltac:(lra)) as [dl Hd]. assert (Pd := cond_pos dl). assert (Pe := cond_pos e).
  set (h := Rmin (1 / 10) (Rmin dl e / 2)). assert (H0 : 0 < Rmin dl e) by (now apply Rmin_pos). assert (H1 : 0 < h) by (unfold h; apply Rmin_glb_lt; lra).
  assert (H2 : h <= 1 / 10) by apply Rmin_l. assert (H3 : h <= Rmin dl e / 2) by apply Rmin_r. assert (H4 := Rmin_l dl e). assert (H5 := Rmin_r dl e).
  assert (A := Hd h ltac:(lra)). rewrite Rabs_right in A by lra. specialize (A ltac:(lra)). rewrite Rplus_0_l, V0, VP in A by lra.
  assert (B := Hd (- h) ltac:(lra)). rewrite Rabs_left in B by lra. specialize (B ltac:(lra)). rewrite Rplus_0_l, V0, VN in B by lra.
  replace (((2 * - h + (- h) ^ 2) * exp (- h) - 0) / - h - l) with ((2 - h) * exp (- h) - l) in B by (field; lra).
  replace ((0 - 0) / h - l) with (- l) in A by (field; lra). apply Rabs_def2 in A. apply Rabs_def2 in B.
  assert (X : 1 + - h <= exp (- h)) by (apply exp_ineq1_le). nra.
Qed.

(** ** the normalised distribution *)
Definition shifted_by (t zm : R) : nz := nz_new (Shift (nz_new (Smail 2 1 1) 1 zm) t) 1 zm.
Definition shifted (s zm : R) : gnz dual := GNz (GShift (GNz (GSmail (2, 0) (1, 0) (1, 0)) (1, 0) zm) (s, 1)) (1, 0) zm.
Lemma shifted_at s t zm : read_nz (at_time t) (shifted s zm) = shifted_by (s + t) zm.
Proof. unfold shifted, shifted_by, at_time. cbn [read_nz read_fam fst snd]. now rewrite !Rmult_0_r, !Rplus_0_r, Rmult_1_r. Qed.
Lemma shifted_fst s zm : read_nz fst (shifted s zm) = shifted_by s zm. Proof. reflexivity. Qed.
Lemma shifted_fn t zm x : pz_fn (shifted_by t zm) x = rpow (Rmax (x - t) 0) 2 * exp (- rpow (Rmax (x - t) 0 / 1) 1). Proof. reflexivity. Qed.
Lemma shifted_nonneg t zm x : 0 <= pz_fn (shifted_by t zm) x. Proof. rewrite shifted_fn. apply Rmult_le_pos; [ apply rpow_nonneg | left; apply exp_pos ]. Qed.
Lemma shifted_pos t zm x : t < x -> 0 < pz_fn (shifted_by t zm) x.
Proof. intros H. rewrite shifted_fn. rewrite Rmax_left by lra. apply Rmult_lt_0_compat; [ unfold rpow; destruct (Req_EM_T (x - t) 0); [ lra | apply exp_pos ] | apply exp_pos ]. Qed.
Lemma shifted_norm t zm : 0 < zm -> t < zm -> simpson (pz_fn (shifted_by t zm)) 0 zm 256 <> 0.
Proof. intros HZ HT. apply (simpson_pos _ zm 127); [ exact HZ | apply shifted_nonneg | now apply shifted_pos ]. Qed.
Lemma shifted_pz t zm q : pz (shifted_by t zm) q = pz_fn (shifted_by t zm) q / simpson (pz_fn (shifted_by t zm)) 0 zm 256.
Proof. change zm with (nz_zmax (shifted_by t zm)) at 4. rewrite <- (nz_norm_simpson (shifted_by t zm)). reflexivity. Qed.
Lemma shifted_smooth t zm : 0 < zm -> t < zm -> smooth_norm (shifted_by t zm) /\ forall x, smooth_nz (shifted_by t zm) x.
Proof.
  intros HZ HT. assert (SM : forall x, smooth_nz (shifted_by t zm) x) by (intros x; split; [ right; unfold steep; cbn; lra | cbn; lra ]).
  split; [ split; [ intros i _; apply SM | now apply shifted_norm ] | exact SM ].
Qed.
Lemma shifted_differentiable zm q : 0 < zm -> 0 <= q -> forall s, s < zm -> ex_derive (fun t => pz (shifted_by t zm) q) s.
Proof.
  intros HZ Hq s Hs. destruct (shifted_smooth s zm HZ Hs) as [S1 S2].
  assert (T := nuisance_redshift (shifted s zm) q ltac:(cbn; lra) S1 Hq (S2 q)). destruct T as [_ T].
  exists (snd (hpz num_dual (shifted s zm) q)). 
  apply (is_derive_ext (fun t => pz (read_nz (at_time (t - s)) (shifted s zm)) q)); [ intros t; rewrite shifted_at; do 2 f_equal; ring | ].
  revert T. generalize (snd (hpz num_dual (shifted s zm) q)). intros l T.
  assert (TD : is_derive (fun u => pz (read_nz (at_time u) (shifted s zm)) q) (s - s) l) by (replace (s - s) with 0 by ring; exact T).
  assert (D1 : is_derive (fun t => t - s) s 1) by (auto_derive; [ exact I | ring ]).
  assert (C := is_derive_comp _ (fun t => t - s) s l 1 TD D1). change (scal 1 l) with (1 * l) in C. rewrite Rmult_1_l in C. exact C.
Qed.
Lemma first_only n (a b : nat -> R) : (forall i, (1 <= i)%nat -> a i = b i) -> Rsum (S n) a = Rsum (S n) b + (a 0%nat - b 0%nat).
Proof. intros H. induction n as [ | n IH]; [ cbn [Rsum]; ring | ]. change (Rsum (S n) a + a (S n) = Rsum (S n) b + b (S n) + (a 0%nat - b 0%nat)). rewrite IH, (H (S n)) by lia. ring. Qed.
Lemma shifted_kinks zm q : 0 < zm -> 0 < q -> ~ jets_at (fun t => pz (shifted_by t zm) q).
Proof.
  intros HZ Hq HJ. apply kink_no_jet.
  assert (JA : forall x, 0 < x -> jets_at (fun t => pz_fn (shifted_by t zm) x)).
  { intros x Hx. exists (hpz_fn (num_over num_dual) (twice_nz (shifted 0 zm)) (cst (num_over num_dual) x)). apply (jet_respects (fun t => pz_fn (read_nz (at_time t) (shifted 0 zm)) x)); [ intros t; rewrite shifted_at; now rewrite Rplus_0_l | ].
    apply j_pz_fn; [ lra | ]. rewrite shifted_fst. cbn. split; lra. }
  set (v := fun i t => if Nat.eqb i 0 then 0 else pz_fn (shifted_by t zm) (node 0 zm 256 i)).
  assert (P256 : INR 256 = 256) by (rewrite INR_IZR_INZ; reflexivity).
  assert (JV : forall i, jets_at (v i)).
  { intros i. unfold v. destruct (Nat.eqb i 0) eqn:E; [ apply js_cst | ]. apply Nat.eqb_neq in E. apply JA. unfold node. rewrite P256. assert (0 < INR i) by (apply lt_0_INR; lia).
    apply Rplus_le_lt_0_compat; [ lra | ]. apply Rmult_lt_0_compat; [ assumption | lra ]. }
  set (h := (zm - 0) / INR 256 / 3). assert (Hh : 0 < h) by (unfold h; rewrite P256; lra).
  set (W := fun t => h * Rsum 128 (fun i => v (2 * i)%nat t + 4 * v (2 * i + 1)%nat t + v (2 * i + 2)%nat t)).
  assert (JW : jets_at W).
  { apply js_mul; [ apply js_cst | ]. apply (js_Rsum 128 (fun i t => v (2 * i)%nat t + 4 * v (2 * i + 1)%nat t + v (2 * i + 2)%nat t)). intros i. apply js_add; [ apply js_add | ]; [ apply JV | apply js_mul; [ apply js_cst | apply JV ] | apply JV ]. }
  set (Nm := fun t => simpson (pz_fn (shifted_by t zm)) 0 zm 256).
  assert (EN : forall t, Nm t = W t + h * kink t).
  { intros t. unfold Nm, W, simpson. fold h. change (256 / 2)%nat with 128%nat. rewrite <- Rmult_plus_distr_l. f_equal.
    rewrite (first_only 127 _ (fun i => v (2 * i)%nat t + 4 * v (2 * i + 1)%nat t + v (2 * i + 2)%nat t)).
    - f_equal. unfold v. cbn [Nat.mul Nat.add Nat.eqb]. assert (E0 : node 0 zm 256 0 = 0) by (unfold node; cbn [INR]; ring). rewrite E0. unfold kink. rewrite (shifted_fn t zm 0). ring.
    - intros i Hi. unfold v. replace (Nat.eqb (2 * i) 0) with false by (symmetry; apply Nat.eqb_neq; lia). replace (Nat.eqb (2 * i + 1) 0) with false by (symmetry; apply Nat.eqb_neq; lia). now replace (Nat.eqb (2 * i + 2) 0) with false by (symmetry; apply Nat.eqb_neq; lia). }
  assert (N0 : forall t, t < zm -> Nm t <> 0) by (intros t Ht; now apply shifted_norm).
  assert (A0 : forall t, t < q -> pz_fn (shifted_by t zm) q <> 0) by (intros t Ht; apply Rgt_not_eq; now apply shifted_pos).
  assert (JN : jets_at Nm).
  { apply (js_loc (fun t => pz_fn (shifted_by t zm) q / pz (shifted_by t zm) q)).
    - assert (L1 := open_lt zm 0 HZ). assert (L2 := open_lt q 0 Hq). generalize (filter_and _ _ L1 L2). apply filter_imp. intros t [T1 T2]. rewrite shifted_pz. fold (Nm t). assert (X := N0 t T1). assert (Y := A0 t T2). field. now split.
    - apply js_div; [ | now apply JA | exact HJ ]. rewrite shifted_pz. fold (Nm 0). assert (X := N0 0 HZ). assert (Y := A0 0 Hq). unfold Rdiv. apply Rmult_integral_contrapositive_currified; [ exact Y | now apply Rinv_neq_0_compat ]. }
  apply (js_ext (fun t => (Nm t - W t) / h)); [ intros t; rewrite EN; field; lra | ]. apply (js_div (fun t => Nm t - W t) (fun _ => h)); [ lra | now apply js_sub | apply js_cst ].
Qed.
Lemma shift_zero zm q : 0 < zm -> 0 < q -> let f := fun t => pz (shifted_by t zm) q in locally 0 (fun s => ex_derive f s) /\ forall l, ~ is_derive (Derive f) 0 l.
Proof.
  intros HZ Hq f. assert (L : locally 0 (fun s => ex_derive f s)).
  { generalize (open_lt zm 0 HZ). apply filter_imp. intros s Hs. apply shifted_differentiable; lra. }
  split; [ exact L | ]. intros l D2. apply (shifted_kinks zm q HZ Hq). exists ((f 0, Derive f 0), (Derive f 0, l)). apply bends_jet.
  refine (conj eq_refl (conj L (conj _ (conj eq_refl D2)))). apply Derive_correct. exact (locally_singleton _ _ L).
Qed.
Lemma shift_second_refuted : exists (d : gnz dual) q, 0 <= gnz_zmax d /\ smooth_norm (read_nz fst d) /\ 0 <= q /\ smooth_nz (read_nz fst d) q /\
  let f := fun t => pz (read_nz (at_time t) d) q in locally 0 (fun s => ex_derive f s) /\ (forall l, ~ is_derive (Derive f) 0 l) /\ ~ bends f (hpz (num_over num_dual) (twice_nz d) q).
Proof.
  exists (shifted 0 2), (1 / 2). destruct (shifted_smooth 0 2 ltac:(lra) ltac:(lra)) as [S1 S2]. split; [ cbn; lra | ]. split; [ exact S1 | ]. split; [ lra | ]. split; [ apply S2 | ].
  destruct (shift_zero 2 (1 / 2) ltac:(lra) ltac:(lra)) as [F1 F2]. intros f.
  assert (EF : forall t, f t = pz (shifted_by t 2) (1 / 2)) by (intros t; unfold f; rewrite shifted_at; now rewrite Rplus_0_l).
  assert (K : forall l, ~ is_derive (Derive f) 0 l).
  { intros l Hl. apply (F2 l). apply (is_derive_ext (Derive f)); [ intros t; apply Derive_ext; exact EF | exact Hl ]. }
  split; [ | split; [ exact K | ]].
  - generalize F1. apply filter_imp. intros s. apply ex_derive_ext. intros t. symmetry. apply EF.
  - intros (_ & _ & _ & _ & B). exact (K _ B).
Qed.
