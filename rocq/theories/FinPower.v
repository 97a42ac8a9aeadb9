(** * Distances, growth today, variances and the linear spectrum over numbers with infinities and NaN *)
From Coquelicot Require Import Coquelicot.
From Verif Require Import FinRules FinBg FinGrowth FinTransfer.
From Verif Require Import Np NpLemmas Core Ode OdeSpec OdeProofs Interp InterpProofs InterpCont Integrate IntegrateSpec RombProofs Background BgSpec BgAlgebra BgTables
  BgGrowth BgPositive BgProofs BgFinal BgFinal2 BgFinal4 BgGrad Transfer TransferProofs TransferMono Power PowerProofs ExPower Redshift RedshiftProofs Bias Probes AngularCl GradSpec
  Ad AdSpec AdProofs AdBg AdGrowth AdFinal AdPower AdPowerProofs AdTransfer AdPowerFinal AdProbes AdRel AdProbesProofs AdArrSpec AdProbesFinal.
Opaque chi_table growth_table_ODE growth_table_gamma logspace.

(** ** Romberg integration, for any relation that the arithmetic respects *)
Section Romb.
Context {A : Type} (N : num A) (rel : (R -> R) -> A -> Prop).
Hypotheses (r_resp : respects rel) (r_cst : forall x, rel (fun _ => x) (cst N x))
  (r_add : forall f h x y, rel f x -> rel h y -> rel (fun s => f s + h s) (nadd N x y)) (r_sub : forall f h x y, rel f x -> rel h y -> rel (fun s => f s - h s) (nsub N x y))
  (r_mul : forall f h x y, rel f x -> rel h y -> rel (fun s => f s * h s) (nmul N x y))
  (r_div : forall f h x y, h 0 <> 0 -> rel f x -> rel h y -> rel (fun s => f s / h s) (ndiv N x y)).
Lemma four_pow k : 4 ^ (k + 1) - 1 <> 0.
Proof. assert (1 <= 4 ^ k) by (apply pow_R1_Rle; lra). rewrite pow_add. lra. Qed.
Lemma r_diff b c x y k : rel b x -> rel c y -> rel (fun s => romberg_diff (b s) (c s) (k + 1)) (gromberg_diff N x y (k + 1)).
Proof.
  intros Hb Hc. unfold romberg_diff, gromberg_diff. apply (r_div _ (fun _ => 4 ^ (k + 1) - 1)); [ apply four_pow | | apply r_cst ].
  apply r_sub; [ apply (r_mul (fun _ => 4 ^ (k + 1))); [ apply r_cst | exact Hc ] | exact Hb ].
Qed.
Lemma r_scan F l : lr rel F l -> forall x y k, rel x y -> lr rel (fun s => snd (scan romb_scan (x s, k) (F s))) (snd (scan (gromb_scan N) (y, k) l)).
Proof.
  induction 1 as [f E | f x0 fx y0 l E H HL IH]; intros x y k Hx.
  - apply (lr_respects rel (fun _ => [])); [ intros s; now rewrite E | now constructor ].
  - cbn [scan gromb_scan]. specialize (IH _ _ (k + 1)%nat (r_diff _ _ _ _ k H Hx)).
    destruct (scan (gromb_scan N) (gromberg_diff N y0 y (k + 1), (k + 1)%nat) l) as [st r] eqn:E1. cbn [snd] in *.
    apply (lr_cons rel _ (fun s => romberg_diff (x0 s) (x s) (k + 1)) (fun s => snd (scan romb_scan (romberg_diff (x0 s) (x s) (k + 1), (k + 1)%nat) (fx s)))); [ | now apply r_diff | exact IH ].
    intros s. rewrite E. cbn [scan romb_scan]. destruct (scan romb_scan _ (fx s)). reflexivity.
Qed.
Lemma r_trapn f gf a b n : (forall x, rel (fun s => f s x) (gf x)) -> rel (fun s => difftrapn (f s) a b n) (gdifftrapn N gf a b n).
Proof.
  intros HF. unfold difftrapn, gdifftrapn. cbv zeta. apply (f_vsum N rel r_resp r_cst r_add). now apply lr_mapc.
Qed.
Lemma r_loop f gf a b : (forall x, rel (fun s => f s x) (gf x)) -> forall fuel i o od st std, rel o od -> lr rel st std ->
  (forall s, fst (gromb_loop num_R (f s) a b fuel i (o s) (st s)) = fst (gromb_loop N gf a b fuel i od std)) /\
  lr rel (fun s => snd (gromb_loop num_R (f s) a b fuel i (o s) (st s))) (snd (gromb_loop N gf a b fuel i od std)).
Proof.
  intros HF. induction fuel as [ | n IH]; intros i o od st std Ho Hs; [ split; [ reflexivity | exact Hs ] | ]. cbn [gromb_loop]. cbv zeta.
  assert (H1 : rel (fun s => o s + difftrapn (f s) a b (2 ^ i)) (nadd N od (gdifftrapn N gf a b (2 ^ i)))) by (apply r_add; [ exact Ho | now apply r_trapn ]).
  assert (P2 : INR (2 ^ i) <> 0) by (apply not_0_INR; pose proof (Nat.pow_nonzero 2 i); lia).
  assert (H2 : rel (fun s => (b - a) * (o s + difftrapn (f s) a b (2 ^ i)) / INR (2 ^ i)) (ndiv N (nmul N (cst N (b - a)) (nadd N od (gdifftrapn N gf a b (2 ^ i)))) (cst N (INR (2 ^ i))))).
  { apply (r_div _ (fun _ => INR (2 ^ i))); [ exact P2 | apply (r_mul (fun _ => b - a)); [ apply r_cst | exact H1 ] | apply r_cst ]. }
  apply (IH _ (fun s => o s + difftrapn (f s) a b (2 ^ i)) _ (fun s => romb_row ((b - a) * (o s + difftrapn (f s) a b (2 ^ i)) / INR (2 ^ i)) (st s))); [ exact H1 | ].
  unfold romb_row, gromb_row. eapply lr_cons; [ intros s; reflexivity | exact H2 | ]. apply r_scan; [ now apply lr_removelast | exact H2 ].
Qed.
Lemma r_romb f gf a b n : (forall x, rel (fun s => f s x) (gf x)) -> rel (fun s => Power.romb_value (f s) a b (Datatypes.S n)) (gromb N gf a b (Datatypes.S n)).
Proof.
  intros HF. apply (r_resp (fun s => gromb num_R (f s) a b (Datatypes.S n))); [ intros s; apply R_romb | ]. unfold gromb.
  assert (HO : rel (fun s => difftrap1 (f s) a b) (gdifftrap1 N gf a b)) by (unfold difftrap1, gdifftrap1; apply (r_mul (fun _ => 0.5)); [ apply r_cst | now apply r_add ]).
  assert (HS : lr rel (fun s => repeat ((b - a) * difftrap1 (f s) a b) (Datatypes.S n + 1)) (repeat (nmul N (cst N (b - a)) (gdifftrap1 N gf a b)) (Datatypes.S n + 1))).
  { apply (lr_repeat rel (fun s => (b - a) * difftrap1 (f s) a b)). apply (r_mul (fun _ => b - a)); [ apply r_cst | exact HO ]. }
  destruct (r_loop f gf a b HF (Datatypes.S n) 1 _ _ _ _ HO HS) as [H1 H2].
  destruct (gromb_loop N gf a b (Datatypes.S n) 1 (gdifftrap1 N gf a b) (repeat (nmul N (cst N (b - a)) (gdifftrap1 N gf a b)) (Datatypes.S n + 1))) as [i st]. cbn [fst snd] in *.
  apply (r_resp (fun s => nth i (snd (gromb_loop num_R (f s) a b (Datatypes.S n) 1 (difftrap1 (f s) a b) (repeat ((b - a) * difftrap1 (f s) a b) (Datatypes.S n + 1)))) 0)).
  - intros s. specialize (H1 s). change (gdifftrap1 num_R (f s) a b) with (difftrap1 (f s) a b). change (nmul num_R (cst num_R (b - a)) (difftrap1 (f s) a b)) with ((b - a) * difftrap1 (f s) a b).
    destruct (gromb_loop num_R (f s) a b _ 1 _ _) as [j q]. cbn [fst snd] in *. now rewrite H1.
  - now apply (lr_nth rel _ _ 0 (cst N 0)).
Qed.
End Romb.
Section Floats.
Context {Nm : Type} {N : num Nm} {FLN : follows N}.
Lemma fin_respects t : respects (fun f x => fin_of f t x). Proof. intros f h y E. now apply ft_ext. Qed.
Lemma ft_romb f gf a b n : (forall x, fin_of (fun s => f s x) 0 (gf x)) -> fin_of (fun s => Power.romb_value (f s) a b (Datatypes.S n)) 0 (gromb N gf a b (Datatypes.S n)).
Proof. apply (r_romb N (fun f x => fin_of f 0 x) (fin_respects 0) (ft_cst 0) (ft_add 0) (ft_sub 0) (ft_mul 0) (ft_div 0)). Qed.

(** ** leaves *)
Section Leaves.
Variables (C : R -> cosmology) (g : gcosmo Nm).
Hypotheses (M : fin_moves C 0 g) (B : forall s, built (C s)).
Local Notation c := (C 0).
Hypothesis (HE : expanding c).
Local Notation "' x" := (cst N x%R) (at level 1, format "' x").
Lemma still_query a n : query_ok 0 (fun _ => a) (logspace (-3) 0.0 n). Proof. left. reflexivity. Qed.
Lemma fleaf_chi_at a ad : fin_of (fun _ => a) 0 ad -> 0 < a <= 1 -> fin_of (fun s => chi (C s) a) 0 (gchi N g ad).
Proof.
  intros Ta [Pa [L | ->]].
  - apply (fm_chi C 0 g M HE (fun _ => a) ad Ta (still_query a 256)).
    assert (Q := chi_strict c a 1 (B 0) HE ltac:(lra)). rewrite chi_one_any in Q by (apply built_fresh, B). lra.
  - assert (TR := fm_chi_raw C 0 g M HE (fun _ => 1) ad Ta (still_query 1 256)). rewrite FinBg.gchi_raw.
    refine (ft_ext 0 (fun _ => 0) _ _ _ (ft_max_same 0 (fun _ => 0) _ _ (ft_ext 0 _ _ _ _ TR) _)).
    + intros s. symmetry. apply chi_one_any, built_fresh, B.
    + intros s. cbv beta. assert (LX : length (logspace (-3) 0.0 256) = 256%nat) by apply length_logspace. assert (Hx := node_lt 256 254 ltac:(lia) ltac:(lia)).
      assert (C255 : el (snd (chi_table (C s) (-3) 256)) 255 = 0) by (rewrite chi_table_el by lia; change (256 - 1)%nat with 255%nat; lra).
      rewrite interp1_above; rewrite ?LX; [ | lia | apply chi_table_length | apply logspace_incr; [ lra | lia ] | change (256 - 2)%nat with 254%nat; rewrite logspace_el, anode_table by lia; lra ].
      change (256 - 2)%nat with 254%nat. unfold cell, line. change (254 + 1)%nat with 255%nat. rewrite !logspace_el by lia. change (anode (-3) 256 255) with (anode (-3) 256 (256 - 1)). rewrite anode_last, anode_table by lia.
      rewrite C255. field. lra.
    + apply (ft_ext 0 (fun _ => 0.0)); [ intros; lra | apply ft_cst ].
Qed.
Lemma fleaf_chi a : 0 < a <= 1 -> fin_of (fun s => chi (C s) a) 0 (gchi N g 'a).
Proof. apply fleaf_chi_at, ft_cst. Qed.
Lemma fleaf_clip a : 0 < a <= 1 -> chi c a <> 1 -> fin_of (fun s => clip_lo (chi (C s) a) 1.0) 0 (gclip_lo N (gchi N g 'a) 1.0).
Proof. intros Ha NE. apply (ft_max 0 (fun s => chi (C s) a) (fun _ => 1.0)); [ lra | now apply fleaf_chi | apply ft_cst ]. Qed.
Lemma fleaf_clip2 a : 0 < a <= 1 -> chi c a <> 1 -> fin_of (fun s => clip_lo (chi (C s) a ^ 2) 1.0) 0 (gclip_lo N (nipow N (gchi N g 'a) 2) 1.0).
Proof.
  intros Ha NE. apply (ft_max 0 (fun s => chi (C s) a ^ 2) (fun _ => 1.0)); [ | exact (ft_ipow 0 2 _ _ (or_intror eq_refl) (fleaf_chi a Ha)) | apply ft_cst ].
  assert (P : 0 <= chi c a) by (apply distance_properties; [ apply fresh_reachable, built_fresh, B | exact HE ]). intros E. assert (X : (chi c a - 1) * (chi c a + 1) = 0) by lra.
  apply Rmult_integral in X. lra.
Qed.
Lemma fleaf_dif_at b a ad : fin_of (fun _ => a) 0 ad -> 0 < b <= 1 -> 0 < a <= 1 ->
  fin_of (fun s => clip_lo (chi (C s) a - chi (C s) b) 0) 0 (gclip_lo N (nsub N (gchi N g ad) (gchi N g 'b)) 0).
Proof.
  intros Ta Hb Ha. assert (TD := ft_sub 0 _ _ _ _ (fleaf_chi_at a ad Ta Ha) (fleaf_chi b Hb)). destruct (Req_dec a b) as [E | NE].
  - subst b. refine (ft_ext 0 (fun _ => 0) _ _ _ (ft_max_same 0 (fun _ => 0) _ _ (ft_ext 0 _ _ _ _ TD) (ft_cst 0 0))); intros s; cbv beta; unfold clip_lo; rewrite ?Rminus_diag_eq by reflexivity; [ rewrite Rmax_left; lra | reflexivity ].
  - apply (ft_max 0 (fun s => chi (C s) a - chi (C s) b) (fun _ => 0)); [ | exact TD | apply ft_cst ].
    destruct (Rtotal_order a b) as [L | [L | L]]; [ | easy | ]; [ pose proof (chi_strict c a b (B 0) HE ltac:(lra)) | pose proof (chi_strict c b a (B 0) HE ltac:(lra)) ]; lra.
Qed.
Lemma fleaf_dif b a : 0 < b <= 1 -> 0 < a <= 1 -> fin_of (fun s => clip_lo (chi (C s) a - chi (C s) b) 0) 0 (gclip_lo N (nsub N (gchi N g 'a) (gchi N g 'b)) 0).
Proof. apply fleaf_dif_at, ft_cst. Qed.
Lemma fleaf_H a : 0 < a -> fin_of (fun s => H (C s) a) 0 (gH N g 'a).
Proof. intros Pa. apply (fm_H C 0 g M (fun _ => a) 'a (ft_cst 0 a) Pa (HE a Pa)). Qed.
Lemma fleaf_dchi a : 0 < a -> fin_of (fun s => dchioverda (C s) a) 0 (gdchioverda N g 'a).
Proof. intros Pa. apply (fm_dchioverda C 0 g M (fun _ => a) 'a (ft_cst 0 a) Pa (HE a Pa)). Qed.
(** *** growth *)
Hypothesis (HGr : growing c).
Lemma fgrowth_ok : growth_ok c. Proof. exact HGr. Qed.
Lemma fleaf_D_inside a : 0 < D c a < 1 -> fin_of (fun s => D (C s) a) 0 (gD N g 'a).
Proof. intros HD. exact (fm_D C 0 g M HE (fun _ => a) 'a (ft_cst 0 a) (still_query a 128) fgrowth_ok HD). Qed.
Lemma fleaf_D_today : fin_of (fun s => D (C s) 1) 0 (gD N g '1).
Proof.
  destruct (fm_gtab C 0 g M HE fgrowth_ok) as (gt & MG & LG & EG). rewrite EG.
  assert (Hx := node_lt 128 126 ltac:(lia) ltac:(lia)).
  assert (TI := ft_interp 0 (fun _ => 1) '1 atab128 (fun s => gtab_of (C s)) gt ltac:(rewrite length_logspace; lia) atab128_incr ltac:(now rewrite LG, length_logspace) (still_query 1 128) (ft_cst 0 1) MG).
  assert (M127 := proj2 MG 127%nat ltac:(lia)).
  assert (ER : forall s, interp1 1 atab128 (gtab_of (C s)) = el (gtab_of (C s)) 127).
  { intros s. assert (LX : length atab128 = 128%nat) by apply length_logspace.
    rewrite interp1_above; rewrite ?LX; [ | lia | apply gtab_length | apply atab128_incr | change (128 - 2)%nat with 126%nat; rewrite logspace_el, anode_table by lia; lra ].
    change (128 - 2)%nat with 126%nat. unfold cell, line. change (126 + 1)%nat with 127%nat. rewrite !logspace_el by lia. change (anode (-3) 128 127) with (anode (-3) 128 (128 - 1)). rewrite anode_last, anode_table by lia. field. lra. }
  assert (NZ : growth_nonzero c) by (now apply growing_nonzero).
  assert (ZL : locally 0 (fun s => el (gtab_of (C s)) 127 = 1)).
  { apply (filter_imp (fun s => 0 < el (gtab_of (C s)) 127)); [ | apply (ft_gt 0 _ _ 0 M127); rewrite gtab_last by exact NZ; lra ].
    intros s Hs. apply gtab_last. intros F E0'. unfold gtab_of in Hs. rewrite F in Hs.
    destruct (ODE_table_el (C s) (-3) 128 ltac:(lia)) as (_ & _ & _ & G & _). rewrite G in Hs by lia. change (128 - 1)%nat with 127%nat in Hs.
    rewrite E0' in Hs. unfold Rdiv in Hs. rewrite Rmult_0_l in Hs. lra. }
  assert (T1 : fin_of (fun _ => 1) 0 (ginterp1 N '1 (map (cst N) atab128) gt)).
  { apply (ft_loc 0 (fun s => interp1 1 atab128 (gtab_of (C s)))); [ | exact TI ]. apply (filter_imp (fun s => el (gtab_of (C s)) 127 = 1)); [ intros s E; now rewrite ER | exact ZL ]. }
  unfold gclip01. apply (ft_loc 0 (fun _ => 1)).
  - apply (filter_imp (fun s => el (gtab_of (C s)) 127 = 1)); [ | exact ZL ]. intros s E. rewrite (D_value (C s)) by (apply inv_fresh, built_fresh, B). unfold D_of. rewrite ER, E. unfold clip. rewrite Rmax_left, Rmin_left; lra.
  - apply ft_min_same; [ | apply (ft_ext 0 (fun _ => 1.0)); [ intros; lra | apply ft_cst ]].
    apply (ft_ext 0 (fun _ => Rmax 1 0.0)); [ intros; apply Rmax_left; lra | ]. apply (ft_max 0 (fun _ => 1) (fun _ => 0.0)); [ lra | exact T1 | apply ft_cst ].
Qed.
End Leaves.

Definition ftransfer (T : transfer) (GT : gcosmo Nm -> Nm -> Nm) (C : R -> cosmology) (g : gcosmo Nm) : Prop :=
  forall k kd, fin_of k 0 kd -> 0 < k 0 -> fin_of (fun s => T (C s) (k s)) 0 (GT g kd).
(** ** sigma and the power spectrum *)
Section Spectrum.
Variables (C : R -> cosmology) (g : gcosmo Nm) (T : transfer) (GT : gcosmo Nm -> Nm -> Nm).
Hypotheses (M : fin_moves C 0 g) (B : forall s, built (C s)) (HT : ftransfer T GT C g).
Local Notation c := (C 0).
Lemma fprimordial k kd : fin_of k 0 kd -> 0 < k 0 -> fin_of (fun s => primordial_matter_power (C s) (k s)) 0 (gprimordial N g kd).
Proof. intros Tk Pk. exact (ft_pow 0 _ _ _ _ Pk Tk (fm_n_s _ _ _ M)). Qed.
Lemma fint_sigma Rr x : 0 < Rr -> fin_of (fun s => int_sigma (C s) Rr T x) 0 (gint_sigma N g Rr GT x).
Proof.
  intros PR. pose proof (exp_pos x) as PE. unfold int_sigma, gint_sigma. cbv zeta.
  assert (TK := ft_exp 0 _ _ (ft_cst 0 x)). assert (TT := HT _ _ TK PE).
  assert (TP := fprimordial (fun _ => exp x) _ TK PE). assert (TX := ft_mul 0 _ _ _ _ TK (ft_cst 0 Rr)).
  assert (PX : 0 < exp x * Rr) by (now apply Rmult_lt_0_compat).
  assert (NX : exp x * Rr * (exp x * Rr) * (exp x * Rr) <> 0) by (apply Rgt_not_eq; repeat apply Rmult_lt_0_compat; assumption).
  assert (TW := ft_div 0 _ _ _ _ NX (ft_mul 0 _ _ _ _ (ft_cst 0 3.0) (ft_sub 0 _ _ _ _ (ft_sin 0 _ _ TX) (ft_mul 0 _ _ _ _ TX (ft_cos 0 _ _ TX)))) (ft_mul 0 _ _ _ _ (ft_mul 0 _ _ _ _ TX TX) TX)).
  exact (ft_mul 0 _ _ _ _ (ft_mul 0 _ _ _ _ TK (ft_sq 0 _ _ (ft_mul 0 _ _ _ _ TK TW))) (ft_mul 0 _ _ _ _ (ft_sq 0 _ _ TT) TP)).
Qed.
Lemma fsigmasqr Rr kmin kmax : 0 < Rr -> fin_of (fun s => sigmasqr (C s) Rr T kmin kmax) 0 (gsigmasqr N g Rr GT kmin kmax).
Proof. intros PR. unfold sigmasqr, gsigmasqr. apply ft_mul; [ apply ft_cst | ]. apply (ft_romb (fun s => int_sigma (C s) Rr T)). intros x. now apply fint_sigma. Qed.
Hypothesis (NS : sigmasqr_default c 8.0 T <> 0).
Lemma flinear k kd a ad : fin_of k 0 kd -> 0 < k 0 -> fin_of (fun s => D (C s) (a s)) 0 (gD N g ad) ->
  fin_of (fun s => linear_matter_power (C s) (k s) (a s) T) 0 (glinear_matter_power N g kd ad GT).
Proof.
  intros Tk Pk TG. assert (TT := HT _ _ Tk Pk). assert (TP := fprimordial _ _ Tk Pk).
  assert (TS := fsigmasqr 8.0 0.0001 1000.0 ltac:(lra)). unfold linear_matter_power, glinear_matter_power. cbv zeta.
  apply ft_mul; [ exact (ft_mul 0 _ _ _ _ (ft_mul 0 _ _ _ _ TP (ft_sq 0 _ _ TT)) (ft_sq 0 _ _ TG)) | ].
  apply ft_div; [ exact NS | exact (ft_sq 0 _ _ (fm_sigma8 _ _ _ M)) | exact TS ].
Qed.
End Spectrum.
End Floats.
