(** * jax.grad in floating point: public statements *)
From Coquelicot Require Import Coquelicot.
From Coq Require Import String FunctionalExtensionality.
From Verif Require Import SparseX HalofitX AdNan AdNanSpec AdNanProofs AdNanFinal FinRules FinOps FinBg FinGrowth FinTransfer FinPower FinHalofit FinNz FinSurvey FinGeneric.
From Verif Require Import Np NpLemmas Core Ode OdeSpec OdeProofs Interp InterpProofs InterpCont Integrate IntegrateSpec RombProofs Background BgSpec BgAlgebra BgTables
  BgGrowth BgPositive BgProofs BgFinal BgFinal2 BgFinal4 BgGrad Transfer TransferProofs TransferMono Power PowerProofs ExPower Redshift RedshiftProofs Bias Probes AngularCl GradSpec
  Ad AdSpec AdProofs AdBg AdFinal AdPower AdPowerFinal AdHalofit AdHalofitSpec AdProbes AdRel AdProbesProofs AdProbesFinal AdArrSpec AdNuis AdNuisProofs AdNuisSpec AdNuisNz AdNuisBack AdNuisBackSpec AdNuisFinal
  AdParamNuis AdNuisBackFinal XBack XBackSpec XBackProofs Gram.
Import ListNotations.
Local Open Scope R_scope.
Opaque chi_table growth_table_ODE growth_table_gamma logspace.

Lemma xinput_ok l : xb_ok (xinput l).
Proof.
  destruct l as [x [i | ]]; (split; [ now exists x | ]); [ | exact I ]. intros u q. unfold xb_p, partial. cbn [xinput snd fst].
  destruct (Nat.eqb q i); f_equal; ring.
Qed.
Lemma xinput_rd K w l : below K w -> xb_rd K w (xinput l) = (fst l, match snd l with Some i => w i | None => 0 end).
Proof.
  intros HB. destruct l as [x [i | ]]; unfold xb_rd, xb_v, xb_p, partial; cbn [xinput fst snd]; f_equal; [ | apply Rsum_0_ext; intros; ring ].
  destruct (le_lt_dec K i) as [L | L].
  - rewrite (HB i L). apply Rsum_0_ext. intros q Hq. destruct (Nat.eqb_spec q i); [ lia | ring ].
  - rewrite <- (Rsum_unit K i w L). apply Rsum_ext. intros q _. destruct (Nat.eqb_spec q i) as [-> | NE]; [ rewrite ?Nat.eqb_refl; ring | ]. destruct (Nat.eqb_spec i q); [ lia | ring ].
Qed.
(** a backward pass that holds the gradient *)
Lemma graded_of f x : (forall K w, below K w -> fin_of (FL := floats_xb K w) (f w) 0 x) -> graded f x.
Proof.
  intros HF. assert (OK : xb_ok x) by (destruct (HF 0%nat (fun _ => 0)) as [H _]; [ easy | exact H ]).
  exists (xb_p x). destruct OK as [[a Ea] OK]. split; [ | split; [ exact OK | ]].
  - intros q. unfold xb_p, partial in *. destruct (snd x) as [B | ]; [ | reflexivity ]. specialize (OK 1 q). now destruct (B (Fin 1) q).
  - intros K w HB. destruct (HF K w HB) as [_ [E1 E2]]. split; [ | exact E2 ]. cbn [fl_rd floats_xb xb_rd fst] in E1. rewrite <- E1. unfold xb_v. now rewrite Ea.
Qed.
Lemma number_graded_of F G : (forall K w, below K w -> rr (fun f x => fin_of (FL := floats_xb K w) f 0 x) (F w) G) -> number_graded F G.
Proof.
  intros HF. destruct G as [x | e]; cbn [number_graded].
  - exists (fun w t => match F w t with Ok v => v | Err _ => 0 end). split.
    + intros K w t HB. destruct (rr_cases _ _ _ (HF K w HB)) as [(f & y & Ey & E & L) | (e & Ee & _)]; [ now rewrite E | discriminate ].
    + apply graded_of. intros K w HB. destruct (rr_cases _ _ _ (HF K w HB)) as [(f & y & Ey & E & L) | (e & Ee & _)]; [ | discriminate ].
      injection Ey as <-. apply (ft_ext (FL := floats_xb K w) 0 f); [ intros s; now rewrite E | exact L ].
  - intros K w t HB. destruct (rr_cases _ _ _ (HF K w HB)) as [(f & y & Ey & E & L) | (e' & Ee & E)]; [ discriminate | ]. injection Ee as <-. apply E.
Qed.
Lemma rows_graded_of F G : (forall K w, below K w -> rr (lr (lr (fun f x => fin_of (FL := floats_xb K w) f 0 x))) (F w) G) -> rows_graded F G.
Proof.
  intros HF. destruct G as [m | e]; cbn [rows_graded].
  - exists (fun w t => match F w t with Ok v => v | Err _ => [] end).
    assert (HW : forall K w, below K w -> exists V, (forall t, F w t = Ok (V t)) /\ lr (lr (fun f x => fin_of (FL := floats_xb K w) f 0 x)) V m).
    { intros K w HB. destruct (rr_cases _ _ _ (HF K w HB)) as [(V & M & EM & E & L) | (e & Ee & _)]; [ | discriminate ]. injection EM as <-. now exists V. }
    split; [ | split ].
    + intros K w t HB. destruct (HW K w HB) as (V & E & _). now rewrite E.
    + intros K w t HB. destruct (HW K w HB) as (V & E & L). rewrite E. split; [ apply (lr_length _ _ _ L) | ]. intros i.
      apply (lr_length (fun f x => fin_of (FL := floats_xb K w) f 0 x) (fun t => nth i (V t) []) (nth i m [])). apply (lr_nth (lr _)); [ apply lr_respects | apply lr_nil' | exact L ].
    + intros i j. apply graded_of. intros K w HB. destruct (HW K w HB) as (V & E & L).
      apply (ft_ext (FL := floats_xb K w) 0 (fun t => nth j (nth i (V t) []) 0)); [ intros s; now rewrite E | ].
      apply (lr_nth (fun f x => fin_of (FL := floats_xb K w) f 0 x) (fun t => nth i (V t) []) _ 0 (Fin 0, None) j).
      * intros f h y Ef. now apply ft_ext.
      * apply (ft_cst (FL := floats_xb K w) 0 0).
      * apply (lr_nth (lr _)); [ apply lr_respects | apply lr_nil' | exact L ].
  - intros K w t HB. destruct (rr_cases _ _ _ (HF K w HB)) as [(f & y & Ey & E & L) | (e' & Ee & E)]; [ discriminate | ]. injection Ee as <-. apply E.
Qed.

(** ** inputs *)
Section Inputs.
Variables (K : nat) (w : nat -> R).
Hypothesis HB : below K w.
Local Notation FLX := (floats_xb K w).
Local Notation rd := (xb_rd K w).
Definition slot_dual (l : leaf) : dual := (fst l, match snd l with Some i => w i | None => 0 end).
Lemma x_at t l : fl_at (FLN := FLX) t (xinput l) = leaf_at w t l.
Proof. unfold fl_at. cbn [fl_rd floats_xb]. rewrite xinput_rd by exact HB. reflexivity. Qed.
Lemma x_at_fun t : (fun l => fl_at (FLN := FLX) t (xinput l)) = leaf_at w t. Proof. apply functional_extensionality. apply x_at. Qed.
Lemma x_cosmo t g : fl_cosmo (FLN := FLX) t (xcosmo g) = read_cosmo (leaf_at w t) g.
Proof.
  unfold fl_cosmo, read_cosmo, xcosmo, cosmo_map. cbn [gOmega_c gOmega_b gh gn_s gsigma8 gOmega_k gw0 gwa ggamma]. rewrite !x_at. f_equal.
  destruct (ggamma g); cbn [option_map]; [ now rewrite x_at | reflexivity ].
Qed.
Lemma leaf_zero l : leaf_at w 0 l = fst l. Proof. unfold leaf_at. ring. Qed.
Lemma cosmo_zero g : read_cosmo (leaf_at w 0) g = read_cosmo fst g.
Proof. f_equal. apply functional_extensionality. apply leaf_zero. Qed.
Lemma x_cosmo_0 g : fl_cosmo (FLN := FLX) 0 (xcosmo g) = read_cosmo fst g. Proof. now rewrite x_cosmo, cosmo_zero. Qed.
Lemma x_params g : fl_params (FLN := FLX) (xcosmo g).
Proof. unfold fl_params. repeat split; try apply xinput_ok. unfold xcosmo, cosmo_map. cbn [ggamma]. destruct (ggamma g); cbn [option_map]; [ apply xinput_ok | exact I ]. Qed.
Fixpoint x_nz (d : gnz leaf) : fl_nz (FLN := FLX) (nz_map xinput d)
with x_fam (f : gfam leaf) : fl_fam (FLN := FLX) (fam_map xinput f).
Proof.
  - destruct d as [f g zm]. split; [ apply x_fam | apply xinput_ok ].
  - assert (L : forall l x, In x (map xinput l) -> fl_ok (floats := FLX) x) by (intros l x Hx; apply in_map_iff in Hx; destruct Hx as (y & <- & _); apply xinput_ok).
    destruct f as [a b z0 | z0 | zc wt bw | p b]; cbn [fam_map fl_fam].
    + repeat split; apply xinput_ok.
    + apply xinput_ok.
    + split; apply L.
    + split; [ apply x_nz | apply xinput_ok ].
Qed.
Lemma x_bias b : fl_bias (FLN := FLX) (bias_map xinput b). Proof. destruct b; cbn [bias_map fl_bias]; repeat split; apply xinput_ok. Qed.
Lemma x_bias_arg b : fl_bias_arg (FLN := FLX) (bias_arg_map xinput b).
Proof. destruct b as [b | l]; cbn [bias_arg_map fl_bias_arg]; [ apply x_bias | ]. intros b Hb. apply in_map_iff in Hb. destruct Hb as (y & <- & _). apply x_bias. Qed.
Lemma x_probe p : fl_probe (FLN := FLX) (probe_map xinput p).
Proof.
  split.
  - intros d Hd. rewrite w_bins in Hd. apply in_map_iff in Hd. destruct Hd as (y & <- & _). apply x_nz.
  - destruct p as [[bs m ia se] | [bs b]]; cbn [probe_map gwl_m gwl_ia gnc_bias]; [ | apply x_bias_arg ]. split.
    + destruct m as [m | l]; cbn [m_map fl_m]; [ apply xinput_ok | ]. intros x Hx. apply in_map_iff in Hx. destruct Hx as (y & <- & _). apply xinput_ok.
    + destruct ia; cbn [option_map]; [ apply x_bias_arg | exact I ].
Qed.
Lemma x_probes t S : fl_probes (FLN := FLX) t (xprobes S) = survey_at w t S.
Proof. unfold fl_probes, xprobes, survey_at. rewrite map_map. apply map_ext. intros p. rewrite read_probe_map. now rewrite x_at_fun. Qed.
Lemma x_fin l : fin_of (FL := FLX) (fun t => leaf_at w t l) 0 (xinput l).
Proof. apply (ft_ext (FL := FLX) 0 (fun t => fl_at (FLN := FLX) t (xinput l))); [ intros s; apply x_at | apply (fl_leaf (FLN := FLX)), xinput_ok ]. Qed.
(** the tangents of the survey *)
Lemma rd_input : (fun l => rd (xinput l)) = slot_dual. Proof. apply functional_extensionality. intros l. now rewrite xinput_rd. Qed.
End Inputs.
Section Compose.
Context {A B C : Type} (f : A -> B) (h : B -> C).
Fixpoint nz_map_map (d : gnz A) : nz_map h (nz_map f d) = nz_map (fun x => h (f x)) d
with fam_map_map (d : gfam A) : fam_map h (fam_map f d) = fam_map (fun x => h (f x)) d.
Proof.
  - destruct d as [fam g zm]. cbn [nz_map]. now rewrite fam_map_map.
  - destruct d as [a b z0 | z0 | zc wt bw | p b]; cbn [fam_map]; try reflexivity; [ now rewrite !map_map | now rewrite nz_map_map ].
Qed.
Lemma bias_map_map b : bias_map h (bias_map f b) = bias_map (fun x => h (f x)) b. Proof. now destruct b. Qed.
Lemma bias_arg_map_map b : bias_arg_map h (bias_arg_map f b) = bias_arg_map (fun x => h (f x)) b.
Proof. destruct b; cbn [bias_arg_map]; [ now rewrite bias_map_map | rewrite map_map; f_equal; apply map_ext, bias_map_map ]. Qed.
Lemma probe_map_map p : probe_map h (probe_map f p) = probe_map (fun x => h (f x)) p.
Proof.
  assert (E : forall l, map (nz_map h) (map (nz_map f) l) = map (nz_map (fun x => h (f x))) l) by (intros l; rewrite map_map; apply map_ext, nz_map_map).
  destruct p as [p | p]; cbn [probe_map gwl_bins gwl_m gwl_ia gwl_sigma_e gnc_bins gnc_bias]; rewrite E.
  - f_equal. f_equal; [ destruct (gwl_m p); cbn [m_map]; [ reflexivity | now rewrite map_map ] | destruct (gwl_ia p); cbn [option_map]; [ now rewrite bias_arg_map_map | reflexivity ]].
  - now rewrite bias_arg_map_map.
Qed.
End Compose.
(** smoothness for all tangents *)
Lemma smooth_leaf lens V w p : probe_smooth lens V (probe_map all_move p) -> probe_smooth lens V (probe_map (slot_dual w) p).
Proof.
  intros [H1 H2]. split.
  - intros b Hb. rewrite w_bins in Hb. apply in_map_iff in Hb. destruct Hb as (e & <- & He).
    assert (H := H1 (nz_map all_move e)). rewrite w_bins in H. specialize (H (in_map _ _ _ He)). unfold bin_smooth in *.
    rewrite read_nz_map in *. destruct e as [fam g zm]. destruct fam as [a b' z0 | z0 | zc wt bw | p' b']; cbn [nz_map fam_map gnz_fam] in *; try exact H.
    destruct z0 as [z0 [i | ]]; unfold plane_ok, all_move, slot_dual in *; cbn [fst snd] in *; [ | now left ]. right. destruct H as [H | H]; [ lra | exact H ].
  - assert (E : forall b, bias_ok (bias_map all_move b) -> bias_ok (bias_map (slot_dual w) b)) by (intros b; destruct b; cbn; auto).
    assert (E2 : forall b, bias_arg_ok (bias_arg_map all_move b) -> bias_arg_ok (bias_arg_map (slot_dual w) b)).
    { intros b. destruct b as [b | bs]; cbn [bias_arg_map bias_arg_ok]; [ apply E | ]. intros Hbs b Hb. apply in_map_iff in Hb. destruct Hb as (e & <- & He). apply E, Hbs. now apply in_map. }
    destruct p as [q | q]; cbn [probe_map gwl_ia gnc_bias] in *; [ destruct (gwl_ia q); cbn [option_map] in *; auto | auto ].
Qed.

(** ** public statements *)
Local Notation C g := (fun w t => read_cosmo (leaf_at w t) g).
Local Notation c0 g := (read_cosmo fst g).
Lemma rr_eq {X Y} (rl : (R -> X) -> Y -> Prop) f h y : (forall s, f s = h s) -> rr rl f y -> rr rl h y. Proof. apply rr_respects. Qed.
Lemma off_leaf n l w : between n l -> (forall t, leaf_at w t l = leaf_at w 0 l) \/ forall i, (2 <= i <= n - 2)%nat -> leaf_at w 0 l <> table_node n i.
Proof. intros [H | H]; [ left; intros t; unfold leaf_at; rewrite H; ring | right; intros i Hi; rewrite leaf_zero; now apply H ]. Qed.
Lemma graded_cosmo F g x : (forall K w, below K w -> fin_of (FL := floats_xb K w) (fun t => F w t (fl_cosmo (FLN := floats_xb K w) t (xcosmo g))) 0 x) -> graded (fun w t => F w t (C g w t)) x.
Proof. intros HF. apply graded_of. intros K w HB. apply (ft_ext (FL := floats_xb K w) 0 _ _ _ (fun t => f_equal (F w t) (x_cosmo K w HB t g)) (HF K w HB)). Qed.
Lemma grad_background g a : expanding (c0 g) -> 0 < fst a ->
  graded (fun w t => H (C g w t) (leaf_at w t a)) (gH num_xb (xcosmo g) (xinput a)) /\
  graded (fun w t => Omega_m_a (C g w t) (leaf_at w t a)) (gOmega_m_a num_xb (xcosmo g) (xinput a)) /\
  graded (fun w t => Omega_de_a (C g w t) (leaf_at w t a)) (gOmega_de_a num_xb (xcosmo g) (xinput a)) /\
  graded (fun u t => w (C g u t) (leaf_at u t a)) (gw num_xb (xcosmo g) (xinput a)) /\
  graded (fun w t => dchioverda (C g w t) (leaf_at w t a)) (gdchioverda num_xb (xcosmo g) (xinput a)).
Proof.
  intros HE Pa.
  assert (Q := fun K w (HB : below K w) => fl_all_background (FLN := floats_xb K w) (xcosmo g) (fun t => leaf_at w t a) (xinput a) (x_params K w g)
    (eq_ind_r expanding HE (x_cosmo_0 K w HB g)) (x_fin K w HB a) (eq_ind_r (fun r => 0 < r) Pa (leaf_zero w a))).
  split; [ apply (graded_cosmo (fun w t c => H c (leaf_at w t a))); intros K w HB; apply (Q K w HB) | ].
  split; [ apply (graded_cosmo (fun w t c => Omega_m_a c (leaf_at w t a))); intros K w HB; apply (Q K w HB) | ].
  split; [ apply (graded_cosmo (fun w t c => Omega_de_a c (leaf_at w t a))); intros K w HB; apply (Q K w HB) | ].
  split; [ apply (graded_cosmo (fun u t c => w c (leaf_at u t a))); intros K w HB; apply (Q K w HB) | ].
  apply (graded_cosmo (fun w t c => dchioverda c (leaf_at w t a))); intros K w HB; apply (Q K w HB).
Qed.
Lemma grad_distances g a : expanding (c0 g) -> 0 < fst a < 1 -> between 256 a ->
  graded (fun w t => chi (C g w t) (leaf_at w t a)) (gchi num_xb (xcosmo g) (xinput a)) /\
  (fst (gOmega_k g) <> 0 \/ fst (gOmega_k g) = 0 /\ snd (gOmega_k g) = None -> graded (fun w t => f_k (C g w t) (leaf_at w t a)) (gf_k num_xb (xcosmo g) (xinput a))).
Proof.
  intros HE Pa HO.
  assert (Q := fun K w (HB : below K w) => fl_all_distances (FLN := floats_xb K w) (xcosmo g) (fun t => leaf_at w t a) (xinput a) (x_params K w g)
    (eq_ind_r expanding HE (x_cosmo_0 K w HB g)) (x_fin K w HB a) (eq_ind_r (fun r => 0 < r < 1) Pa (leaf_zero w a)) (off_leaf 256 a w HO)).
  split; [ apply (graded_cosmo (fun w t c => chi c (leaf_at w t a))); intros K w HB; apply (Q K w HB) | ].
  intros HK. apply (graded_cosmo (fun w t c => f_k c (leaf_at w t a))); intros K w HB; apply (Q K w HB).
  unfold fl_v. cbn [fl_rd floats_xb]. change (gOmega_k (xcosmo g)) with (xinput (gOmega_k g)). rewrite !xinput_rd by exact HB. cbn [fst snd].
  destruct HK as [HK | [H1 H2]]; [ left; exact HK | right; rewrite H2; auto ].
Qed.
Lemma grad_growth g a : expanding (c0 g) -> growing (c0 g) -> 0 < fst a -> between 128 a ->
  (0 < D (c0 g) (fst a) < 1 -> graded (fun w t => D (C g w t) (leaf_at w t a)) (gD num_xb (xcosmo g) (xinput a))) /\
  graded (fun w t => f_growth (C g w t) (leaf_at w t a)) (gf num_xb (xcosmo g) (xinput a)).
Proof.
  intros HE HG Pa HO.
  assert (Q := fun K w (HB : below K w) => fl_all_growth (FLN := floats_xb K w) (xcosmo g) (fun t => leaf_at w t a) (xinput a) (x_params K w g)
    (eq_ind_r expanding HE (x_cosmo_0 K w HB g)) (eq_ind_r growing HG (x_cosmo_0 K w HB g)) (x_fin K w HB a) (eq_ind_r (fun r => 0 < r) Pa (leaf_zero w a)) (off_leaf 128 a w HO)).
  split; [ intros HD; apply (graded_cosmo (fun w t c => D c (leaf_at w t a))); intros K w HB; apply (Q K w HB); rewrite (x_cosmo_0 K w HB), leaf_zero; exact HD | ].
  apply (graded_cosmo (fun w t c => f_growth c (leaf_at w t a))); intros K w HB; apply (Q K w HB).
Qed.
Lemma x_transfer osc g K w : eh_regular osc (c0 g) -> below K w ->
  ftransfer (FLN := floats_xb K w) (eh osc) (geh num_xb osc) (fun t => fl_cosmo (FLN := floats_xb K w) t (xcosmo g)) (xcosmo g).
Proof.
  intros [HD HR] HB. destruct (fl_all_transfers (FLN := floats_xb K w) (xcosmo g) (x_params K w g)) as [H1 H2]; [ rewrite (x_cosmo_0 K w HB); exact HD | ].
  rewrite (x_cosmo_0 K w HB) in H1, H2. destruct osc; [ exact (H2 HR) | exact (H1 HR) ].
Qed.
Lemma grad_transfers osc g k : eh_regular osc (c0 g) -> 0 < fst k -> graded (fun w t => eh osc (C g w t) (leaf_at w t k)) (geh num_xb osc (xcosmo g) (xinput k)).
Proof.
  intros HR Pk. apply (graded_cosmo (fun w t c => eh osc c (leaf_at w t k))). intros K w HB.
  apply (x_transfer osc g K w HR HB (fun t => leaf_at w t k)); [ apply (x_fin K w HB) | now rewrite leaf_zero ].
Qed.
Lemma grad_linear osc g a k : expanding (c0 g) -> _gamma (c0 g) = None -> physical (c0 g) -> moderate (c0 g) -> eh_regular osc (c0 g) -> sigmasqr_default (c0 g) 8.0 (eh osc) <> 0 ->
  table_node 128 1 <= a <= 1 -> 0 < fst k ->
  graded (fun w t => linear_matter_power (C g w t) (leaf_at w t k) a (eh osc)) (glinear_matter_power num_xb (xcosmo g) (xinput k) (cst num_xb a) (geh num_xb osc)).
Proof.
  intros HE NG HP HMo HR HN Ha Pk. apply (graded_cosmo (fun w t c => linear_matter_power c (leaf_at w t k) a (eh osc))). intros K w HB. assert (HT := x_transfer osc g K w HR HB).
  assert (Q := fun h1 h2 h3 h4 h5 => fl_all_linear (FLN := floats_xb K w) (xcosmo g) (eh osc) (geh num_xb osc) a (x_params K w g) h1 h2 h3 h4 HT h5 Ha (fun t => leaf_at w t k) (xinput k) (x_fin K w HB k)).
  rewrite (x_cosmo_0 K w HB), leaf_zero in Q. exact (Q HE NG HP HMo HN Pk).
Qed.
Lemma grad_halofit osc g a p k : expanding (c0 g) -> _gamma (c0 g) = None -> physical (c0 g) -> moderate (c0 g) -> eh_regular osc (c0 g) -> sigmasqr_default (c0 g) 8.0 (eh osc) <> 0 ->
  eh osc (c0 g) (1 / 10000) <> 0 -> _sigma8 (c0 g) <> 0 -> table_node 128 1 <= a <= 1 -> scale_found (c0 g) a (eh osc) -> 0 < fst k -> formula_smooth (c0 g) (fst k) a (eh osc) p ->
  number_graded (fun w t => halofit (C g w t) (leaf_at w t k) a (eh osc) p) (ghalofit num_xb (xcosmo g) (xinput k) (cst num_xb a) (geh num_xb osc) p).
Proof.
  intros HE NG HP HMo HR HN HT0 H8 Ha HS Pk HF. apply number_graded_of. intros K w HB. assert (HT := x_transfer osc g K w HR HB).
  assert (Q := fun h1 h2 h3 h4 h5 h6 h7 h8 h9 h10 => fl_all_halofit (FLN := floats_xb K w) (xcosmo g) (eh osc) (geh num_xb osc) a p (fun t => leaf_at w t k) (xinput k) (x_params K w g) h1 h2 h3 h4 HT h5 h6 h7 Ha h8 (x_fin K w HB k) h9 h10).
  rewrite (x_cosmo_0 K w HB), leaf_zero in Q. specialize (Q HE NG HP HMo HN HT0 H8 HS Pk HF).
  eapply rr_eq; [ | exact Q ]. intros t. cbv beta. now rewrite (x_cosmo K w HB).
Qed.
Lemma x_plain K w p : below K w -> probe_map (xb_rd K w) (probe_map xinput p) = probe_map (slot_dual w) p.
Proof. intros HB. rewrite probe_map_map. now rewrite (rd_input K w HB). Qed.
Lemma plain_values w p : read_probe fst (probe_map (slot_dual w) p) = read_probe fst p. Proof. now rewrite read_probe_map. Qed.
Lemma grad_kernel g (p : gprobe leaf) z ell : let v := read_probe fst p in
  expanding (c0 g) -> _gamma (c0 g) = None -> physical (c0 g) -> moderate (c0 g) ->
  (forall q, In q z -> tabulated q) -> shallow (bins_of v) -> (forall q a, In q z -> source_epoch (lensing_bins v) q a -> chi (c0 g) a <> 1) ->
  probe_smooth (lenses z) [v] (probe_map all_move p) ->
  rows_graded (fun w t => kernel (read_probe (leaf_at w t) p) (C g w t) z ell) (hkernel num_xb (probe_map xinput p) (xcosmo g) z ell).
Proof.
  intros v HE NG HP HMo HZ HS HC HN. apply rows_graded_of. intros K w HB.
  assert (Q := fl_all_kernel (FLN := floats_xb K w) (xcosmo g) (probe_map xinput p) z ell). cbv zeta in Q. cbn [fl_rd floats_xb] in Q. rewrite (x_plain K w p HB), plain_values, (x_cosmo_0 K w HB) in Q.
  specialize (Q (x_params K w g) (x_probe K w p) HE NG HP HMo HZ HS HC (smooth_leaf _ _ w p HN)).
  eapply rr_eq; [ | exact Q ]. intros t. cbv beta. now rewrite (x_cosmo K w HB), read_probe_map, (x_at_fun K w HB).
Qed.
Lemma x_survey K w S : below K w -> map (probe_map (xb_rd K w)) (xprobes S) = map (probe_map (slot_dual w)) S.
Proof. intros HB. unfold xprobes. rewrite map_map. apply map_ext. intros p. now apply x_plain. Qed.
Lemma survey_values w S : values (map (probe_map (slot_dual w)) S) = map (read_probe fst) S.
Proof. unfold values. rewrite map_map. apply map_ext. intros p. apply plain_values. Qed.
Lemma move_values S : values (map (probe_map all_move) S) = map (read_probe fst) S.
Proof. unfold values. rewrite map_map. apply map_ext. intros p. now rewrite read_probe_map. Qed.
Lemma survey_leaf w S : survey_smooth (map (probe_map all_move) S) -> survey_smooth (map (probe_map (slot_dual w)) S).
Proof.
  unfold survey_smooth. rewrite survey_values, move_values. intros HS q Hq. apply in_map_iff in Hq. destruct Hq as (p & <- & Hp). apply smooth_leaf, HS. now apply in_map.
Qed.
Lemma x_probes_fin K w S p : In p (xprobes S) -> fl_probe (FLN := floats_xb K w) p.
Proof. intros Hp. apply in_map_iff in Hp. destruct Hp as (q & <- & _). apply x_probe. Qed.
Lemma grad_spectra osc g (S : list (gprobe leaf)) ells : let V := map (read_probe fst) S in
  expanding (c0 g) -> _gamma (c0 g) = None -> physical (c0 g) -> moderate (c0 g) -> eh_regular osc (c0 g) -> sigmasqr_default (c0 g) 8.0 (eh osc) <> 0 ->
  shallow (concat (map bins_of V)) -> off_clip chi (c0 g) V -> survey_smooth (map (probe_map all_move) S) -> (forall l, In l ells -> - 0.5 < l) ->
  rows_graded (fun w t => angular_cl (C g w t) (Array1 ells) (survey_at w t S) (eh osc) linear) (hangular_cl num_xb (xcosmo g) (Array1 ells) (xprobes S) (gmodel num_xb false osc)).
Proof.
  intros V HE NG HP HMo HR HN HS HC HM HL. apply rows_graded_of. intros K w HB. assert (HT := x_transfer osc g K w HR HB).
  assert (Q := fl_all_spectra (FLN := floats_xb K w) (xcosmo g) (xprobes S) ells (eh osc) (geh num_xb osc)). cbv zeta in Q. cbn [fl_rd floats_xb] in Q. rewrite (x_survey K w S HB), survey_values, (x_cosmo_0 K w HB) in Q.
  specialize (Q (x_params K w g) (x_probes_fin K w S) HE NG HP HMo HT HN HS HC (survey_leaf w S HM) HL).
  eapply rr_eq; [ | exact Q ]. intros t. cbv beta. now rewrite (x_cosmo K w HB), (x_probes K w HB).
Qed.
Lemma grad_default_spectra osc g (S : list (gprobe leaf)) ells : let V := map (read_probe fst) S in
  expanding (c0 g) -> _gamma (c0 g) = None -> physical (c0 g) -> moderate (c0 g) -> eh_regular osc (c0 g) -> sigmasqr_default (c0 g) 8.0 (eh osc) <> 0 ->
  eh osc (c0 g) (1 / 10000) <> 0 -> _sigma8 (c0 g) <> 0 ->
  shallow (concat (map bins_of V)) -> off_clip chi (c0 g) V -> survey_smooth (map (probe_map all_move) S) -> (forall l, In l ells -> - 0.5 < l) ->
  (forall b, limber_epoch V b -> scale_found (c0 g) b (eh osc) /\ forall k, formula_smooth (c0 g) k b (eh osc) "takahashi2012") ->
  rows_graded (fun w t => angular_cl (C g w t) (Array1 ells) (survey_at w t S) (eh osc) halofit_default) (hangular_cl num_xb (xcosmo g) (Array1 ells) (xprobes S) (gmodel num_xb true osc)).
Proof.
  intros V HE NG HP HMo HR HN HT0 H8 HS HC HM HL HB'. apply rows_graded_of. intros K w HB. assert (HT := x_transfer osc g K w HR HB).
  assert (Q := fl_all_default_spectra (FLN := floats_xb K w) (xcosmo g) (xprobes S) ells (eh osc) (geh num_xb osc)). cbv zeta in Q. cbn [fl_rd floats_xb] in Q. rewrite (x_survey K w S HB), survey_values, (x_cosmo_0 K w HB) in Q.
  specialize (Q (x_params K w g) (x_probes_fin K w S) HE NG HP HMo HT HN HT0 H8 HS HC (survey_leaf w S HM) HL HB').
  eapply rr_eq; [ | exact Q ]. intros t. cbv beta. now rewrite (x_cosmo K w HB), (x_probes K w HB).
Qed.
Lemma grad_redshift (d : gnz leaf) q : 0 <= gnz_zmax d -> smooth_norm (read_nz fst d) -> 0 <= q -> smooth_nz (read_nz fst d) q ->
  graded (fun w t => pz (read_nz (leaf_at w t) d) q) (hpz num_xb (nz_map xinput d) q).
Proof.
  intros HZ HN Hq HS. apply graded_of. intros K w HB.
  assert (EV : read_nz (fl_v (FLN := floats_xb K w)) (nz_map xinput d) = read_nz fst d).
  { rewrite read_nz_map. reflexivity. }
  assert (Q := fl_redshift (FLN := floats_xb K w) (nz_map xinput d) q). rewrite EV in Q.
  assert (Q' := Q ltac:(destruct d; exact HZ) (x_nz K w d) HN Hq HS). refine (ft_ext (FL := floats_xb K w) 0 _ _ _ _ Q'). intros s. cbv beta. now rewrite read_nz_map, (x_at_fun K w HB).
Qed.
