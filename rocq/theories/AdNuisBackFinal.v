(** * Reverse mode with respect to nuisance parameters *)
From Coq Require Import Reals Lra Lia ZArith String List.
From Coquelicot Require Import Coquelicot.
From Verif Require Import Np NpLemmas Core Sparse SparseSpec Likelihood LikelihoodSpec Integrate IntegrateSpec Interp Background BgSpec BgPositive BgFinal4 BgGrad Transfer Power Redshift Probes ProbesSpec AngularCl CovSpec AclSpec GradSpec FisherSpec ContFinal
  Ad AdSpec AdPower AdProbes AdArrSpec AdHalofit AdHalofitSpec AdLike AdLikeSpec AdSurvey AdFinal AdParam AdParamCl AdJacSpec AdJac AdBack AdBackSpec AdBackProofs
  AdNuis AdNuisSpec AdNuisFinal AdNuisLike AdNuisLikeProofs AdNuisBack AdNuisBackSpec AdParamNuis.
Import ListNotations.
Local Open Scope R_scope.
Opaque chi_table growth_table_ODE growth_table_gamma logspace.

Definition tangents (d : direction) (w : nat -> R) (q : nat) : R :=
  match q with 0 => dOmega_c d | 1 => dOmega_b d | 2 => dh d | 3 => dn_s d | 4 => dsigma8 d | 5 => dOmega_k d | 6 => dw0 d | 7 => dwa d | S (S (S (S (S (S (S (S k))))))) => w k end%nat.
Section Transpose.
Variables (c : cosmology) (S : list (gprobe param)) (d : direction) (K : nat) (w : nat -> R) (HW : below K w).
Local Notation k := (8 + K)%nat.
Local Notation T := (tangents d w).
Lemma pair_paired f : pair_ k T f = paired f d K w.
Proof.
  unfold pair_, paired. rewrite Rsum_add. replace (Rsum K (fun i => T (8 + i)%nat * f (8 + i)%nat)) with (Rsum K (fun q => f (8 + q)%nat * w q)) by (apply Rsum_ext; intros i _; cbn [tangents Nat.add]; ring).
  f_equal. unfold dot, slots. cbn. ring.
Qed.
Lemma nrb_input v i : (i < k)%nat -> rb k T (input v i) (v, T i).
Proof.
  intros Hi. split; [ reflexivity | ]. intros u. unfold pair_, input. cbn [snd].
  rewrite (Rsum_ext k _ (fun q => if Nat.eqb q i then T q * u else 0)) by (intros q _; destruct (Nat.eqb q i); ring).
  rewrite (Rsum_delta k i (fun q => T q * u) Hi). ring.
Qed.
Lemma nrb_param (p : param) : rb k T (input (fst p) (8 + snd p)) (fst p, w (snd p)).
Proof.
  destruct p as [v q]. cbn [fst snd]. destruct (Nat.lt_ge_cases q K) as [L | L]; [ exact (nrb_input v (8 + q) ltac:(lia)) | ].
  split; [ reflexivity | ]. intros u. cbn [fst snd]. rewrite (HW q L). unfold pair_, input. cbn [snd]. rewrite Rsum_0_ext; [ ring | ].
  intros i Hi. destruct (Nat.eqb_spec i (8 + q)); [ lia | ring ].
Qed.
Lemma NRB : cosmo_rel (rb k T) (back_cosmo c) (dual_cosmo c d).
Proof.
  constructor; [ exact (nrb_input (_Omega_c c) 0 ltac:(lia)) | exact (nrb_input (_Omega_b c) 1 ltac:(lia)) | exact (nrb_input (_h c) 2 ltac:(lia)) | exact (nrb_input (_n_s c) 3 ltac:(lia))
    | exact (nrb_input (_sigma8 c) 4 ltac:(lia)) | exact (nrb_input (_Omega_k c) 5 ltac:(lia)) | exact (nrb_input (_w0 c) 6 ltac:(lia)) | exact (nrb_input (_wa c) 7 ltac:(lia)) | ].
  unfold back_cosmo, dual_cosmo; cbn [ggamma]. destruct (_gamma c); [ | exact I ]. apply (nr_cst _ _ _ (rb_num k T)).
Qed.
Lemma nrb_eh osc : transfer_rel (rb k T) (back_cosmo c) (dual_cosmo c d) (geh num_back osc) (geh num_dual osc).
Proof. intros q q' Hq. destruct osc; cbn [geh]; [ apply (p_eisenhu_osc _ _ _ (rb_num k T)) | apply (p_eisenhu _ _ _ (rb_num k T)) ]; first [ exact NRB | exact Hq ]. Qed.
Lemma nrb_model nl osc : spectrum_rel (rb k T) (back_cosmo c) (dual_cosmo c d) (gmodel num_back nl osc) (gmodel num_dual nl osc).
Proof. destruct nl; cbn [gmodel]; [ apply (p_spectrum_halofit _ _ _ (rb_num k T)) | apply (p_spectrum_linear _ _ _ (rb_num k T)) ]; first [ exact NRB | apply nrb_eh ]. Qed.
Lemma npair_row us : forall bs ms, Forall2 (rb k T) bs ms ->
  Np.vsum (map2 (fun u (m : dual) => u * snd m) us ms) = pair_ k T (fun q => Np.vsum (map2 (fun u (x : AdBack.back) => snd x u q) us bs)).
Proof.
  induction us as [ | u us IH]; intros bs ms H; [ symmetry; apply pair_0 | ]. destruct H as [ | b m bs ms [_ E] H]; [ symmetry; apply pair_0 | ].
  specialize (IH _ _ H). unfold Np.vsum in *; cbn [map2 fold_right]. rewrite pair_plus, E, IH. reflexivity.
Qed.
Lemma npair_rows U : forall b M, Forall2 (Forall2 (rb k T)) b M -> contract U M = pair_ k T (backward U b).
Proof.
  unfold contract, backward. induction U as [ | us U IH]; intros b M H; [ symmetry; apply pair_0 | ]. destruct H as [ | bs ms b M E H]; [ symmetry; apply pair_0 | ].
  pose proof (npair_row us _ _ E) as E1. specialize (IH _ _ H). unfold Np.vsum in *; cbn [map2 fold_right]. rewrite pair_plus, E1, IH. reflexivity.
Qed.
Lemma spectra_rb nl osc ells : res_rel (Forall2 (Forall2 (rb k T))) (hangular_cl num_back (back_cosmo c) ells (tracked S) (gmodel num_back nl osc)) (hangular_cl num_dual (dual_cosmo c d) ells (pushed w S) (gmodel num_dual nl osc)).
Proof. exact (w_angular _ _ _ (rb_num k T) _ _ nrb_param _ _ NRB _ _ (nrb_model nl osc) ells S). Qed.
Lemma survey_rb la nl osc ells f_sky sparse data il method : solve_linear la -> res_rel (rb k T)
  (hsurvey_likelihood num_back (linalg_back la) (back_cosmo c) ells (tracked S) (gmodel num_back nl osc) f_sky sparse data il method)
  (hsurvey_likelihood num_dual (linalg_dual la) (dual_cosmo c d) ells (pushed w S) (gmodel num_dual nl osc) f_sky sparse data il method).
Proof. intros HL. exact (w_survey _ _ _ (rb_num k T) _ _ nrb_param _ _ (rb_linalg k T la HL) _ _ ells S _ _ f_sky sparse data il method NRB (nrb_model nl osc)). Qed.
End Transpose.

Lemma nuisance_vjp c (S : list (gprobe param)) nl osc : (forall ells, survey_vjp_rows (hangular_cl num_back (back_cosmo c) ells (tracked S) (gmodel num_back nl osc))
    (fun d w => hangular_cl num_dual (dual_cosmo c d) ells (pushed w S) (gmodel num_dual nl osc))) /\
  (forall la ells f_sky sparse data il method, solve_linear la ->
   survey_vjp (hsurvey_likelihood num_back (linalg_back la) (back_cosmo c) ells (tracked S) (gmodel num_back nl osc) f_sky sparse data il method)
     (fun d w => hsurvey_likelihood num_dual (linalg_dual la) (dual_cosmo c d) ells (pushed w S) (gmodel num_dual nl osc) f_sky sparse data il method)).
Proof.
  split.
  - intros ells. assert (H := fun d K w HW => spectra_rb c S d K w HW nl osc ells). destruct (hangular_cl num_back _ _ _ _) as [b | e]; cbn [survey_vjp_rows]; intros d K w HW; specialize (H d K w HW);
      destruct (hangular_cl num_dual _ _ _ _) as [M | e']; cbn [res_rel] in H; try contradiction; [ | now rewrite H ].
    exists M. split; [ reflexivity | split ]; [ symmetry; exact (rb_values2 _ _ _ _ H) | ]. intros U. now rewrite (npair_rows d K w U b M H), pair_paired.
  - intros la ells f_sky sparse data il method HL. assert (H := fun d K w HW => survey_rb c S d K w HW la nl osc ells f_sky sparse data il method HL). destruct (hsurvey_likelihood num_back _ _ _ _ _ _ _ _ _ _) as [b | e]; cbn [survey_vjp]; intros d K w HW; specialize (H d K w HW);
      destruct (hsurvey_likelihood num_dual _ _ _ _ _ _ _ _ _ _) as [y | e']; cbn [res_rel] in H; try contradiction; [ | now rewrite H ].
    destruct H as [E1 E2]. exists y. split; [ reflexivity | split; [ now symmetry | ]]. intros u. now rewrite <- E2, pair_paired.
Qed.

(** ** reading a mapped survey *)
Section Read.
Context {A B : Type} (f : A -> B) (v : B -> R).
Fixpoint read_nz_map (d : gnz A) : read_nz v (nz_map f d) = read_nz (fun x => v (f x)) d
with read_fam_map (fam : gfam A) : read_fam v (fam_map f fam) = read_fam (fun x => v (f x)) fam.
Proof.
  - destruct d as [fam g zm]. cbn [nz_map read_nz]. now rewrite read_fam_map.
  - destruct fam as [a b z0 | z0 | zc wt bw | p b]; cbn [fam_map read_fam]; try reflexivity; [ now rewrite !map_map | now rewrite read_nz_map ].
Qed.
Lemma read_bias_map b : read_bias v (bias_map f b) = read_bias (fun x => v (f x)) b. Proof. now destruct b. Qed.
Lemma read_bias_arg_map b : read_bias_arg v (bias_arg_map f b) = read_bias_arg (fun x => v (f x)) b.
Proof. destruct b; cbn [bias_arg_map read_bias_arg]; [ now rewrite read_bias_map | rewrite map_map; f_equal; apply map_ext, read_bias_map ]. Qed.
Lemma read_probe_map p : read_probe v (probe_map f p) = read_probe (fun x => v (f x)) p.
Proof.
  assert (E : forall l, map (read_nz v) (map (nz_map f) l) = map (read_nz (fun x => v (f x))) l) by (intros l; rewrite map_map; apply map_ext, read_nz_map).
  destruct p as [p | p]; cbn [probe_map read_probe gwl_bins gwl_m gwl_ia gwl_sigma_e gnc_bins gnc_bias]; rewrite E.
  - f_equal. f_equal; [ destruct (gwl_m p); cbn [m_map read_m]; [ reflexivity | now rewrite map_map ] | destruct (gwl_ia p); cbn [option_map]; [ now rewrite read_bias_arg_map | reflexivity ]].
  - now rewrite read_bias_arg_map.
Qed.
End Read.
Lemma values_pushed w (S : list (gprobe param)) : values (pushed w S) = map (read_probe fst) S.
Proof. unfold values, pushed. rewrite map_map. apply map_ext. intros p. now rewrite read_probe_map. Qed.
Lemma pushed_gals w (S : list (gprobe param)) : (forall p b, In p S -> In b (gbins_of p) -> fst (gnz_gals b) <> 0) -> forall p b, In p (pushed w S) -> In b (gbins_of p) -> fst (gnz_gals b) <> 0.
Proof.
  intros H p b Hp Hb. apply in_map_iff in Hp. destruct Hp as (q & <- & Hq). rewrite w_bins in Hb. apply in_map_iff in Hb. destruct Hb as (e & <- & He). specialize (H q e Hq He). now destruct e.
Qed.

(** jax.grad of the likelihood with respect to the cosmology and the survey *)
Lemma nuisance_grad la c osc (S : list (gprobe param)) ells f_sky sparse data il method : linalg_ok la -> linalg_shaped la -> solve_linear la ->
  built c -> expanding c -> _gamma c = None -> physical c -> moderate c ->
  (forall d, transfer_moves (eh osc) (geh num_dual osc) c d) -> sigmasqr_default c 8.0 (eh osc) <> 0 -> eh osc c (1 / 10000) <> 0 -> _sigma8 c <> 0 ->
  shallow (concat (map bins_of (map (read_probe fst) S))) -> off_clip chi c (map (read_probe fst) S) -> survey_smooth (pushed (fun _ => 0) S) ->
  (forall b, limber_epoch (map (read_probe fst) S) b -> scale_found c b (eh osc) /\ forall k, formula_smooth c k b (eh osc) "takahashi2012") ->
  probes_ok (map (read_probe fst) S) -> noise_positive (map (read_probe fst) S) -> (forall p b, In p S -> In b (gbins_of p) -> fst (gnz_gals b) <> 0) ->
  (2 <= length ells)%nat -> (forall l, In l ells -> 0 <= l) -> (forall l, (l < length ells)%nat -> 0 < knox_norm ells f_sky l) ->
  length data = (length ells * length (get_cl_ordering (map (read_probe fst) S)))%nat -> sparse = true \/ method = "inverse"%string \/ method = "cholesky"%string ->
  exists b, hsurvey_likelihood num_back (linalg_back la) (back_cosmo c) ells (tracked S) (gmodel num_back true osc) f_sky sparse data il method = Ok b /\
    survey_likelihood la c ells (map (read_probe fst) S) (eh osc) halofit_default f_sky sparse data il method = Ok (fst b) /\
    forall d K w, below K w -> survey_smooth (pushed w S) ->
      exists f, (forall t, survey_likelihood la (displaced c d t) ells (moved (pushed w S) t) (eh osc) halofit_default f_sky sparse data il method = Ok (f t)) /\
        is_derive f 0 (paired (snd b 1) d K w).
Proof.
  intros HO HS HLin B HE NG HPh HMo HT HN8 HT0 H8 HSh HC HSm HB Hok HN HG HLe HE0 HKn HD HM.
  assert (J : forall d w, survey_smooth (pushed w S) -> jvp_number (fun t => survey_likelihood la (displaced c d t) ells (moved (pushed w S) t) (eh osc) halofit_default f_sky sparse data il method)
    (hsurvey_likelihood num_dual (linalg_dual la) (dual_cosmo c d) ells (pushed w S) (ghalofit_default num_dual (geh num_dual osc)) f_sky sparse data il method)).
  { intros d w Hw. apply nuisance_default_survey; rewrite ?values_pushed; try assumption. now apply pushed_gals. }
  pose proof (proj2 (nuisance_vjp c S true osc) la ells f_sky sparse data il method HLin) as V. cbn [gmodel] in V |- *.
  assert (Z : below 0 (fun _ => 0)) by (intros q _; reflexivity).
  destruct (hsurvey_likelihood num_back (linalg_back la) (back_cosmo c) ells (tracked S) _ f_sky sparse data il method) as [b | e]; cbn [survey_vjp] in V.
  - exists b. split; [ reflexivity | ]. split.
    + destruct (J (Direction 0 0 0 0 0 0 0 0) _ HSm) as (f & y & F1 & F2 & F3 & _). destruct (V (Direction 0 0 0 0 0 0 0 0) 0%nat _ Z) as (y' & G1 & G2 & _). rewrite F2 in G1. injection G1 as <-.
      specialize (F1 0). rewrite displaced_0, moved_0, values_pushed in F1 by exact B. rewrite F1. f_equal. congruence.
    + intros d K w HW Hw. destruct (J d w Hw) as (f & y & F1 & F2 & F3 & F4). destruct (V d K w HW) as (y' & G1 & G2 & G3). rewrite F2 in G1. injection G1 as <-. exists f. split; [ exact F1 | ].
      replace (paired (snd b 1) d K w) with (snd y) by (rewrite <- G3; ring). exact F4.
  - destruct (J (Direction 0 0 0 0 0 0 0 0) _ HSm) as (f & y & _ & F2 & _). rewrite (V (Direction 0 0 0 0 0 0 0 0) 0%nat _ Z) in F2. discriminate.
Qed.

(** smoothness depends on the values only, but for source planes at rest *)
Lemma smooth_any_tangent w0 w (S : list (gprobe param)) :
  (forall p b g zm z0, In p S -> In b (gbins_of p) -> b = GNz (GDelta z0) g zm -> w0 (snd z0) <> 0) -> survey_smooth (pushed w0 S) -> survey_smooth (pushed w S).
Proof.
  intros HP H p Hp. apply in_map_iff in Hp. destruct Hp as (q & <- & Hq). specialize (H _ (in_map (probe_map (fun p => (fst p, w0 (snd p)))) _ _ Hq)).
  rewrite values_pushed in *. destruct H as [H1 H2]. split.
  - intros b Hb. rewrite w_bins in Hb. apply in_map_iff in Hb. destruct Hb as (e & <- & He).
    assert (H := H1 (nz_map (fun p => (fst p, w0 (snd p))) e)). rewrite w_bins in H. specialize (H (in_map _ _ _ He)). unfold bin_smooth in *.
    rewrite read_nz_map in *. destruct e as [fam g zm]. destruct fam as [a b' z0 | z0 | zc wt bw | p b']; cbn [nz_map fam_map gnz_fam] in *; try exact H.
    specialize (HP q _ g zm z0 Hq He eq_refl). destruct H as [H | H]; [ cbn [snd] in H; contradiction | right; exact H ].
  - assert (E : forall b, bias_ok (bias_map (fun p : param => (fst p, w0 (snd p)) : dual) b) -> bias_ok (bias_map (fun p : param => (fst p, w (snd p)) : dual) b)) by (intros b; destruct b; cbn; auto).
    assert (E2 : forall b, bias_arg_ok (bias_arg_map (fun p : param => (fst p, w0 (snd p)) : dual) b) -> bias_arg_ok (bias_arg_map (fun p : param => (fst p, w (snd p)) : dual) b)).
    { intros b. destruct b as [b | bs]; cbn [bias_arg_map bias_arg_ok]; [ apply E | ]. intros Hbs b Hb. apply in_map_iff in Hb. destruct Hb as (e & <- & He). apply E, Hbs. now apply in_map. }
    destruct q as [q | q]; cbn [probe_map gwl_ia gnc_bias] in *; [ destruct (gwl_ia q); cbn [option_map] in *; auto | auto ].
Qed.
