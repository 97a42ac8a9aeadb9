(** * The value and the gradient of what forward mode computes *)
From Coq Require Import String.
From Verif Require Import Np NpLemmas Core Ode Interp Integrate Background BgSpec Transfer Power Redshift Bias Sparse Likelihood Probes AngularCl SparseSpec GradSpec Ad AdSpec AdPower AdProbes AdHalofit AdLike
  AdArrSpec AdFinal AdPowerFinal AdProbesFinal AdHalofitFinal AdSurvey AdParam AdParamCl AdJacSpec AdJac.
Opaque chi_table growth_table_ODE growth_table_gamma logspace.
Local Open Scope R_scope.

(** ** values *)
Section Values.
Variables (c : cosmology) (d : direction) (HB : built c).
Local Notation RC := (rv_cosmo c d).
Lemma rv_fst x y : rv x y -> fst y = x. Proof. now intros ->. Qed.
Lemma value_background a da : let g := dual_cosmo c d in
  fst (gH num_dual g (a, da)) = H c a /\ fst (gOmega_m_a num_dual g (a, da)) = Omega_m_a c a /\ fst (gOmega_de_a num_dual g (a, da)) = Omega_de_a c a /\
  fst (gchi num_dual g (a, da)) = chi c a /\ fst (gf_k num_dual g (a, da)) = f_k c a /\ fst (gD num_dual g (a, da)) = D c a /\ fst (gf num_dual g (a, da)) = f_growth c a.
Proof.
  intros g. assert (E : rv a (a, da)) by reflexivity. destruct (same_programs c a HB) as (E1 & E2 & E3 & E4 & E5 & E6 & E7).
  rewrite <- E1, <- E2, <- E3, <- E4, <- E5, <- E6, <- E7. refine (conj _ (conj _ (conj _ (conj _ (conj _ (conj _ _)))))); apply rv_fst.
  - now apply (p_H num_R num_dual rv rv_num _ _ RC).
  - now apply (p_Omega_m_a num_R num_dual rv rv_num _ _ RC).
  - now apply (p_Omega_de_a num_R num_dual rv rv_num _ _ RC).
  - now apply (p_chi num_R num_dual rv rv_num _ _ RC).
  - now apply (p_f_k num_R num_dual rv rv_num _ _ RC).
  - now apply (p_D num_R num_dual rv rv_num _ _ RC).
  - now apply (p_f num_R num_dual rv rv_num _ _ RC).
Qed.
Lemma rv_transfer_eh : transfer_rel rv (lift_cosmo c) (dual_cosmo c d) (geisenhu num_R) (geisenhu num_dual).
Proof. intros k k' Hk. now apply (p_eisenhu num_R num_dual rv rv_num _ _ RC). Qed.
Lemma rv_transfer_osc : transfer_rel rv (lift_cosmo c) (dual_cosmo c d) (geisenhu_osc num_R) (geisenhu_osc num_dual).
Proof. intros k k' Hk. now apply (p_eisenhu_osc num_R num_dual rv rv_num _ _ RC). Qed.
Local Notation rv_transfer := (rv_transfer c d).
Lemma rv_transfer_any T GT : rv_transfer T GT -> transfer_rel rv (lift_cosmo c) (dual_cosmo c d) (fun _ => T c) GT.
Proof. intros HT k [k' dk] Hk. unfold rv in *. cbn [fst] in Hk. subst k'. symmetry. apply HT. Qed.
Lemma value_transfer : rv_transfer eisenhu (geisenhu num_dual) /\ rv_transfer eisenhu_osc (geisenhu_osc num_dual).
Proof.
  destruct (power_programs c 1 1 HB) as (E1 & E2 & _). split; intros k dk; apply rv_fst; [ rewrite <- E1; now apply rv_transfer_eh | rewrite <- E2; now apply rv_transfer_osc ].
Qed.
Lemma value_linear T GT k dk a da : rv_transfer T GT -> fst (glinear_matter_power num_dual (dual_cosmo c d) (k, dk) (a, da) GT) = linear_matter_power c k a T.
Proof.
  intros HT. destruct (power_programs c k a HB) as (_ & _ & E). rewrite <- (E T (fun _ => T c) ltac:(reflexivity)). apply rv_fst.
  apply (p_linear num_R num_dual rv rv_num _ _ RC); try reflexivity. now apply rv_transfer_any.
Qed.
Lemma value_halofit T GT k dk a da p : rv_transfer T GT -> value (ghalofit num_dual (dual_cosmo c d) (k, dk) (a, da) GT p) = halofit c k a T p.
Proof.
  intros HT. destruct (halofit_programs c k a p T (fun _ => T c) HB ltac:(reflexivity)) as [_ E]. rewrite <- E.
  pose proof (p_halofit num_R num_dual rv rv_num _ _ RC (fun _ => T c) GT (rv_transfer_any T GT HT) k (k, dk) a (a, da) p ltac:(reflexivity) ltac:(reflexivity)) as K.
  destruct (ghalofit num_R (lift_cosmo c) k a (fun _ => T c) p), (ghalofit num_dual (dual_cosmo c d) (k, dk) (a, da) GT p); cbn [res_rel] in K; try contradiction; cbn [value]; now rewrite K.
Qed.
Local Notation rv_spectrum := (rv_spectrum c d).
Lemma rv_spectrum_any T nl P : rv_spectrum T nl P -> spectrum_rel rv (lift_cosmo c) (dual_cosmo c d) (fun _ k a => nonlinear_matter_power c k a T nl) P.
Proof. intros HP k [k' dk] a [a' da] Hk Ha. unfold rv in *. cbn [fst] in Hk, Ha. subst k' a'. symmetry. apply HP. Qed.
Lemma value_spectra T nl P ells probes : _gamma c = None -> (forall b, limber_epoch probes b -> 0 < b /\ D c b <> 0) -> rv_spectrum T nl P ->
  values (gangular_cl num_dual (dual_cosmo c d) ells probes P) = angular_cl c ells probes T nl.
Proof.
  intros NG HD HP. destruct (probes_programs c [] 0 probes T nl (fun _ k a => nonlinear_matter_power c k a T nl) HB NG) as [_ E]. specialize (E HD ltac:(reflexivity) ells). rewrite <- E.
  pose proof (q_angular num_R num_dual rv rv_num _ _ RC _ P (rv_spectrum_any T nl P HP) ells probes) as K.
  destruct (gangular_cl num_R (lift_cosmo c) ells probes _), (gangular_cl num_dual (dual_cosmo c d) ells probes P); cbn [res_rel] in K; try contradiction; cbn [values]; [ | now rewrite K ].
  apply rv_mat in K. now rewrite K.
Qed.
Lemma value_survey la T nl P ells probes f_sky sparse data il method : linalg_sized la -> _gamma c = None -> (forall b, limber_epoch probes b -> 0 < b /\ D c b <> 0) -> rv_spectrum T nl P ->
  value (gsurvey_likelihood num_dual (linalg_dual la) (dual_cosmo c d) ells probes P f_sky sparse data il method) = survey_likelihood la c ells probes T nl f_sky sparse data il method.
Proof.
  intros HS NG HD HP. destruct (like_programs la c probes ells T nl (fun _ k a => nonlinear_matter_power c k a T nl) f_sky sparse data il method HB NG) as [_ E]. destruct (E HD ltac:(reflexivity)) as [_ E']. rewrite <- E'.
  pose proof (q_survey num_R num_dual rv rv_num _ _ (rv_linalg la HS) _ _ ells probes _ P f_sky sparse data il method RC (rv_spectrum_any T nl P HP)) as K.
  destruct (gsurvey_likelihood num_R (linalg_R la) (lift_cosmo c) ells probes _ f_sky sparse data il method), (gsurvey_likelihood num_dual (linalg_dual la) (dual_cosmo c d) ells probes P f_sky sparse data il method); cbn [res_rel] in K; try contradiction; cbn [value]; now rewrite K.
Qed.
Lemma rv_spectrum_halofit T GT : rv_transfer T GT -> rv_spectrum T halofit_default (ghalofit_default num_dual GT).
Proof.
  intros HT k dk a da. unfold nonlinear_matter_power, halofit_default, ghalofit_default.
  pose proof (value_halofit T GT k dk a da "takahashi2012" HT) as K. destruct (ghalofit num_dual _ _ _ _ _), (halofit c k a T "takahashi2012"); cbn [value] in K; try discriminate; [ now injection K | reflexivity ].
Qed.
Lemma rv_spectrum_linear T GT : rv_transfer T GT -> rv_spectrum T linear (fun g k a => glinear_matter_power num_dual g k a GT).
Proof. intros HT k dk a da. unfold nonlinear_matter_power, linear. now apply value_linear. Qed.
Lemma rv_eh osc : rv_transfer (eh osc) (geh num_dual osc).
Proof. destruct osc; [ exact (proj2 value_transfer) | exact (proj1 value_transfer) ]. Qed.
Lemma rv_model nl osc : rv_spectrum (eh osc) (model_nl nl) (gmodel num_dual nl osc).
Proof. destruct nl; [ exact (rv_spectrum_halofit _ _ (rv_eh osc)) | exact (rv_spectrum_linear _ _ (rv_eh osc)) ]. Qed.
Lemma value_power k dk a da osc : let g := dual_cosmo c d in
  fst (geh num_dual osc g (k, dk)) = eh osc c k /\
  fst (glinear_matter_power num_dual g (k, dk) (a, da) (geh num_dual osc)) = linear_matter_power c k a (eh osc) /\
  forall p, value (ghalofit num_dual g (k, dk) (a, da) (geh num_dual osc) p) = halofit c k a (eh osc) p.
Proof. split; [ apply rv_eh | split; [ apply value_linear, rv_eh | intros p; apply value_halofit, rv_eh ]]. Qed.
Lemma value_default nl osc ells probes : _gamma c = None -> (forall b, limber_epoch probes b -> 0 < b /\ D c b <> 0) ->
  values (gangular_cl num_dual (dual_cosmo c d) ells probes (gmodel num_dual nl osc)) = angular_cl c ells probes (eh osc) (model_nl nl) /\
  forall la l f_sky sparse data il method, linalg_sized la ->
    value (gsurvey_likelihood num_dual (linalg_dual la) (dual_cosmo c d) l probes (gmodel num_dual nl osc) f_sky sparse data il method)
    = survey_likelihood la c l probes (eh osc) (model_nl nl) f_sky sparse data il method.
Proof. intros NG HD. split; [ apply value_spectra | intros; apply value_survey ]; try assumption; apply rv_model. Qed.
End Values.

(** ** gradients *)
Definition unit_direction (q : nat) : direction :=
  let e i := if Nat.eqb q i then 1 else 0 in Direction (e 0%nat) (e 1%nat) (e 2%nat) (e 3%nat) (e 4%nat) (e 5%nat) (e 6%nat) (e 7%nat).
Definition weight (d : direction) (x y : R) (q : nat) : R :=
  nth q [dOmega_c d; dOmega_b d; dh d; dn_s d; dsigma8 d; dOmega_k d; dw0 d; dwa d; x; y] 0.
Lemma comb_units d x y : comb 10 (weight d x y) unit_direction = d.
Proof. destruct d. unfold comb, weight, unit_direction. cbn. f_equal; ring. Qed.
Definition slot (i q : nat) : R := if Nat.eqb q i then 1 else 0.
Lemma slot_8 d x y : Rsum 10 (fun q => weight d x y q * slot 8 q) = x.
Proof. unfold weight, slot. cbn. ring. Qed.
Lemma slot_9 d x y : Rsum 10 (fun q => weight d x y q * slot 9 q) = y.
Proof. unfold weight, slot. cbn. ring. Qed.
Definition packed (J : nat -> R) : direction := Direction (J 0%nat) (J 1%nat) (J 2%nat) (J 3%nat) (J 4%nat) (J 5%nat) (J 6%nat) (J 7%nat).
Lemma packed_dot J d x y : Rsum 10 (fun q => weight d x y q * J q) = dot (packed J) d + J 8%nat * x + J 9%nat * y.
Proof. unfold weight, dot, packed. cbn. ring. Qed.
Lemma dot_unit g h : (forall d, dot g d = dot h d) -> g = h.
Proof.
  intros E. destruct g as [g0 g1 g2 g3 g4 g5 g6 g7], h as [h0 h1 h2 h3 h4 h5 h6 h7].
  pose proof (E (unit_direction 0)) as E0. pose proof (E (unit_direction 1)) as E1. pose proof (E (unit_direction 2)) as E2. pose proof (E (unit_direction 3)) as E3.
  pose proof (E (unit_direction 4)) as E4. pose proof (E (unit_direction 5)) as E5. pose proof (E (unit_direction 6)) as E6. pose proof (E (unit_direction 7)) as E7.
  unfold dot, unit_direction in *. cbn in *. f_equal; lra.
Qed.
Lemma dot_row (u v : list (R * direction)) : (forall d, map (fun p => (fst p, dot (snd p) d)) u = map (fun p => (fst p, dot (snd p) d)) v) -> u = v.
Proof.
  revert v. induction u as [ | [x g] u IH]; intros [ | [y h] v] E; try reflexivity; try (specialize (E (unit_direction 0)); discriminate).
  f_equal; [ | apply IH; intros d; specialize (E d); cbn [map fst snd] in E; congruence ].
  pose proof (E (unit_direction 0)) as E0. cbn [map fst snd] in E0. f_equal; [ congruence | ]. apply dot_unit. intros d. specialize (E d). cbn [map fst snd] in E. congruence.
Qed.
Lemma dot_rows (u v : list (list (R * direction))) : (forall d, map (map (fun p => (fst p, dot (snd p) d))) u = map (map (fun p => (fst p, dot (snd p) d))) v) -> u = v.
Proof.
  revert v. induction u as [ | x u IH]; intros [ | y v] E; try reflexivity; try (specialize (E (unit_direction 0)); discriminate).
  f_equal; [ apply dot_row | apply IH ]; intros d; specialize (E d); cbn [map] in E; congruence.
Qed.
Lemma dot_0_r g : dot g (unit_direction 8) = 0. Proof. unfold dot, unit_direction. cbn. ring. Qed.
Lemma gradient2_of F J : (forall d x y, F d x y = Rsum 10 (fun q => weight d x y q * J q)) -> has_gradient2 F.
Proof.
  intros E. exists (packed J, J 8%nat, J 9%nat). split; [ intros d x y; rewrite E, packed_dot; reflexivity | ]. intros [[g u] v] E'. cbn [fst snd] in *.
  assert (Q : forall d x y, dot (packed J) d + J 8%nat * x + J 9%nat * y = dot g d + u * x + v * y) by (intros d x y; rewrite <- E', E, packed_dot; reflexivity).
  pose proof (Q (unit_direction 8) 1 0) as Q1. pose proof (Q (unit_direction 8) 0 1) as Q2. rewrite !dot_0_r in Q1, Q2. f_equal; [ f_equal | ]; [ | lra | lra ].
  apply dot_unit. intros d. specialize (Q d 0 0). lra.
Qed.
Lemma gradient1_of F J : (forall d x, F d x = Rsum 10 (fun q => weight d x 0 q * J q)) -> has_gradient1 F.
Proof.
  intros E. exists (packed J, J 8%nat). split; [ intros d x; rewrite E, packed_dot; cbn [fst snd]; ring | ]. intros [g u] E'. cbn [fst snd] in *.
  assert (Q : forall d x, dot (packed J) d + J 8%nat * x = dot g d + u * x) by (intros d x; rewrite <- E', E, packed_dot; ring).
  pose proof (Q (unit_direction 8) 1) as Q1. rewrite !dot_0_r in Q1. f_equal; [ | lra ]. apply dot_unit. intros d. specialize (Q d 0). lra.
Qed.
Section Gradients.
Variables (c : cosmology).
Local Notation W d x y := (weight d x y).
Lemma RW d x y : cosmo_rel (rw 10 (W d x y)) (many_cosmo c unit_direction) (dual_cosmo c d).
Proof. rewrite <- (comb_units d x y) at 2. apply rw_cosmo. Qed.
Lemma rw8 d x y k : rw 10 (W d x y) (k, slot 8) (k, x). Proof. split; [ reflexivity | symmetry; apply slot_8 ]. Qed.
Lemma rw9 d x y k : rw 10 (W d x y) (k, slot 9) (k, y). Proof. split; [ reflexivity | symmetry; apply slot_9 ]. Qed.
Lemma gradient1 (Gm : gcosmo many -> many -> many) (Gd : gcosmo dual -> dual -> dual) a :
  (forall w x x', cosmo_rel (rw 10 w) (many_cosmo c unit_direction) x -> rw 10 w (a, slot 8) x' -> rw 10 w (Gm (many_cosmo c unit_direction) (a, slot 8)) (Gd x x')) ->
  has_gradient1 (fun d x => snd (Gd (dual_cosmo c d) (a, x))).
Proof. intros K. apply (gradient1_of _ (snd (Gm (many_cosmo c unit_direction) (a, slot 8)))). intros d x. exact (proj2 (K (W d x 0) _ _ (RW d x 0) (rw8 d x 0 a))). Qed.
Lemma gradient2 (Gm : gcosmo many -> many -> many -> many) (Gd : gcosmo dual -> dual -> dual -> dual) k a :
  (forall w x u v, cosmo_rel (rw 10 w) (many_cosmo c unit_direction) x -> rw 10 w (k, slot 8) u -> rw 10 w (a, slot 9) v -> rw 10 w (Gm (many_cosmo c unit_direction) (k, slot 8) (a, slot 9)) (Gd x u v)) ->
  has_gradient2 (fun d x y => snd (Gd (dual_cosmo c d) (k, x) (a, y))).
Proof. intros K. apply (gradient2_of _ (snd (Gm (many_cosmo c unit_direction) (k, slot 8) (a, slot 9)))). intros d x y. exact (proj2 (K (W d x y) _ _ _ (RW d x y) (rw8 d x y k) (rw9 d x y a))). Qed.
Local Notation NR w := (rw_num 10 w).
Lemma gradient_background a : let along G := has_gradient1 (fun d x => snd (G (dual_cosmo c d) (a, x))) in
  along (gH num_dual) /\ along (gOmega_m_a num_dual) /\ along (gOmega_de_a num_dual) /\ along (gdchioverda num_dual) /\ along (gchi num_dual) /\ along (ga_of_chi num_dual) /\
  along (gf_k num_dual) /\ along (gd_A num_dual) /\ along (gD num_dual) /\ along (gf num_dual).
Proof.
  intros along. unfold along. refine (conj _ (conj _ (conj _ (conj _ (conj _ (conj _ (conj _ (conj _ (conj _ _))))))))).
  - apply (gradient1 (gH num_many)). intros w x x' HC Hx. now apply (p_H _ _ _ (NR w)).
  - apply (gradient1 (gOmega_m_a num_many)). intros w x x' HC Hx. now apply (p_Omega_m_a _ _ _ (NR w)).
  - apply (gradient1 (gOmega_de_a num_many)). intros w x x' HC Hx. now apply (p_Omega_de_a _ _ _ (NR w)).
  - apply (gradient1 (gdchioverda num_many)). intros w x x' HC Hx. now apply (p_dchioverda _ _ _ (NR w)).
  - apply (gradient1 (gchi num_many)). intros w x x' HC Hx. now apply (p_chi _ _ _ (NR w)).
  - apply (gradient1 (ga_of_chi num_many)). intros w x x' HC Hx. now apply (p_a_of_chi _ _ _ (NR w)).
  - apply (gradient1 (gf_k num_many)). intros w x x' HC Hx. now apply (p_f_k _ _ _ (NR w)).
  - apply (gradient1 (gd_A num_many)). intros w x x' HC Hx. now apply (p_d_A _ _ _ (NR w)).
  - apply (gradient1 (gD num_many)). intros w x x' HC Hx. now apply (p_D _ _ _ (NR w)).
  - apply (gradient1 (gf num_many)). intros w x x' HC Hx. now apply (p_f _ _ _ (NR w)).
Qed.
Lemma rw_eh w x osc : cosmo_rel (rw 10 w) (many_cosmo c unit_direction) x -> transfer_rel (rw 10 w) (many_cosmo c unit_direction) x (geh num_many osc) (geh num_dual osc).
Proof. intros HC k k' Hk. destruct osc; cbn [geh]; [ now apply (p_eisenhu_osc _ _ _ (NR w)) | now apply (p_eisenhu _ _ _ (NR w)) ]. Qed.
Lemma rw_model w x nl osc : cosmo_rel (rw 10 w) (many_cosmo c unit_direction) x -> spectrum_rel (rw 10 w) (many_cosmo c unit_direction) x (gmodel num_many nl osc) (gmodel num_dual nl osc).
Proof. intros HC. destruct nl; cbn [gmodel]; [ now apply (p_spectrum_halofit _ _ _ (NR w)), rw_eh | now apply (p_spectrum_linear _ _ _ (NR w)), rw_eh ]. Qed.
Lemma gradient_power k a osc : has_gradient1 (fun d x => snd (geh num_dual osc (dual_cosmo c d) (k, x))) /\
  has_gradient2 (fun d x y => snd (glinear_matter_power num_dual (dual_cosmo c d) (k, x) (a, y) (geh num_dual osc))) /\
  forall p, p = "smith2003"%string \/ p = "takahashi2012"%string ->
    exists v F, (forall d x y, ghalofit num_dual (dual_cosmo c d) (k, x) (a, y) (geh num_dual osc) p = Ok (v, F d x y)) /\ has_gradient2 F.
Proof.
  split; [ | split ].
  - apply (gradient1 (geh num_many osc)). intros w x x' HC Hx. now apply rw_eh.
  - apply (gradient2 (fun g k a => glinear_matter_power num_many g k a (geh num_many osc)) (fun g k a => glinear_matter_power num_dual g k a (geh num_dual osc))).
    intros w x u v HC Hu Hv. apply (p_linear _ _ _ (NR w)); try assumption. now apply rw_eh.
  - intros p Hp. assert (O : exists z, ghalofit num_many (many_cosmo c unit_direction) (k, slot 8) (a, slot 9) (geh num_many osc) p = Ok z).
    { unfold ghalofit. destruct (ghalofit_parameters num_many (many_cosmo c unit_direction) (a, slot 9) (geh num_many osc)) as [[? ?] ?]. destruct Hp as [-> | ->]; cbv zeta; cbn [String.eqb Ascii.eqb Bool.eqb]; eauto. }
    destruct O as [[v J] EO].
    assert (K : forall d x y, exists z, ghalofit num_dual (dual_cosmo c d) (k, x) (a, y) (geh num_dual osc) p = Ok z /\ rw 10 (W d x y) (v, J) z).
    { intros d x y. pose proof (p_halofit _ _ _ (NR (W d x y)) _ _ (RW d x y) _ _ (rw_eh (W d x y) _ osc (RW d x y)) (k, slot 8) (k, x) (a, slot 9) (a, y) p (rw8 d x y k) (rw9 d x y a)) as K.
      rewrite EO in K. destruct (ghalofit num_dual (dual_cosmo c d) (k, x) (a, y) (geh num_dual osc) p) as [z | e]; cbn [res_rel] in K; [ eauto | contradiction ]. }
    exists v, (fun d x y => Rsum 10 (fun q => W d x y q * J q)). split.
    + intros d x y. destruct (K d x y) as ((z1 & z2) & E & [K1 K2]). rewrite E. cbn [fst snd] in K1, K2. now subst.
    + now apply (gradient2_of _ J).
Qed.
Lemma gradient_spectra nl osc ells probes : rows_gradient (fun d => gangular_cl num_dual (dual_cosmo c d) ells probes (gmodel num_dual nl osc)).
Proof.
  assert (K := fun d => q_angular _ _ _ (NR (W d 0 0)) _ _ (RW d 0 0) _ _ (rw_model (W d 0 0) _ nl osc (RW d 0 0)) ells probes).
  destruct (gangular_cl num_many (many_cosmo c unit_direction) ells probes (gmodel num_many nl osc)) as [M | e].
  - right. exists (map (map (fun x : many => (fst x, packed (snd x)))) M). assert (G : forall d, gangular_cl num_dual (dual_cosmo c d) ells probes (gmodel num_dual nl osc) = Ok (map (map (fun p => (fst p, dot (snd p) d))) (map (map (fun x : many => (fst x, packed (snd x)))) M))).
    2:{ split; [ exact G | ]. intros V HV. apply dot_rows. intros d. specialize (HV d). rewrite G in HV. now injection HV. }
    intros d. specialize (K d). destruct (gangular_cl num_dual (dual_cosmo c d) ells probes (gmodel num_dual nl osc)) as [M' | e]; cbn [res_rel] in K; [ | contradiction ].
    f_equal. induction K as [ | u v M M' Ku _ IH]; cbn [map]; [ reflexivity | ]. f_equal; [ | exact IH ]. clear IH. induction Ku as [ | x [y1 y2] u v [E1 E2] _ IH]; cbn [map]; [ reflexivity | ]. f_equal; [ | exact IH ].
    cbn [fst snd] in *. rewrite packed_dot in E2. subst y1 y2. f_equal. ring.
  - left. exists e. intros d. specialize (K d). destruct (gangular_cl num_dual (dual_cosmo c d) ells probes (gmodel num_dual nl osc)); cbn [res_rel] in K; [ contradiction | now rewrite K ].
Qed.
Lemma gradient_survey la nl osc ells probes f_sky sparse data il method : solve_linear la ->
  result_gradient (fun d => gsurvey_likelihood num_dual (linalg_dual la) (dual_cosmo c d) ells probes (gmodel num_dual nl osc) f_sky sparse data il method).
Proof.
  intros HS. assert (K := fun d => q_survey _ _ _ (NR (W d 0 0)) _ _ (rw_linalg 10 (W d 0 0) la HS) _ _ ells probes _ _ f_sky sparse data il method (RW d 0 0) (rw_model (W d 0 0) _ nl osc (RW d 0 0))).
  destruct (gsurvey_likelihood num_many (linalg_many la) (many_cosmo c unit_direction) ells probes (gmodel num_many nl osc) f_sky sparse data il method) as [[v J] | e].
  - right. exists (v, packed J). match goal with |- unique ?P _ => assert (G : P (v, packed J)) end.
    2:{ split; [ exact G | ]. intros [v' g'] H'. cbn [fst snd] in *. assert (Q : forall d, (v, dot (packed J) d) = (v', dot g' d)) by (intros d; specialize (G d); specialize (H' d); cbv beta in G, H'; congruence).
      f_equal; [ specialize (Q (unit_direction 0)); congruence | ]. apply dot_unit. intros d. specialize (Q d). congruence. }
    intros d. specialize (K d). cbn [fst snd]. destruct (gsurvey_likelihood num_dual _ _ _ _ _ _ _ _ _ _) as [[z1 z2] | e]; cbn [res_rel] in K; [ | contradiction ]. destruct K as [K1 K2]. cbn [fst snd] in *. rewrite packed_dot in K2. subst. do 2 f_equal. ring.
  - left. exists e. intros d. specialize (K d). destruct (gsurvey_likelihood num_dual _ _ _ _ _ _ _ _ _ _); cbn [res_rel] in K; [ contradiction | now rewrite K ].
Qed.
End Gradients.

(** ** the statements, with all their quantifiers *)
Lemma c_value_background c d a da : built c -> let g := dual_cosmo c d in
  fst (gH num_dual g (a, da)) = H c a /\ fst (gOmega_m_a num_dual g (a, da)) = Omega_m_a c a /\ fst (gOmega_de_a num_dual g (a, da)) = Omega_de_a c a /\
  fst (gchi num_dual g (a, da)) = chi c a /\ fst (gf_k num_dual g (a, da)) = f_k c a /\ fst (gD num_dual g (a, da)) = D c a /\ fst (gf num_dual g (a, da)) = f_growth c a.
Proof. intros HB. exact (value_background c d HB a da). Qed.
Lemma c_value_power c d k dk a da osc : built c -> let g := dual_cosmo c d in
  fst (geh num_dual osc g (k, dk)) = eh osc c k /\
  fst (glinear_matter_power num_dual g (k, dk) (a, da) (geh num_dual osc)) = linear_matter_power c k a (eh osc) /\
  forall p, value (ghalofit num_dual g (k, dk) (a, da) (geh num_dual osc) p) = halofit c k a (eh osc) p.
Proof. intros HB. exact (value_power c d HB k dk a da osc). Qed.
Lemma c_value_spectra c d T nl P ells probes : built c -> _gamma c = None -> (forall b, limber_epoch probes b -> 0 < b /\ D c b <> 0) -> AdJacSpec.rv_spectrum c d T nl P ->
  values (gangular_cl num_dual (dual_cosmo c d) ells probes P) = angular_cl c ells probes T nl.
Proof. intros HB. exact (value_spectra c d HB T nl P ells probes). Qed.
Lemma c_value_survey c d la T nl P ells probes f_sky sparse data il method : built c -> linalg_sized la -> _gamma c = None -> (forall b, limber_epoch probes b -> 0 < b /\ D c b <> 0) -> AdJacSpec.rv_spectrum c d T nl P ->
  value (gsurvey_likelihood num_dual (linalg_dual la) (dual_cosmo c d) ells probes P f_sky sparse data il method) = survey_likelihood la c ells probes T nl f_sky sparse data il method.
Proof. intros HB. exact (value_survey c d HB la T nl P ells probes f_sky sparse data il method). Qed.
Lemma c_value_default c d nl osc ells probes : built c -> _gamma c = None -> (forall b, limber_epoch probes b -> 0 < b /\ D c b <> 0) ->
  values (gangular_cl num_dual (dual_cosmo c d) ells probes (gmodel num_dual nl osc)) = angular_cl c ells probes (eh osc) (model_nl nl) /\
  forall la l f_sky sparse data il method, linalg_sized la ->
    value (gsurvey_likelihood num_dual (linalg_dual la) (dual_cosmo c d) l probes (gmodel num_dual nl osc) f_sky sparse data il method)
    = survey_likelihood la c l probes (eh osc) (model_nl nl) f_sky sparse data il method.
Proof. intros HB. exact (value_default c d HB nl osc ells probes). Qed.
Lemma c_gradient_background c a : let along G := has_gradient1 (fun d x => snd (G (dual_cosmo c d) (a, x))) in
  along (gH num_dual) /\ along (gOmega_m_a num_dual) /\ along (gOmega_de_a num_dual) /\ along (gdchioverda num_dual) /\ along (gchi num_dual) /\ along (ga_of_chi num_dual) /\
  along (gf_k num_dual) /\ along (gd_A num_dual) /\ along (gD num_dual) /\ along (gf num_dual).
Proof. exact (gradient_background c a). Qed.
Lemma c_gradient_power c k a osc : has_gradient1 (fun d x => snd (geh num_dual osc (dual_cosmo c d) (k, x))) /\
  has_gradient2 (fun d x y => snd (glinear_matter_power num_dual (dual_cosmo c d) (k, x) (a, y) (geh num_dual osc))) /\
  forall p, p = "smith2003"%string \/ p = "takahashi2012"%string ->
    exists v F, (forall d x y, ghalofit num_dual (dual_cosmo c d) (k, x) (a, y) (geh num_dual osc) p = Ok (v, F d x y)) /\ has_gradient2 F.
Proof. exact (gradient_power c k a osc). Qed.
Lemma c_gradient_spectra c nl osc ells probes : rows_gradient (fun d => gangular_cl num_dual (dual_cosmo c d) ells probes (gmodel num_dual nl osc)).
Proof. exact (gradient_spectra c nl osc ells probes). Qed.
Lemma c_gradient_survey c la nl osc ells probes f_sky sparse data il method : solve_linear la ->
  result_gradient (fun d => gsurvey_likelihood num_dual (linalg_dual la) (dual_cosmo c d) ells probes (gmodel num_dual nl osc) f_sky sparse data il method).
Proof. exact (gradient_survey c la nl osc ells probes f_sky sparse data il method). Qed.
