(** * Surveys satisfying the hypotheses of the likelihood theorems in floating point *)
From Coq Require Import Reals Lra Lia ZArith String List.
From Coquelicot Require Import Coquelicot.
From Verif Require Import FinRules FinBg FinGrowth FinTransfer FinPower FinHalofit.
From Verif Require Import SparseX AdNan AdNanSpec AdNanFinal.
From Verif Require Import Np NpLemmas Core Sparse SparseSpec Likelihood LikelihoodSpec Interp Integrate IntegrateSpec Background BgSpec BgPositive Transfer TransferProofs Power ExPower Redshift Bias Probes ProbesSpec
  AngularCl AclSpec CovSpec CovPsd GradSpec MxBridge DetProofs
  Ad AdSpec AdFinal AdPower AdPowerFinal AdProbes AdRel AdProbesFinal AdArrSpec AdHalofit AdHalofitSpec AdLike AdLikeSpec AdNuis AdNuisSpec AdNuisNz AdNuisFinal AdNuisLike ExAdHalofit ExNuis ExNuisHalo ExNuisLike ExJac ExCov
  FinOps FinNz FinSurvey FinSpec FinProbes FinFinal FinLike ExFin AdNuisBack AdNuisBackSpec XBack XBackSpec XBackProofs XBackFinal ExXBack XLike XLikeProofs XLikeFinal.
Import ListNotations.
Local Open Scope R_scope.
Opaque chi_table growth_table_ODE growth_table_gamma logspace.
Local Notation C g := (fun w t => read_cosmo (leaf_at w t) g).
Local Notation c0 g := (read_cosmo fst g).

(** oracles that are exact on finite matrices: strip the [Fin], use the real oracle *)
Definition xl_of (la : linalg) : xlinalg :=
  let unfin := map (fun x => match x with Fin a => a | _ => 0 end) in
  XLinalg (fun n m => map fins (la_inv la n (map unfin m))) (fun n m => Fin (snd (la_slogdet la n (map unfin m)))) (fun n m r => fins (la_cho_solve la n (map unfin m) (unfin r))).
Lemma unfin_fins v : map (fun x => match x with Fin a => a | _ => 0 end) (fins v) = v.
Proof. unfold fins. rewrite map_map. apply map_id. Qed.
Lemma unfin_fins2 m : map (map (fun x => match x with Fin a => a | _ => 0 end)) (map fins m) = m.
Proof. rewrite map_map. rewrite <- (map_id m) at 2. apply map_ext. apply unfin_fins. Qed.
Lemma ex_exact : exists la xl, linalg_ok la /\ linalg_shaped la /\ exact_on_finite la xl.
Proof.
  destruct ex_oracles as (la & H1 & H2 & _). exists la, (xl_of la). split; [ exact H1 | split; [ exact H2 | ]].
  repeat split; cbn [xl_of xl_inv xl_logdet xl_cho_solve]; intros; now rewrite ?unfin_fins2, ?unfin_fins.
Qed.
Lemma ex_x_survey : let g := planck_x faint in let S := mvx_survey in let V := values (map plain_probe S) in
  finite_cosmo g /\ (forall p, In p S -> finite_probe p) /\ expanding (cosmo_at 0 g) /\ _gamma (cosmo_at 0 g) = None /\ physical (cosmo_at 0 g) /\ moderate (cosmo_at 0 g) /\
  transfer_carried eisenhu (geisenhu num_x) g /\ sigmasqr_default (cosmo_at 0 g) 8.0 eisenhu <> 0 /\
  shallow (concat (map bins_of V)) /\ off_clip chi (cosmo_at 0 g) V /\ survey_smooth (map plain_probe S) /\
  (eisenhu (cosmo_at 0 g) (1 / 10000) <> 0 /\ _sigma8 (cosmo_at 0 g) <> 0 /\ forall b, limber_epoch V b -> scale_found (cosmo_at 0 g) b eisenhu /\ forall k, formula_smooth (cosmo_at 0 g) k b eisenhu "takahashi2012") /\
  probes_ok V /\ noise_positive V /\ (forall p b, In p S -> In b (gbins_of p) -> x_val (gnz_gals b) <> 0) /\
  (2 <= length ell3)%nat /\ (forall l, In l ell3 -> 0 <= l) /\ (forall l, (l < length ell3)%nat -> 0 < knox_norm ell3 0.25 l) /\ (length ell3 * length (get_cl_ordering V))%nat = 30%nat.
Proof.
  cbv zeta. destruct ex_finite_default as (H1 & H2 & H3 & H4 & H5 & H6 & H7 & H8 & H9 & H10 & H11 & H12 & H13 & H14).
  destruct ex_nuisance_survey as (_ & _ & _ & _ & _ & _ & _ & _ & _ & _ & _ & _ & _ & K1 & K2 & K3 & K4 & K5 & K6 & K7). rewrite mvx_plain in *.
  repeat (split; [ first [ assumption | now split ] | ]). split; [ | repeat (split; [ assumption | ]); assumption ].
  intros p b Hp Hb. assert (Q := K3 (plain_probe p) (plain_nz b)). unfold mvx_survey in Hp.
  repeat (destruct Hp as [<- | Hp]; [ cbn in Hb; repeat (destruct Hb as [<- | Hb]; [ cbn; unfold x_val; cbn; lra | ]); destruct Hb | ]); destruct Hp.
Qed.
Lemma ex_leaf_survey : let g := planck_leaf faint in let S := leaf_survey in let V := map (read_probe fst) S in
  expanding (c0 g) /\ _gamma (c0 g) = None /\ physical (c0 g) /\ moderate (c0 g) /\ eh_regular false (c0 g) /\ sigmasqr_default (c0 g) 8.0 (eh false) <> 0 /\
  shallow (concat (map bins_of V)) /\ off_clip chi (c0 g) V /\ survey_smooth (map (probe_map all_move) S) /\
  (eh false (c0 g) (1 / 10000) <> 0 /\ _sigma8 (c0 g) <> 0 /\ forall b, limber_epoch V b -> scale_found (c0 g) b (eh false) /\ forall k, formula_smooth (c0 g) k b (eh false) "takahashi2012") /\
  probes_ok V /\ noise_positive V /\ (forall p b, In p S -> In b (gbins_of p) -> fst (gnz_gals b) <> 0) /\
  (2 <= length ell3)%nat /\ (forall l, In l ell3 -> 0 <= l) /\ (forall l, (l < length ell3)%nat -> 0 < knox_norm ell3 0.25 l) /\ (length ell3 * length (get_cl_ordering V))%nat = 30%nat.
Proof.
  cbv zeta. destruct ex_grad_default as (H1 & H2 & H3 & H4 & H5 & H6 & H7 & H8 & H9 & H10 & H11 & H12).
  destruct ex_nuisance_survey as (_ & _ & _ & _ & _ & _ & _ & _ & _ & _ & _ & _ & _ & K1 & K2 & K3 & K4 & K5 & K6 & K7). rewrite leaf_values in *.
  repeat (split; [ first [ assumption | now split ] | ]). split; [ | repeat (split; [ assumption | ]); assumption ].
  intros p b Hp Hb. unfold leaf_survey in Hp.
  repeat (destruct Hp as [<- | Hp]; [ cbn in Hb; repeat (destruct Hb as [<- | Hb]; [ cbn; lra | ]); destruct Hb | ]); destruct Hp.
Qed.
