(** * Proofs about printed forms and about the option ksteps *)
From Coq Require Import String Ascii.
From Coquelicot Require Import Coquelicot.
From Verif Require Import Np NpLemmas Integrate IntegrateSpec SimpsProofs RombProofs RombPos Core Interp Background BgSpec BgPositive BgGrowth BgFinal2 BgFinal4 BgAlgebra BgCompare Pytree PytreeSpec Transfer Power PowerSpec PowerProofs PowerFinal Show ShowSpec.
Opaque chi_table growth_table_ODE growth_table_gamma logspace.

(** ** strings *)
Definition clean (P : ascii -> bool) (s : string) : Prop := forall a, In a (chars s) -> P a = false.
Definition headed (P : ascii -> bool) (s : string) : Prop := exists a t, s = String a t /\ P a = true.
Lemma split_first P s1 : forall s2 t1 t2, clean P s1 -> clean P s2 -> headed P t1 -> headed P t2 ->
  (s1 ++ t1 = s2 ++ t2)%string -> s1 = s2 /\ t1 = t2.
Proof.
  induction s1 as [ | a s1 IH]; intros [ | b s2] t1 t2 C1 C2 H1 H2 E; cbn [append] in E.
  - easy.
  - exfalso. destruct H1 as (x & r & -> & Hx). injection E as -> _. rewrite (C2 b) in Hx; [ discriminate | now left ].
  - exfalso. destruct H2 as (x & r & -> & Hx). injection E as -> _. rewrite (C1 x) in Hx; [ discriminate | now left ].
  - injection E as -> E. destruct (IH s2 t1 t2) as [-> ->]; auto; intros c Hc; [ apply C1 | apply C2 ]; now right.
Qed.
Lemma app_cancel p : forall s t, (p ++ s = p ++ t)%string -> s = t.
Proof. induction p as [ | a p IH]; intros s t E; [ exact E | ]. cbn [append] in E. injection E as E. now apply IH. Qed.

Definition blank (a : ascii) : bool := Ascii.eqb a " "%char.
Definition closing (a : ascii) : bool := orb (Ascii.eqb a ","%char) (Ascii.eqb a ")"%char).
Lemma clean_blank F show x : prints F show -> F x -> clean blank (show x).
Proof. intros [_ H] Hx a Ha. unfold blank. destruct (Ascii.eqb_spec a " "%char) as [-> | ]; [ | reflexivity ]. now destruct (H x Hx). Qed.
Lemma clean_closing F show x : prints F show -> F x -> clean closing (show x).
Proof.
  intros [_ H] Hx a Ha. unfold closing. destruct (H x Hx) as (_ & H1 & H2).
  destruct (Ascii.eqb_spec a ","%char) as [-> | ]; [ easy | ]. destruct (Ascii.eqb_spec a ")"%char) as [-> | ]; [ easy | reflexivity ].
Qed.

(** ** the printed cosmology *)
Lemma field_cancel F show x y t1 t2 : prints F show -> F x -> F y -> headed blank t1 -> headed blank t2 ->
  (show x ++ t1 = show y ++ t2)%string -> x = y /\ t1 = t2.
Proof.
  intros P Hx Hy H1 H2 E. destruct (split_first blank _ _ _ _ (clean_blank F show x P Hx) (clean_blank F show y P Hy) H1 H2 E) as [E1 E2].
  split; [ now apply (proj1 P) | exact E2 ].
Qed.
Lemma str_params F show c c' : prints F show ->
  (F (_h c) /\ F (_Omega_b c) /\ F (_Omega_c c) /\ F (_Omega_k c) /\ F (_w0 c) /\ F (_wa c) /\ F (_n_s c) /\ F (_sigma8 c)) ->
  (F (_h c') /\ F (_Omega_b c') /\ F (_Omega_c c') /\ F (_Omega_k c') /\ F (_w0 c') /\ F (_wa c') /\ F (_n_s c') /\ F (_sigma8 c')) ->
  cosmo_str show c = cosmo_str show c' ->
  (_h c = _h c' /\ _Omega_b c = _Omega_b c' /\ _Omega_c c = _Omega_c c' /\ _Omega_k c = _Omega_k c' /\
   _w0 c = _w0 c' /\ _wa c = _wa c' /\ _n_s c = _n_s c' /\ _sigma8 c = _sigma8 c').
Proof.
  intros P (A1 & A2 & A3 & A4 & A5 & A6 & A7 & A8) (B1 & B2 & B3 & B4 & B5 & B6 & B7 & B8) E. unfold cosmo_str in E.
  apply app_cancel in E. apply app_cancel in E. apply app_cancel in E.
  assert (H : forall t, headed blank (" " ++ t)) by (intros t; exists " "%char, t; now split).
  Ltac peel P H E := eapply field_cancel in E; [ let Q := fresh "Q" in destruct E as [Q E]; do 2 apply app_cancel in E; apply app_cancel in E | exact P | assumption | assumption | apply H | apply H ].
  peel P H E. peel P H E. peel P H E. peel P H E. peel P H E. peel P H E. peel P H E.
  repeat split; auto. now apply (proj1 P).
Qed.
Lemma str_identifies F show a1 a2 a3 a4 a5 a6 a7 a8 b1 b2 b3 b4 b5 b6 b7 b8 : prints F show ->
  Forall F [a1; a2; a3; a4; a5; a6; a7; a8] -> Forall F [b1; b2; b3; b4; b5; b6; b7; b8] ->
  cosmo_str show (make_cosmology a1 a2 a3 a4 a5 a6 a7 a8 None) = cosmo_str show (make_cosmology b1 b2 b3 b4 b5 b6 b7 b8 None) ->
  make_cosmology a1 a2 a3 a4 a5 a6 a7 a8 None = make_cosmology b1 b2 b3 b4 b5 b6 b7 b8 None.
Proof.
  intros P FA FB E. rewrite Forall_forall in FA, FB.
  assert (A : forall x, In x [a1; a2; a3; a4; a5; a6; a7; a8] -> F x) by exact FA. assert (B : forall x, In x [b1; b2; b3; b4; b5; b6; b7; b8] -> F x) by exact FB.
  apply (str_params F) in E; [ | exact P | cbn; repeat split; apply A; cbn; tauto | cbn; repeat split; apply B; cbn; tauto ].
  cbn in E. destruct E as (-> & -> & -> & -> & -> & -> & -> & ->). reflexivity.
Qed.

(** ** gamma is not printed *)
Lemma str_gamma : exists c c' : cosmology, reachable c /\ reachable c' /\ (forall show, cosmo_repr show c = cosmo_repr show c') /\
  _gamma c <> _gamma c' /\ forall a, 0 < a <= 1 -> f_growth c a <> f_growth c' a.
Proof.
  exists planck_gamma, (make_cosmology 0.2589 0.04860 0.6774 0.9667 0.8159 0.0 (-1.0) 0.0 (Some 0.65)).
  set (c' := make_cosmology _ _ _ _ _ _ _ _ _).
  assert (R' : reachable c') by fresh_. assert (P' : physical c') by (unfold c'; phys).
  destruct planck_gamma_ok as (R0 & P0 & _ & G0).
  split; [ exact R0 | ]. split; [ exact R' | ]. split; [ intros show; reflexivity | ]. split; [ cbn; intros Q; injection Q; lra | ].
  intros a Ha. destruct (gamma_growth_properties _ R0 G0) as (_ & _ & _ & F0). destruct (gamma_growth_properties c' R' eq_refl) as (_ & _ & _ & F1).
  destruct (F0 P0 a ltac:(lra)) as [-> _]. destruct (F1 P' a ltac:(lra)) as [-> _].
  change (Omega_m_a c' a) with (Omega_m_a planck_gamma a). change (gamma_of c') with 0.65. change (gamma_of planck_gamma) with 0.55.
  assert (M : 0 < Omega_m_a planck_gamma a < 1).
  { destruct (Omega_m_a_range _ a P0 ltac:(lra)) as [[M0 _] _]. split; [ exact M0 | ].
    rewrite Omega_m_a_form by (try apply planck_gamma_ok; lra). pose proof (exp_pos (f_de planck_gamma a + 3 * ln a)).
    assert (V : Omega_m planck_gamma = 0.3075 /\ Omega_k planck_gamma = 0 /\ 0.6 < Omega_de planck_gamma).
    { unfold Omega_m, Omega_k, Omega_de, Omega, Omega_m, Omega_k, planck_gamma, make_cosmology; simpl. split; [ | split ]; lra. }
    destruct V as (V1 & V2 & V3). set (d := Omega_m _ + _ + _). assert (0.3075 < d) by (unfold d; rewrite V1, V2; nra).
    apply Rmult_lt_reg_r with d; [ lra | ]. unfold Rdiv. rewrite Rmult_assoc, Rinv_l; lra. }
  intros E. unfold Rpower in E. apply exp_inv in E. assert (ln (Omega_m_a planck_gamma a) < 0) by (rewrite <- ln_1; apply ln_increasing; lra). nra.
Qed.

(** ** containers *)
Lemma commas_inj F show x : prints F show -> Forall F x -> forall y, Forall F y -> commas (map show x) ")" = commas (map show y) ")" -> x = y.
Proof.
  intros P. assert (HD : forall l, headed closing (commas l ")")) by (intros [ | s l]; [ exists ")"%char | exists ","%char ]; eexists; split; reflexivity).
  induction 1 as [ | a x Ha Hx IH]; intros [ | b y] Hy E; try discriminate; [ reflexivity | ].
  inversion Hy as [ | ? ? Hb Hy' ]; subst. cbn [commas map] in E. apply app_cancel in E.
  destruct (split_first closing _ _ _ _ (clean_closing F show a P Ha) (clean_closing F show b P Hb) (HD _) (HD _) E) as [E1 E2].
  apply (proj1 P) in E1; auto. subst. f_equal. now apply IH.
Qed.
Lemma tuple_inj F show x y : prints F show -> Forall F x -> Forall F y -> tuple_str (map show x) = tuple_str (map show y) -> x = y.
Proof.
  intros P Hx Hy E.
  assert (HD : forall l, headed closing (commas l ")")) by (intros [ | s l]; [ exists ")"%char | exists ","%char ]; eexists; split; reflexivity).
  assert (H1 : headed closing ",)") by (exists ","%char; eexists; split; reflexivity).
  assert (EM : forall a t, F a -> headed closing t -> (")" = show a ++ t)%string -> show a = EmptyString /\ t = ")"%string).
  { intros a t Ha Ht Q. assert (Z : ("" ++ ")" = show a ++ t)%string) by exact Q.
    apply (split_first closing) in Z; [ destruct Z; now split | intros ? [] | now apply (clean_closing F) | exists ")"%char; eexists; split; reflexivity | exact Ht ]. }
  destruct x as [ | a [ | a2 x]], y as [ | b [ | b2 y]]; cbn [tuple_str map] in E; try reflexivity.
  - exfalso. inversion Hy; subst. apply (app_cancel "(") in E. destruct (EM b ",)"%string) as [_ Q]; auto. discriminate.
  - exfalso. inversion Hy; subst. apply (app_cancel "(") in E. destruct (EM b _ ltac:(assumption) (HD _) E) as [_ Q]. discriminate.
  - exfalso. inversion Hx; subst. symmetry in E. apply (app_cancel "(") in E. destruct (EM a ",)"%string) as [_ Q]; auto. discriminate.
  - inversion Hx; inversion Hy; subst. apply (app_cancel "(") in E.
    apply (split_first closing) in E; [ | now apply (clean_closing F) | now apply (clean_closing F) | assumption | assumption ]. destruct E as [E _]. apply (proj1 P) in E; auto. now subst.
  - exfalso. inversion Hx; inversion Hy; subst. apply (app_cancel "(") in E.
    apply (split_first closing) in E; [ | now apply (clean_closing F) | now apply (clean_closing F) | assumption | apply HD ]. destruct E as [_ E]. discriminate.
  - exfalso. inversion Hx; subst. symmetry in E. apply (app_cancel "(") in E. destruct (EM a _ ltac:(assumption) (HD _) E) as [_ Q]. discriminate.
  - exfalso. inversion Hx; inversion Hy; subst. apply (app_cancel "(") in E.
    apply (split_first closing) in E; [ | now apply (clean_closing F) | now apply (clean_closing F) | apply HD | assumption ]. destruct E as [_ E]. discriminate.
  - inversion Hx as [ | ? ? Ha Hx' ]; inversion Hy as [ | ? ? Hb Hy']; subst. apply (app_cancel "(") in E.
    change (show a2 :: map show x) with (map show (a2 :: x)) in E. change (show b2 :: map show y) with (map show (b2 :: y)) in E.
    apply (split_first closing) in E; [ | now apply (clean_closing F) | now apply (clean_closing F) | apply HD | apply HD ]. destruct E as [E1 E2]. apply (proj1 P) in E1; auto. subst.
    f_equal. now apply (commas_inj F show).
Qed.
Lemma repr_params F show show_arr k k' x y cfg cfg' g g' n n' : prints F show -> Forall F x -> Forall F y ->
  val_repr show show_arr (VObj k (map VNum x) cfg g n) = val_repr show show_arr (VObj k' (map VNum y) cfg' g' n') -> x = y.
Proof.
  intros P Hx Hy E. cbn [val_repr] in E. rewrite !map_map in E. cbn [val_repr] in E. now apply (tuple_inj F show).
Qed.
Lemma repr_hides : exists u v w d b : val, made u /\ made v /\ made w /\ made d /\ made b /\
  (forall show show_arr, val_repr show show_arr u = val_repr show show_arr v /\ val_repr show show_arr u = val_repr show show_arr w /\
    val_repr show show_arr d = val_repr show show_arr b) /\
  ~ same u v /\ ~ same u w /\ ~ same d b.
Proof.
  set (p := [VNum 1; VNum 2; VNum (7 / 10)]).
  set (u := nz_init Smail_nz p []). set (v := nz_init Smail_nz p [("zmax"%string, VNum 2)]). set (w := nz_init Smail_nz p [("gals_per_arcmin2"%string, VNum 30)]).
  set (d := nz_init Delta_nz [VNum 1] []). set (b := container_init Constant_linear_bias [VNum 1] []).
  exists u, v, w, d, b.
  split; [ apply (made_new Smail_nz p []); [ discriminate | repeat constructor | constructor | reflexivity ] | ].
  split; [ apply (made_new Smail_nz p [("zmax"%string, VNum 2)]); [ discriminate | repeat constructor | repeat constructor | reflexivity ] | ].
  split; [ apply (made_new Smail_nz p [("gals_per_arcmin2"%string, VNum 30)]); [ discriminate | repeat constructor | repeat constructor | reflexivity ] | ].
  split; [ apply (made_new Delta_nz [VNum 1] []); [ discriminate | repeat constructor | repeat constructor | reflexivity ] | ].
  split; [ apply (made_new Constant_linear_bias [VNum 1] []); [ discriminate | repeat constructor | repeat constructor | reflexivity ] | ].
  split; [ intros; repeat split | ].
  split; [ | split ]; intros S.
  - assert (E : exists q q', u = VObj Smail_nz p [("zmax"%string, VNum 10.0)] q VNone /\ v = VObj Smail_nz p [("zmax"%string, VNum 2)] q' VNone) by (do 2 eexists; split; reflexivity).
    destruct E as (q & q' & Eu & Ev). rewrite Eu, Ev in S. inversion S; lra.
  - assert (E : exists q q', u = VObj Smail_nz p q (VNum 1.0) VNone /\ w = VObj Smail_nz p q' (VNum 30) VNone) by (do 2 eexists; split; reflexivity).
    destruct E as (q & q' & Eu & Ev). rewrite Eu, Ev in S. inversion S as [ | | | ? ? ? ? ? ? ? ? ? G ]; [ lra | inversion G; lra ].
  - unfold d, b, nz_init, container_init in S. inversion S.
Qed.

(** ** ksteps *)
Definition wiggle : transfer := fun _ k => sin (128 * PI * ln k).
Definition wig (x : R) : R := variance_density (fun k => wiggle Planck15 k ^ 2 * primordial_matter_power Planck15 k) 1 x.
Lemma wig_continuous x : continuous wig x.
Proof.
  unfold wig, variance_density, tophat, wiggle, primordial_matter_power. pose proof (exp_pos x).
  apply (continuous_ext (fun x => exp x ^ 3 * (sin (128 * PI * x) ^ 2 * exp (_n_s Planck15 * x)) * (3 * (sin (exp x) - exp x * cos (exp x)) / exp x ^ 3) ^ 2 / (2 * PI ^ 2))).
  - intros y. pose proof (exp_pos y). rewrite rpow_pos by assumption. unfold Rpower. rewrite ln_exp, !Rmult_1_r. reflexivity.
  - apply (ex_derive_continuous (K := R_AbsRing) (V := R_NormedModule)). auto_derive. pose proof PI_RGT_0.
    repeat split; try (apply Rgt_not_eq; nra). apply Rgt_not_eq. apply (pow_lt (exp x) 3) in H. cbn in H. lra.
Qed.
Lemma wig_nonneg x : 0 <= wig x.
Proof. apply variance_density_nonneg. intros k. apply Rmult_le_pos; [ apply pow2_ge_0 | apply primordial_nonneg ]. Qed.
Lemma wig_node i : wig (INR i / 128) = 0.
Proof.
  unfold wig, variance_density, wiggle. rewrite ln_exp. replace (128 * PI * (INR i / 128)) with (0 + IZR (Z.of_nat i) * PI) by (rewrite <- INR_IZR_INZ; field).
  assert (Z : sin (0 + IZR (Z.of_nat i) * PI) = 0) by (apply sin_eq_0_1; exists (Z.of_nat i); ring). rewrite Z. unfold Rdiv. ring.
Qed.
Lemma wig_pos x : 0 < x < 1 / 128 -> 0 < wig x.
Proof.
  intros Hx. unfold wig, variance_density, wiggle. rewrite ln_exp. pose proof PI_RGT_0. pose proof (exp_pos x) as K.
  assert (S : 0 < sin (128 * PI * x)) by (apply sin_gt_0; nra).
  assert (K3 : exp x <= 3) by (apply Rle_trans with (exp 1); [ left; apply exp_increasing; lra | apply exp_le_3 ]).
  pose proof (sin_xcos_pos (exp x) ltac:(lra)) as W. apply Rdiv_lt_0_compat; [ | assert (0 < PI ^ 2) by (apply pow_lt; lra); lra ].
  apply Rmult_lt_0_compat.
  - apply Rmult_lt_0_compat; [ now apply pow_lt | ]. apply Rmult_lt_0_compat; [ now apply pow_lt | ].
    unfold primordial_matter_power. rewrite rpow_pos by assumption. apply exp_pos.
  - rewrite Rmult_1_r. apply pow_lt. unfold tophat. apply Rdiv_lt_0_compat; [ lra | now apply pow_lt ].
Qed.
Lemma wig_integral : 0 < RInt wig 0 1.
Proof.
  assert (X : forall a b, ex_RInt wig a b) by (intros a b; apply (ex_RInt_continuous (V := R_CompleteNormedModule)); intros; apply wig_continuous).
  rewrite <- (RInt_Chasles wig 0 (1 / 128) 1) by apply X. change (0 < RInt wig 0 (1 / 128) + RInt wig (1 / 128) 1).
  assert (0 < RInt wig 0 (1 / 128)) by (apply RInt_gt_0; [ lra | intros; now apply wig_pos | intros; apply wig_continuous ]).
  assert (0 <= RInt wig (1 / 128) 1) by (apply RInt_ge_0; [ lra | apply X | intros; apply wig_nonneg ]). lra.
Qed.
Lemma log10_unit : log10 1 = 0 /\ log10 10 = 1.
Proof. pose proof ln10_gt_1. unfold log10. rewrite ln_1. split; field; lra. Qed.
Lemma ksteps_ignored : exists c r (T : transfer) kmin kmax, 0 < kmin < kmax /\
  (forall x, continuous (variance_density (fun k => T c k ^ 2 * primordial_matter_power c k) r) x) /\
  0 < RInt (variance_density (fun k => T c k ^ 2 * primordial_matter_power c k) r) (log10 kmin) (log10 kmax) /\
  forall ksteps, sigmasqr_steps c r T kmin kmax ksteps = 0.
Proof.
  exists Planck15, 1, wiggle, 1, 10. destruct log10_unit as [L0 L1]. rewrite L0, L1.
  split; [ lra | ]. split; [ exact wig_continuous | ]. split; [ exact wig_integral | ]. intros n. unfold sigmasqr_steps.
  rewrite sigmasqr_variance. unfold code_variance. rewrite L0, L1. fold wig.
  pose proof (romberg_trapezoid wig 0 1 7 7 ltac:(lia) ltac:(lra) ltac:(intros; apply wig_nonneg)) as B.
  assert (Z : trapezoid wig 0 1 (2 ^ 7) = 0).
  { unfold trapezoid. rewrite Rsum_0_ext; [ ring | ]. intros i Hi. unfold node.
    change (2 ^ 7)%nat with 128%nat. replace (INR 128) with 128 by (rewrite INR_IZR_INZ; reflexivity).
    replace (0 + INR i * ((1 - 0) / 128)) with (INR i / 128) by field. replace (0 + INR (i + 1) * ((1 - 0) / 128)) with (INR (i + 1) / 128) by field.
    rewrite !wig_node. field. }
  change (romberg wig 0 1 7 7 = 0). lra.
Qed.
Lemma sigmasqr_accuracy c r (T : transfer) kmin kmax ksteps p deg e : 0 < kmin <= kmax -> (deg <= 15)%nat ->
  (forall x, log10 kmin <= x <= log10 kmax -> continuous (variance_density (fun k => T c k ^ 2 * primordial_matter_power c k) r) x) ->
  (forall x, log10 kmin <= x <= log10 kmax -> Rabs (variance_density (fun k => T c k ^ 2 * primordial_matter_power c k) r x - poly p deg x) <= e) ->
  Rabs (sigmasqr_steps c r T kmin kmax ksteps - RInt (variance_density (fun k => T c k ^ 2 * primordial_matter_power c k) r) (log10 kmin) (log10 kmax)) <=
    2 * (log10 kmax - log10 kmin) * e.
Proof.
  intros Hk Hd Hc He. unfold sigmasqr_steps. rewrite sigmasqr_variance. unfold code_variance.
  apply (romberg_near_best _ p deg _ _ 7 e); [ lia | lia | now apply log10_le | exact Hc | exact He ].
Qed.

(** ** cases *)
Definition show_ex (x : R) : string :=
  if Req_EM_T x 0.25 then "0.25" else if Req_EM_T x 0.05 then "0.05" else if Req_EM_T x 0.7 then "0.7" else
  if Req_EM_T x 0.96 then "0.96" else if Req_EM_T x 0.8 then "0.8" else if Req_EM_T x 0 then "0.0" else "-1.0".
Definition held_ex (x : R) : Prop := In x [0.25; 0.05; 0.7; 0.96; 0.8; 0; -1].
Lemma show_case : prints held_ex show_ex /\ Forall held_ex [0.25; 0.05; 0.7; 0.96; 0.8; 0; -1; 0] /\
  cosmo_str show_ex (make_cosmology 0.25 0.05 0.7 0.96 0.8 0 (-1) 0 None) =
  ("Cosmological parameters: " ++ newline ++ "    h:        0.7 " ++ newline ++ "    Omega_b:  0.05 " ++ newline ++ "    Omega_c:  0.25 " ++ newline ++
   "    Omega_k:  0.0 " ++ newline ++ "    w0:       -1.0 " ++ newline ++ "    wa:       0.0 " ++ newline ++ "    n:        0.96 " ++ newline ++ "    sigma8:   0.8")%string.
Proof.
  assert (V : show_ex 0.25 = "0.25"%string /\ show_ex 0.05 = "0.05"%string /\ show_ex 0.7 = "0.7"%string /\ show_ex 0.96 = "0.96"%string /\ show_ex 0.8 = "0.8"%string /\ show_ex 0 = "0.0"%string /\ show_ex (-1) = "-1.0"%string).
  { unfold show_ex. repeat split; repeat (match goal with |- context [Req_EM_T ?a ?b] => destruct (Req_EM_T a b); try lra end); reflexivity. }
  destruct V as (V1 & V2 & V3 & V4 & V5 & V6 & V7). split; [ split | split ].
  - intros x y Hx Hy. unfold held_ex in Hx, Hy. cbn [In] in Hx, Hy.
    destruct Hx as [<- | [<- | [<- | [<- | [<- | [<- | [<- | []]]]]]]]; destruct Hy as [<- | [<- | [<- | [<- | [<- | [<- | [<- | []]]]]]]]; rewrite ?V1, ?V2, ?V3, ?V4, ?V5, ?V6, ?V7; intros E; solve [ reflexivity | discriminate ].
  - intros x Hx. unfold held_ex in Hx. cbn [In] in Hx.
    destruct Hx as [<- | [<- | [<- | [<- | [<- | [<- | [<- | []]]]]]]]; rewrite ?V1, ?V2, ?V3, ?V4, ?V5, ?V6, ?V7; cbn; repeat split; intros K; intuition discriminate.
  - apply Forall_forall. intros x Hx. unfold held_ex. cbn [In] in *. tauto.
  - unfold cosmo_str, make_cosmology. cbn [_h _Omega_b _Omega_c _Omega_k _w0 _wa _n_s _sigma8]. rewrite V1, V2, V3, V4, V5, V6, V7. reflexivity.
Qed.
Lemma accuracy_case : (forall x, log10 1 <= x <= log10 10 -> continuous wig x) /\ exists e, forall x, log10 1 <= x <= log10 10 -> Rabs (wig x - poly (fun _ => 0) 0 x) <= e.
Proof.
  split; [ intros; apply wig_continuous | ].
  destruct (bounded_continuity (K := R_AbsRing) (V := R_NormedModule) wig (log10 1) (log10 10)) as [M HM].
  { intros x _. apply wig_continuous. }
  exists M. intros x Hx. unfold poly. cbn. rewrite Rmult_0_l, Rplus_0_r || idtac. replace (wig x - _) with (wig x) by ring. left. now apply HM.
Qed.
