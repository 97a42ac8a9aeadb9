(** * Hessians of the notebook's likelihood *)
From Coq Require Import String.
From Verif Require Import Np NpLemmas Core Sparse SparseSpec Likelihood LikelihoodSpec Integrate Interp Background BgSpec Transfer Power Redshift Probes ProbesSpec AngularCl GradSpec
  Ad AdSpec AdPower AdProbes AdArrSpec AdHalofit AdHalofitSpec AdLike AdLikeSpec AdLikeProofs AdSurvey AdFinal AdParam AdParamCl AdJacSpec AdJac AdJacFinal AdBack AdBackSpec AdBackProofs AdBackFinal AdOver AdOverSpec AdOverProofs.
Opaque chi_table growth_table_ODE growth_table_gamma logspace.
Local Open Scope R_scope.
Local Notation hyper := (dual * dual)%type.
Local Notation NO := (num_over num_dual).
Local Notation NB := (num_back_over num_dual).

(** ** related numbers *)
Section Programs.
Context {A B : Type} (N : num A) (M : num B) (r : A -> B -> Prop) (HR : num_rel r N M).
Local Notation V := (Forall2 r).
Local Notation X := (Forall2 (Forall2 (Forall2 r))).
Lemma q_mean c c' ell probes P P' f_sky sparse : cosmo_rel r c c' -> spectrum_rel r c c' P P' ->
  res_rel (pair_rel V (arr_rel r)) (ggaussian_cl_covariance_and_mean N c ell probes P f_sky sparse) (ggaussian_cl_covariance_and_mean M c' ell probes P' f_sky sparse).
Proof.
  intros HC HP. unfold ggaussian_cl_covariance_and_mean. apply (rel_bind (Forall2 V)); [ now apply q_angular | ]. intros m m' Hm. apply rel_bindc. intros noi.
  apply (rel_bind (arr_rel r)); [ now apply q_covariance | ]. intros C C' HCC. cbn [res_rel]. split; cbn [fst snd]; [ now apply f2_concat | exact HCC ].
Qed.
Lemma vals1 u v : V u v -> map (val N) u = map (val M) v.
Proof. induction 1 as [ | x y u v E _ IH]; cbn [map]; [ reflexivity | now rewrite (nr_val _ _ _ HR _ _ E), IH ]. Qed.
Lemma vals2 u v : Forall2 V u v -> map (map (val N)) u = map (map (val M)) v.
Proof. induction 1 as [ | x y u v E _ IH]; cbn [map]; [ reflexivity | now rewrite (vals1 _ _ E), IH ]. Qed.
Lemma vals3 u v : X u v -> map (map (map (val N))) u = map (map (map (val M))) v.
Proof. induction 1 as [ | x y u v E _ IH]; cbn [map]; [ reflexivity | now rewrite (vals2 _ _ E), IH ]. Qed.
Lemma q_notebook la c c' ell probes P P' f_sky data : cosmo_rel r c c' -> spectrum_rel r c c' P P' ->
  res_rel r (gnotebook_likelihood N la c ell probes P f_sky data) (gnotebook_likelihood M la c' ell probes P' f_sky data).
Proof.
  intros HC HP. unfold gnotebook_likelihood. apply (rel_bind (pair_rel V (arr_rel r))); [ now apply q_mean | ].
  intros [mu C] [mu' C'] [K1 K2]. cbn [fst snd] in *. destruct C as [ | | | a b n s | ], C' as [ | | | a' b' n' s' | ]; cbn [arr_rel] in K2; try contradiction; try reflexivity.
  destruct K2 as (<- & <- & <- & K2). destruct (negb _); [ reflexivity | ]. cbn [res_rel]. rewrite (vals3 _ _ K2).
  assert (VR : V (gvsub N (map (cst N) data) mu) (gvsub M (map (cst M) data) mu')) by (apply q_vsub; [ exact HR | apply f2_mapc; apply (nr_cst _ _ _ HR) | exact K1 ]).
  apply (nr_mul _ _ _ HR); [ apply (nr_cst _ _ _ HR) | ]. apply q_vdot; [ exact HR | exact VR | ]. apply q_sdv; [ exact HR | | exact VR ].
  apply f2_mapc. intros q. apply f2_mapc. intros q'. apply f2_mapc. apply (nr_cst _ _ _ HR).
Qed.
Lemma r_eh c c' osc : cosmo_rel r c c' -> transfer_rel r c c' (geh N osc) (geh M osc).
Proof. intros HC k k' Hk. destruct osc; cbn [geh]; [ now apply (p_eisenhu_osc _ _ _ HR) | now apply (p_eisenhu _ _ _ HR) ]. Qed.
Lemma r_model c c' nl osc : cosmo_rel r c c' -> spectrum_rel r c c' (gmodel N nl osc) (gmodel M nl osc).
Proof. intros HC. destruct nl; cbn [gmodel]; [ now apply (p_spectrum_halofit _ _ _ HR), r_eh | now apply (p_spectrum_linear _ _ _ HR), r_eh ]. Qed.
End Programs.

(** ** the parameters *)
Section Modes.
Variables (c : cosmology) (e d : direction).
Lemma out_cosmo : cosmo_rel ro_out (twice_cosmo c e d) (dual_cosmo c e).
Proof. constructor; try reflexivity. unfold twice_cosmo, dual_cosmo; cbn [ggamma]. destruct (_gamma c); reflexivity. Qed.
Lemma in_cosmo : cosmo_rel ro_in (twice_cosmo c e d) (dual_cosmo c d).
Proof. constructor; try reflexivity. unfold twice_cosmo, dual_cosmo; cbn [ggamma]. destruct (_gamma c); reflexivity. Qed.
Local Notation W := (weight d 0 0).
Lemma rbo_input v i : (i < 10)%nat -> rbo 10 W (input_over num_dual v i) (v, (W i, 0)).
Proof.
  intros Hi. split; [ reflexivity | ]. intros [u u']. unfold pd, input_over. cbn [fst snd nmul num_dual cst]. f_equal.
  - pose proof (proj2 (rb_input d 0 0 0 i Hi) u) as K. cbn [snd] in K. rewrite <- K. unfold pair_, input. cbn [snd]. apply Rsum_ext. intros q _. now destruct (Nat.eqb q i).
  - rewrite Rmult_0_r, Rplus_0_r. pose proof (proj2 (rb_input d 0 0 0 i Hi) u') as K. cbn [snd] in K. rewrite <- K. unfold pair_, input. cbn [snd]. apply Rsum_ext. intros q _. now destruct (Nat.eqb q i).
Qed.
Lemma rbo_cosmo : cosmo_rel (rbo 10 W) (hessian_cosmo c e) (twice_cosmo c e d).
Proof.
  constructor; try (apply rbo_input; lia). unfold hessian_cosmo, twice_cosmo; cbn [ggamma]. destruct (_gamma c); [ | exact I ]. apply (nr_cst _ _ _ (rbo_num 10 W)).
Qed.
End Modes.
Lemma rbo_read d b z : rbo 10 (weight d 0 0) b z -> fst b = fst z /\ gradient_along b d = fst (snd z) /\ hessian_along b d = snd (snd z).
Proof.
  intros [E1 E2]. split; [ exact E1 | ]. specialize (E2 (1, 0)). unfold pd in E2. destruct z as [z1 [z2 z3]]. cbn [fst snd nmul num_dual] in *.
  injection E2 as E3 E4. rewrite pair_dot in E3, E4. unfold gradient_along, hessian_along. split; lra.
Qed.

(** ** the likelihood on numbers with two tangents *)
Section Linear.
Context {A : Type} (N : num A) (pi : A -> R) (P0 : pi (cst N 0) = 0) (PA : forall x y, pi (nadd N x y) = pi x + pi y) (PM : forall x y, pi (nmul N (cst N x) y) = x * pi y).
Lemma pi_vadd u : forall v, map pi (gvadd N u v) = vadd (map pi u) (map pi v).
Proof. unfold gvadd, vadd. induction u as [ | x u IH]; intros [ | y v]; cbn [map map2]; try reflexivity. now rewrite PA, IH. Qed.
Lemma pi_vmul u : forall v, map pi (gvmul N (map (cst N) u) v) = vmul u (map pi v).
Proof. unfold gvmul, vmul. induction u as [ | x u IH]; intros [ | y v]; cbn [map map2]; try reflexivity. now rewrite PM, IH. Qed.
Lemma map_repeat_ {S T} (h : S -> T) x n : map h (repeat x n) = repeat (h x) n.
Proof. induction n as [ | n IH]; cbn [repeat map]; [ reflexivity | now rewrite IH ]. Qed.
Lemma pi_sum0 n rows : map pi (gsum0 N n rows) = sum0 n (map (map pi) rows).
Proof. unfold gsum0, sum0. induction rows as [ | x rows IH]; cbn [map fold_right]; [ now rewrite map_repeat_, P0 | now rewrite pi_vadd, IH ]. Qed.
Lemma map_chunk {S T} (h : S -> T) n b : forall v, map (map h) (chunk n b v) = chunk n b (map h v).
Proof. induction b as [ | b IH]; intros v; cbn [chunk map]; [ reflexivity | now rewrite IH, firstn_map, skipn_map ]. Qed.
Lemma pi_rows row : forall L, map (map pi) (map2 (gvmul N) (map (map (cst N)) row) L) = map2 vmul row (map (map pi) L).
Proof. induction row as [ | u row IH]; intros [ | l L]; cbn [map map2]; try reflexivity. now rewrite pi_vmul, IH. Qed.
Lemma pi_sdv b n s v : map pi (gsparse_dot_vec N b n (map (map (map (cst N))) s) v) = sparse_dot_vec b n s (map pi v).
Proof.
  unfold gsparse_dot_vec, sparse_dot_vec. rewrite concat_map, !map_map. f_equal. apply map_ext. intros row. rewrite pi_sum0, pi_rows, map_chunk. reflexivity.
Qed.
End Linear.
Definition hvv (z : hyper) := fst (fst z).
Definition hve (z : hyper) := snd (fst z).
Definition hvd (z : hyper) := fst (snd z).
Definition hed (z : hyper) := snd (snd z).
Lemma over_sdv b n s v : let S := sparse_dot_vec b n s in let t := gsparse_dot_vec NO b n (map (map (map (cst NO))) s) v in
  map hvv t = S (map hvv v) /\ map hve t = S (map hve v) /\ map hvd t = S (map hvd v) /\ map hed t = S (map hed v).
Proof.
  intros S t. unfold S, t. refine (conj _ (conj _ (conj _ _))); apply pi_sdv; unfold hvv, hve, hvd, hed; cbn [num_over num_dual cst nadd nmul fst snd]; intros; ring.
Qed.
Lemma over_dot u : forall v, hvv (gvdot NO u v) = vdot (map hvv u) (map hvv v) /\ hvd (gvdot NO u v) = vdot (map hvd u) (map hvv v) + vdot (map hvv u) (map hvd v) /\
  hve (gvdot NO u v) = vdot (map hve u) (map hvv v) + vdot (map hvv u) (map hve v) /\
  hed (gvdot NO u v) = vdot (map hed u) (map hvv v) + vdot (map hvd u) (map hve v) + vdot (map hve u) (map hvd v) + vdot (map hvv u) (map hed v).
Proof.
  unfold gvdot, gvmul, gsum, vdot, vmul, Np.vsum, hvv, hve, hvd, hed.
  induction u as [ | x u IH]; intros [ | y v]; cbn [map map2 fold_right]; try (cbn [num_over num_dual cst fst snd]; repeat split; ring).
  destruct (IH v) as (E1 & E2 & E3 & E4). revert E1 E2 E3 E4. set (w := fold_right _ _ _). intros.
  destruct x as [[? ?] [? ?]], y as [[? ?] [? ?]], w as [[? ?] [? ?]]. cbn [num_over num_dual cst nadd nmul fst snd] in *. repeat split; lra.
Qed.
Lemma vdot_zeros n : forall v, vdot (repeat 0 n) v = 0.
Proof. unfold vdot, vmul, Np.vsum. induction n as [ | n IH]; intros [ | y v]; cbn [repeat map2 fold_right]; try reflexivity. rewrite IH. ring. Qed.
Lemma vdot_zeros_r n : forall v, vdot v (repeat 0 n) = 0.
Proof. unfold vdot, vmul, Np.vsum. induction n as [ | n IH]; intros [ | y v]; cbn [repeat map2 fold_right]; try reflexivity. rewrite IH. ring. Qed.
Definition zeros (v : list R) : Prop := Forall (fun x => x = 0) v.
Lemma zeros_dot_l u v : zeros u -> vdot u v = 0.
Proof. unfold vdot, vmul, Np.vsum. intros H. revert v. induction H as [ | x u E _ IH]; intros [ | y v]; cbn [map2 fold_right]; try reflexivity. rewrite IH, E. ring. Qed.
Lemma zeros_dot_r u v : zeros v -> vdot u v = 0.
Proof. unfold vdot, vmul, Np.vsum. intros H. revert u. induction H as [ | x v E _ IH]; intros [ | y u]; cbn [map2 fold_right]; try reflexivity. rewrite IH, E. ring. Qed.
Lemma zeros_sdv b n s v : zeros v -> zeros (sparse_dot_vec b n s v).
Proof.
  intros HZ. unfold zeros, sparse_dot_vec. apply Forall_concat, Forall_map, Forall_forall. intros row _.
  assert (ZC : Forall zeros (chunk n b v)).
  { revert v HZ. induction b as [ | b IH]; intros v HZ; cbn [chunk]; constructor.
    - unfold zeros in *. rewrite Forall_forall in *. intros x Hx. apply HZ. rewrite <- (firstn_skipn n v). apply in_or_app. now left.
    - apply IH. unfold zeros in *. rewrite Forall_forall in *. intros x Hx. apply HZ. rewrite <- (firstn_skipn n v). apply in_or_app. now right. }
  assert (ZM : Forall zeros (map2 vmul row (chunk n b v))).
  { revert ZC. generalize (chunk n b v). induction row as [ | u row IH]; intros [ | l L] ZL; cbn [map2]; constructor.
    - inversion ZL as [ | ? ? Zl _ ]; subst. clear - Zl. revert u. unfold vmul. induction Zl as [ | x l E _ IH]; intros [ | y u]; cbn [map2]; constructor; [ rewrite E; ring | apply IH ].
    - apply IH. now inversion ZL. }
  unfold sum0. induction ZM as [ | l L Zl _ IH]; cbn [fold_right]; [ apply Forall_forall; intros x Hx; now apply repeat_spec in Hx | ].
  revert IH. generalize (fold_right vadd (repeat 0 n) L). unfold vadd. clear - Zl. induction Zl as [ | x l E _ IH]; intros [ | y v] HV; cbn [map2]; constructor.
  - inversion HV; subst. lra.
  - apply IH. now inversion HV.
Qed.
Lemma resid z : let u := gvsub NO (map (cst NO) (map hvv z)) z in
  zeros (map hvv u) /\ map hve u = map (fun x => - hve x) z /\ map hvd u = map (fun x => - hvd x) z.
Proof.
  intros u. unfold u, gvsub. clear u. induction z as [ | x z IH]; cbn [map map2]; [ repeat split; constructor | ]. destruct IH as (I1 & I2 & I3).
  split; [ constructor; [ unfold hvv; cbn [num_over num_dual cst nsub fst snd]; ring | exact I1 ] | ].
  unfold hvv, hve, hvd in *. cbn [num_over num_dual cst nsub fst snd] in *. split; f_equal; try assumption; ring.
Qed.
Lemma sdv_opp b n s (f : hyper -> R) z : sparse_dot_vec b n s (map (fun x => - f x) z) = map Ropp (sparse_dot_vec b n s (map f z)).
Proof.
  pose proof (pi_sdv num_R Ropp Ropp_0 Ropp_plus_distr) as K. specialize (K ltac:(intros x y; cbn [num_R nmul cst]; ring) b n s (map f z)). rewrite map_map in K. rewrite <- K. f_equal.
  change (cst num_R) with (fun x : R => x). assert (EI : forall L : list (list (list R)), map (map (map (fun x : R => x))) L = L).
  { intros L. etransitivity; [ | apply map_id ]. apply map_ext. intros m. etransitivity; [ | apply map_id ]. apply map_ext. intros w. apply map_id. }
  rewrite EI. reflexivity.
Qed.
Lemma vdot_opp u : forall v, vdot (map Ropp u) (map Ropp v) = vdot u v.
Proof. unfold vdot, vmul, Np.vsum. induction u as [ | x u IH]; intros [ | y v]; cbn [map map2 fold_right]; try reflexivity. rewrite IH. ring. Qed.
(** data on the mean: value and gradient vanish, the mixed component is the symmetric bilinear form of the precision matrix *)
Lemma over_quadratic b n P z : let u := gvsub NO (map (cst NO) (map hvv z)) z in
  let y := nmul NO (cst NO (- (1 / 2))) (gvdot NO u (gsparse_dot_vec NO b n (map (map (map (cst NO))) P) u)) in
  let F f g := vdot (map f z) (sparse_dot_vec b n P (map g z)) in
  hvv y = 0 /\ hve y = 0 /\ hvd y = 0 /\ hed y = - ((F hvd hve + F hve hvd) / 2).
Proof.
  intros u y F. destruct (resid z) as (Z & E1 & E2). fold u in Z, E1, E2. unfold y.
  destruct (over_sdv b n P u) as (S1 & S2 & S3 & S4). set (t := gsparse_dot_vec NO b n _ u) in *. destruct (over_dot u t) as (D1 & D2 & D3 & D4). set (q := gvdot NO u t) in *.
  assert (Zt : zeros (map hvv t)) by (rewrite S1; now apply zeros_sdv).
  rewrite (zeros_dot_l _ _ Z) in D1. rewrite (zeros_dot_l _ _ Z), (zeros_dot_r _ _ Zt) in D2. rewrite (zeros_dot_l _ _ Z), (zeros_dot_r _ _ Zt) in D3. rewrite (zeros_dot_l _ _ Z), (zeros_dot_r _ _ Zt) in D4.
  rewrite S2, S3, E1, E2, !sdv_opp in D4.
  rewrite <- (map_map hve Ropp), <- (map_map hvd Ropp), !vdot_opp in D4. fold (F hvd hve) (F hve hvd) in D4.
  clearbody F q. clear - D1 D2 D3 D4. revert D1 D2 D3 D4. generalize (F hvd hve) (F hve hvd). intros f1 f2. destruct q as [[q1 q2] [q3 q4]]. unfold hvv, hve, hvd, hed. cbn [num_over num_dual cst nmul nadd fst snd]. intros. subst. refine (conj _ (conj _ (conj _ _))); lra.
Qed.

Lemma mean_of_angular {A} (N : num A) c ells probes P f_sky sp m C : ggaussian_cl_covariance_and_mean N c ells probes P f_sky sp = Ok (m, C) ->
  exists rows, gangular_cl N c (Array1 ells) probes P = Ok rows /\ m = concat rows.
Proof.
  unfold ggaussian_cl_covariance_and_mean. destruct (gangular_cl N c (Array1 ells) probes P) as [rows | x]; cbn [bind]; [ | discriminate ].
  destruct (noise_cl (length ells) probes) as [noi | x]; cbn [bind]; [ | discriminate ]. destruct (ggaussian_cl_covariance N ells probes rows noi f_sky sp); cbn [bind]; [ | discriminate ].
  intros K. injection K as <- _. now exists rows.
Qed.
Lemma f2_rel_map {S T Z} (f : S -> Z) (g : T -> Z) (r : S -> T -> Prop) u v : (forall x y, r x y -> f x = g y) -> Forall2 r u v -> map f u = map g v.
Proof. intros K. induction 1 as [ | x y u v E _ IH]; cbn [map]; [ reflexivity | now rewrite (K _ _ E), IH ]. Qed.
Section Survey.
Variables (c : cosmology) (nl osc : bool) (ells : list R) (probes : list probe) (f_sky : R) (mu : list R) (a b n : nat) (s : list (list (list R))).
Hypotheses (HB : built c) (NG : _gamma c = None) (HD : forall x, limber_epoch probes x -> 0 < x /\ D c x <> 0)
  (HM : gaussian_cl_covariance_and_mean c (Array1 ells) probes (eh osc) (model_nl nl) f_sky true = Ok (mu, A3 a b n s)).
Lemma dual_run e : exists m C, ggaussian_cl_covariance_and_mean num_dual (dual_cosmo c e) ells probes (gmodel num_dual nl osc) f_sky true = Ok (m, G3 a b n C) /\
  map fst m = mu /\ map (map (map (val num_dual))) C = s.
Proof.
  destruct (like_programs (Build_linalg (fun _ m => m) (fun _ _ => (1, 0)) (fun _ _ v => v)) c probes ells (eh osc) (model_nl nl) (fun _ k a => nonlinear_matter_power c k a (eh osc) (model_nl nl)) f_sky true [] true "inverse" HB NG) as [_ E].
  destruct (E HD ltac:(reflexivity)) as [E1 _]. rewrite HM in E1. clear E.
  pose proof (q_mean num_R num_dual rv rv_num _ _ ells probes _ _ f_sky true (rv_cosmo c e) (rv_spectrum_any c e (eh osc) (model_nl nl) _ (rv_model c e HB nl osc))) as K.
  destruct (ggaussian_cl_covariance_and_mean num_R (lift_cosmo c) ells probes _ f_sky true) as [[m0 C0] | x]; cbn [bind fst snd] in E1; [ | discriminate ]. injection E1 as -> EC.
  destruct C0; cbn [arr_of] in EC; try discriminate. injection EC as -> -> -> ->.
  destruct (ggaussian_cl_covariance_and_mean num_dual _ _ _ _ _ _) as [[m C] | x]; cbn [res_rel] in K; [ | contradiction ]. destruct K as [K1 K2]. cbn [fst snd] in K1, K2.
  destruct C as [ | | | a' b' n' C | ]; cbn [arr_rel] in K2; try contradiction. destruct K2 as (<- & <- & <- & K2). exists m, C. split; [ reflexivity | ].
  split.
  - symmetry. rewrite <- (map_id mu). exact (f2_rel_map _ _ rv _ _ ltac:(intros x y Hxy; exact Hxy) K1).
  - rewrite <- (vals3 num_R num_dual rv rv_num _ _ K2). cbn [num_R val]. etransitivity; [ | apply map_id ]. apply map_ext. intros m'. etransitivity; [ | apply map_id ]. apply map_ext. intros w. apply map_id.
Qed.
Lemma twice_run e d : exists z C me md, ggaussian_cl_covariance_and_mean NO (twice_cosmo c e d) ells probes (gmodel NO nl osc) f_sky true = Ok (z, G3 a b n C) /\
  map hvv z = mu /\ map (map (map (val NO))) C = s /\
  gangular_cl num_dual (dual_cosmo c e) (Array1 ells) probes (gmodel num_dual nl osc) = Ok me /\ map hve z = map snd (concat me) /\
  gangular_cl num_dual (dual_cosmo c d) (Array1 ells) probes (gmodel num_dual nl osc) = Ok md /\ map hvd z = map snd (concat md).
Proof.
  pose proof (q_mean NO num_dual ro_out ro_out_num _ _ ells probes _ _ f_sky true (out_cosmo c e d) (r_model NO num_dual ro_out ro_out_num _ _ nl osc (out_cosmo c e d))) as K.
  pose proof (q_mean NO num_dual ro_in ro_in_num _ _ ells probes _ _ f_sky true (in_cosmo c e d) (r_model NO num_dual ro_in ro_in_num _ _ nl osc (in_cosmo c e d))) as L.
  destruct (dual_run e) as (m & Cm & E1 & E2 & E3). destruct (dual_run d) as (m' & Cm' & E1' & _ & _). rewrite E1 in K. rewrite E1' in L.
  destruct (ggaussian_cl_covariance_and_mean NO _ _ _ _ _ _) as [[z C] | x]; cbn [res_rel] in K, L; [ | contradiction ]. destruct K as [K1 K2], L as [L1 L2]. cbn [fst snd] in K1, K2, L1, L2.
  destruct C as [ | | | a' b' n' C | ]; cbn [arr_rel] in K2; try contradiction. destruct K2 as (-> & -> & -> & K2).
  destruct (mean_of_angular _ _ _ _ _ _ _ _ _ E1) as (me & A1 & ->). destruct (mean_of_angular _ _ _ _ _ _ _ _ _ E1') as (md & A2 & ->).
  exists z, C, me, md. split; [ reflexivity | ]. refine (conj _ (conj _ (conj A1 (conj _ (conj A2 _))))).
  - rewrite <- E2. exact (f2_rel_map hvv fst ro_out _ _ ltac:(intros x y <-; reflexivity) K1).
  - rewrite <- E3. exact (vals3 NO num_dual ro_out ro_out_num _ _ K2).
  - exact (f2_rel_map hve snd ro_out _ _ ltac:(intros x y <-; reflexivity) K1).
  - exact (f2_rel_map hvd snd ro_in _ _ ltac:(intros x y <-; reflexivity) L1).
Qed.
Lemma notebook_twice la e d : a = b -> exists y me md, gnotebook_likelihood NO la (twice_cosmo c e d) ells probes (gmodel NO nl osc) f_sky mu = Ok y /\
  gangular_cl num_dual (dual_cosmo c e) (Array1 ells) probes (gmodel num_dual nl osc) = Ok me /\
  gangular_cl num_dual (dual_cosmo c d) (Array1 ells) probes (gmodel num_dual nl osc) = Ok md /\
  let F f g := vdot (map snd (concat f)) (sparse_dot_vec a n (inv_data (la_inv la) a n s) (map snd (concat g))) in
  hvv y = 0 /\ hve y = 0 /\ hvd y = 0 /\ hed y = - ((F md me + F me md) / 2).
Proof.
  intros Eab. destruct (twice_run e d) as (z & C & me & md & E1 & E2 & E3 & E4 & E5 & E6 & E7). unfold gnotebook_likelihood. rewrite E1. cbn [bind fst snd].
  subst b. rewrite Nat.eqb_refl. cbn [negb]. rewrite E3. eexists. exists me, md. split; [ reflexivity | ]. split; [ exact E4 | split; [ exact E6 | ]].
  pose proof (over_quadratic a n (inv_data (la_inv la) a n s) z) as K. cbv beta zeta in K. rewrite E2, E5, E7 in K. exact K.
Qed.
Lemma notebook_hessian la e : a = b -> exists y, gnotebook_likelihood NB la (hessian_cosmo c e) ells probes (gmodel NB nl osc) f_sky mu = Ok y /\
  fst (fst y) = 0 /\ forall d, gradient_along y d = 0 /\ exists me md,
  gangular_cl num_dual (dual_cosmo c e) (Array1 ells) probes (gmodel num_dual nl osc) = Ok me /\
  gangular_cl num_dual (dual_cosmo c d) (Array1 ells) probes (gmodel num_dual nl osc) = Ok md /\
  let F f g := vdot (map snd (concat f)) (sparse_dot_vec a n (inv_data (la_inv la) a n s) (map snd (concat g))) in
  - hessian_along y d = (F md me + F me md) / 2.
Proof.
  intros Eab.
  assert (K := fun d => q_notebook _ _ _ (rbo_num 10 (weight d 0 0)) la _ _ ells probes _ _ f_sky mu (rbo_cosmo c e d) (r_model _ _ _ (rbo_num 10 (weight d 0 0)) _ _ nl osc (rbo_cosmo c e d))).
  destruct (gnotebook_likelihood NB la (hessian_cosmo c e) ells probes (gmodel NB nl osc) f_sky mu) as [y | x].
  - exists y. split; [ reflexivity | ]. split.
    + specialize (K e). destruct (notebook_twice la e e Eab) as (z & me & md & E & _ & _ & EF). rewrite E in K. cbn [res_rel] in K. destruct (rbo_read e y z K) as (R1 & _). rewrite R1. apply EF.
    + intros d. specialize (K d). destruct (notebook_twice la e d Eab) as (z & me & md & E & M1 & M2 & EF). rewrite E in K. cbn [res_rel] in K. destruct (rbo_read d y z K) as (R1 & R2 & R3).
      cbv zeta in EF. destruct EF as (F1 & F2 & F3 & F4). split; [ rewrite R2; exact F3 | ]. exists me, md. split; [ exact M1 | split; [ exact M2 | ]]. intros F. rewrite R3. transitivity (- hed z); [ reflexivity | ]. rewrite F4. apply Ropp_involutive.
  - specialize (K e). destruct (notebook_twice la e e Eab) as (z & me & md & E & _). rewrite E in K. contradiction.
Qed.
End Survey.
