(** * The two Fisher matrices of the notebook *)
From Coq Require Import String.
From Coquelicot Require Import Coquelicot.
From Verif Require Import Np NpLemmas Core Sparse SparseSpec SparseProofs DetSpec DetProofs2 Likelihood LikelihoodSpec LikelihoodProofs SparseLaws LikelihoodLaws DetBlocks SparsePrec DetPos FisherSpec Integrate Interp Background BgSpec Transfer Power Redshift Probes ProbesSpec AngularCl CovSpec CovProofs CovPsd CovFinal AclSpec AclProofs AclFinal Forecast GradSpec
  Ad AdSpec AdPower AdProbes AdArrSpec AdHalofit AdHalofitSpec AdLike AdLikeSpec AdLikeProofs AdScore AdSurvey AdFinal AdParam AdParamCl AdJacSpec AdJac AdJacFinal AdBack AdBackSpec AdBackProofs AdBackFinal AdOver AdOverSpec AdOverProofs AdOverFinal.
Opaque chi_table growth_table_ODE growth_table_gamma logspace.
Local Open Scope R_scope.
Local Notation NO := (num_over num_dual).
Local Notation NB := (num_back_over num_dual).

Lemma el2_fisher c n p J Y i j : (i < p)%nat -> (j < p)%nat ->
  el2 (dense_dot_sparse_dot_dense c n p (transposed p J) Y J) i j = vdot (col i J) (sparse_dot_vec c n Y (col j J)).
Proof.
  intros Hi Hj. unfold dense_dot_sparse_dot_dense, transposed. rewrite map_tab. now rewrite el2_tab.
Qed.
Lemma ok_inj {A} (x y : A) : Ok x = Ok y -> x = y. Proof. now injection 1. Qed.

Section Routes.
Variables (la : linalg) (c : cosmology) (nl osc : bool) (ells : list R) (probes : list probe) (f_sky : R) (mu : list R) (a n : nat) (s : list (list (list R))).
Hypotheses (HB : built c) (NG : _gamma c = None) (HD : forall x, limber_epoch probes x -> 0 < x /\ D c x <> 0)
  (HM : gaussian_cl_covariance_and_mean c (Array1 ells) probes (eh osc) (model_nl nl) f_sky true = Ok (mu, A3 a a n s)).
Local Notation hessian e := (gnotebook_likelihood NB la (hessian_cosmo c e) ells probes (gmodel NB nl osc) f_sky mu).
Lemma routes ds J : jacobian c ells probes nl osc (a * n) ds J -> let p := length ds in
  exists F, inv (la_inv la) (A3 a a n s) = Ok (A3 a a n (inv_data (la_inv la) a n s)) /\
    Sparse.dot [A2 p (a * n) (transposed p J); A3 a a n (inv_data (la_inv la) a n s); A2 (a * n) p J] = Ok (A2 p p F) /\
    (forall i j, (i < p)%nat -> (j < p)%nat -> el2 F i j = vdot (col i J) (sparse_dot_vec a n (inv_data (la_inv la) a n s) (col j J))) /\
    forall j, (j < p)%nat -> exists y, hessian (nth j ds nowhere) = Ok y /\ fst (fst y) = 0 /\ (forall d, gradient_along y d = 0) /\
      forall i, (i < p)%nat -> - hessian_along y (nth i ds nowhere) = (el2 F i j + el2 F j i) / 2.
Proof.
  intros [WJ HJ] p. exists (dense_dot_sparse_dot_dense a n p (transposed p J) (inv_data (la_inv la) a n s) J).
  split; [ unfold inv, check_sparse; now rewrite Nat.eqb_refl | ]. split; [ cbn [Sparse.dot dot3]; now rewrite !Nat.eqb_refl | ].
  split; [ intros i j Hi Hj; now apply el2_fisher | ].
  intros j Hj. destruct (notebook_hessian c nl osc ells probes f_sky mu a a n s HB NG HD HM la (nth j ds nowhere) eq_refl) as (y & E1 & E2 & E3).
  exists y. split; [ exact E1 | split; [ exact E2 | split; [ intros d; apply E3 | ]]]. intros i Hi.
  destruct (E3 (nth i ds nowhere)) as (_ & me & md & M1 & M2 & EF). cbv zeta in EF. rewrite EF. rewrite !el2_fisher by assumption.
  destruct (HJ j Hj) as (rj & R1 & ->). destruct (HJ i Hi) as (ri & R2 & ->).
  rewrite R1 in M1. apply ok_inj in M1. subst me. rewrite R2 in M2. apply ok_inj in M2. subst md. reflexivity.
Qed.
Lemma jacobian_exists ds : length mu = (a * n)%nat -> exists J, jacobian c ells probes nl osc (a * n) ds J.
Proof.
  intros HL. set (p := length ds).
  assert (K : forall d, exists rows, gangular_cl num_dual (dual_cosmo c d) (Array1 ells) probes (gmodel num_dual nl osc) = Ok rows /\ length (concat rows) = (a * n)%nat).
  { intros d. destruct (dual_run c nl osc ells probes f_sky mu a a n s HB NG HD HM d) as (m & C & E1 & E2 & _). destruct (mean_of_angular _ _ _ _ _ _ _ _ _ E1) as (rows & A1 & ->). exists rows.
    split; [ exact A1 | ]. rewrite <- HL, <- E2. now rewrite map_length. }
  assert (K' : exists cols : list (list R), length cols = p /\ forall q, (q < p)%nat -> length (nth q cols []) = (a * n)%nat /\ exists rows,
    gangular_cl num_dual (dual_cosmo c (nth q ds nowhere)) (Array1 ells) probes (gmodel num_dual nl osc) = Ok rows /\ nth q cols [] = map snd (concat rows)).
  { unfold p. clear p. induction ds as [ | d ds' IH]; [ exists []; split; [ reflexivity | intros q Hq; cbn in Hq; lia ] | ].
    destruct IH as (cols & L1 & L2). destruct (K d) as (rows & A1 & A2). exists (map snd (concat rows) :: cols). split; [ cbn [length]; now rewrite L1 | ].
    intros [ | q] Hq; cbn [nth length] in *; [ split; [ now rewrite map_length | now exists rows ] | apply L2; lia ]. }
  destruct K' as (cols & L1 & L2). exists (tab (a * n) (fun i => tab p (fun q => el (nth q cols []) i))). split; [ apply wf2_tab2 | ].
  intros q Hq. destruct (L2 q Hq) as (L3 & rows & A1 & A2). exists rows. split; [ exact A1 | ]. rewrite <- A2.
  unfold col. rewrite map_tab. transitivity (tab (a * n) (fun i => el (nth q cols []) i)); [ | now apply tab_el ]. apply tab_ext. intros i _. now rewrite nth_tab.
Qed.
End Routes.
(** J^T P J of a symmetric positive definite P *)
Lemma form_bilin N J D' i j Y v : wf1 N v -> length (col i J) = N -> is_matvec N N D' v Y -> (forall k, (k < N)%nat -> el v k = el2 J k j) ->
  length J = N -> vdot (col i J) Y = bilin N D' (fun k => el2 J k i) (fun k => el2 J k j).
Proof.
  intros Wv Li [WY HY] Ev LJ. rewrite (vdot_Rsum N) by assumption. unfold bilin. apply Rsum_ext. intros k Hk. rewrite (HY k Hk), el_col by lia. rewrite <- Rsum_scal. apply Rsum_ext. intros l Hl. rewrite Ev by assumption. ring.
Qed.
Lemma Rsum_psd N D' p J : psd N D' -> forall x, 0 <= Rsum p (fun i => Rsum p (fun j => x i * bilin N D' (fun k => el2 J k i) (fun k => el2 J k j) * x j)).
Proof.
  intros HP x. specialize (HP (fun k => Rsum p (fun i => x i * el2 J k i))). unfold quad in HP.
  match goal with |- 0 <= ?a => replace a with (Rsum N (fun k => Rsum N (fun l => Rsum p (fun i => x i * el2 J k i) * el2 D' k l * Rsum p (fun i => x i * el2 J l i)))); [ exact HP | ] end.
  transitivity (Rsum N (fun k => Rsum N (fun l => Rsum p (fun i => Rsum p (fun j => x i * el2 J k i * el2 D' k l * (x j * el2 J l j)))))).
  { apply Rsum_ext; intros k Hk. apply Rsum_ext; intros l Hl. rewrite <- !Rsum_scal_r. apply Rsum_ext; intros i Hi. now rewrite <- Rsum_scal. }
  rewrite (Rsum_ext N _ (fun k => Rsum p (fun i => Rsum p (fun j => Rsum N (fun l => x i * el2 J k i * el2 D' k l * (x j * el2 J l j)))))).
  2:{ intros k Hk. rewrite Rsum_swap. apply Rsum_ext; intros i Hi. apply Rsum_swap. }
  rewrite Rsum_swap. apply Rsum_ext; intros i Hi. rewrite Rsum_swap. apply Rsum_ext; intros j Hj. unfold bilin. rewrite <- Rsum_scal, <- Rsum_scal_r. apply Rsum_ext; intros k Hk.
  rewrite <- Rsum_scal, <- Rsum_scal_r. apply Rsum_ext; intros l Hl. ring.
Qed.
Lemma survey_fisher la c nl osc ells probes f_sky : linalg_ok la -> built c -> _gamma c = None -> (forall x, limber_epoch probes x -> 0 < x /\ D c x <> 0) ->
  probes_ok probes -> noise_positive probes -> (forall p d, In p probes -> In d (bins_of p) -> 0 <= nz_zmax d) ->
  (forall l a, (l < length ells)%nat -> 1 / (1 + survey_zmax probes) <= a <= 1 -> 0 <= model_nl nl c ((el ells l + 1 / 2) / Rmax (chi c a) 1) a (eh osc)) ->
  (2 <= length ells)%nat -> (forall l, (l < length ells)%nat -> 0 < knox_norm ells f_sky l) ->
  let N := length (get_cl_ordering probes) in let n := length ells in
  exists mu s m P, gaussian_cl_covariance_and_mean c (Array1 ells) probes (eh osc) (model_nl nl) f_sky true = Ok (mu, A3 N N n s) /\
    gaussian_cl_covariance_and_mean c (Array1 ells) probes (eh osc) (model_nl nl) f_sky false = Ok (mu, A2 (n * N) (n * N) m) /\ is_inverse (n * N) m P /\
    forall ds, let p := length ds in (exists J, jacobian c ells probes nl osc (n * N) ds J) /\ forall J, jacobian c ells probes nl osc (n * N) ds J ->
      exists t F, inv (la_inv la) (A3 N N n s) = Ok t /\ Sparse.dot [A2 p (n * N) (transposed p J); t; A2 (n * N) p J] = Ok (A2 p p F) /\
        (forall i j, (i < p)%nat -> (j < p)%nat -> el2 F i j = bilin (n * N) P (fun k => el2 J k i) (fun k => el2 J k j)) /\ symmetric p F /\ psd p F /\
        forall j, (j < p)%nat -> exists y, gnotebook_likelihood NB la (hessian_cosmo c (nth j ds nowhere)) ells probes (gmodel NB nl osc) f_sky mu = Ok y /\
          forall i, (i < p)%nat -> - hessian_along y (nth i ds nowhere) = el2 F i j.
Proof.
  intros HLA B NG HD Hok HN HZ HP HL HK N n.
  assert (Hr : reachable c) by (exists c, []; split; [ rewrite B; split; reflexivity | reflexivity ]).
  assert (Hg : _gamma_growth c = false) by (rewrite B; unfold make_cosmology; rewrite NG; reflexivity).
  assert (HT : noise_total probes) by (intros p Hp; destruct (HN p Hp) as (v & X1 & X2 & _); eauto).
  destruct (mean_and_covariance c ells probes (eh osc) (model_nl nl) f_sky Hr Hg Hok HT HL ltac:(intros l Hl; pose proof (HK l Hl); lra)) as (sig & noi & mean & s3 & m2 & E1 & E2 & E3 & E4 & E5 & E6 & _ & _).
  destruct (covariance_end_to_end c ells probes (eh osc) (model_nl nl) f_sky Hr Hg Hok HN HZ HP HL HK) as (mean' & d & m & F1 & F2 & F3 & F4).
  rewrite E4 in F1. injection F1 as <- Ed _ <-. subst d.
  destruct (mean_layout c ells probes (eh osc) (model_nl nl) f_sky true Hr Hg Hok HT HL) as (sig' & noi' & mn & cov & G1 & G2 & CI & G3 & G4 & _).
  rewrite E1 in G1. injection G1 as <-. rewrite E2 in G2. injection G2 as <-. rewrite E3 in G3. injection G3 as <- <-.
  destruct (spectra_exist probes (madd sig noi)) as [S HS].
  destruct (covariance_main ells probes sig noi f_sky S CI HS) as (s3' & m2' & K1 & KW & K2 & K3 & _).
  rewrite G4 in K1. injection K1 as <-.
  destruct (mean_layout c ells probes (eh osc) (model_nl nl) f_sky false Hr Hg Hok HT HL) as (sg & nn & mn & cov & L1 & L2 & _ & L3 & L4 & _).
  rewrite E1 in L1. injection L1 as <-. rewrite E2 in L2. injection L2 as <-. rewrite E4 in L3. injection L3 as _ <-. rewrite L4 in K2. injection K2 as <-.
  fold N n in E3, E4, E5, E6, F3, F4, KW, K3. rewrite (Nat.mul_comm n N) in *.
  assert (N0 : (0 < N)%nat).
  { destruct Hok as [Hne Hall]. destruct probes as [ | p ps]; [ congruence | ]. destruct (Hall p ltac:(now left)) as [Hb _].
    assert (Bn : (0 < n_bins (p :: ps))%nat) by (unfold n_bins; simpl; rewrite app_length; destruct (bins_of p); [ congruence | simpl; lia ]).
    pose proof (proj2 (proj2 (proj2 (ordering_spec (p :: ps))))) as Q. fold N in Q. nia. }
  assert (n0 : (0 < n)%nat) by (unfold n; lia).
  assert (DN : denotes N N n s3 m2) by (subst m2; now apply dense_of_denotes).
  destruct (inv_correct (la_inv la) N n s3 (proj1 HLA) KW (trailing_slices N n s3 N0 (pos_def_trailing KW n0 DN F4))) as (t & T1 & T2 & T3).
  destruct (to_dense_correct N N n t T2) as (DT & T4 & T5). specialize (T3 m2 DT DN T5).
  assert (PD : pos_def (N * n) DT) by exact (pos_def_inverse _ _ _ F4 T3). assert (SY : symmetric (N * n) DT) by exact (inverse_symmetric _ m2 _ F3 T3).
  exists mean, s3, m2, DT. split; [ exact E3 | split; [ exact E4 | split; [ exact T3 | ]]]. intros ds p.
  split; [ exact (jacobian_exists c nl osc ells probes f_sky mean N n s3 B NG HD E3 ds E6) | ]. intros J HJ.
  destruct (routes la c nl osc ells probes f_sky mean N n s3 B NG HD E3 ds J HJ) as (F & R1 & R2 & R3 & R4). fold p in R2, R3, R4.
  rewrite T1 in R1. injection R1 as ET. rewrite <- ET in R2, R3. exists (A3 N N n t), F. split; [ exact T1 | split; [ exact R2 | ]].
  assert (FB : forall i j, (i < p)%nat -> (j < p)%nat -> el2 F i j = bilin (N * n) DT (fun k => el2 J k i) (fun k => el2 J k j)).
  { intros i j Hi Hj. rewrite R3 by assumption. destruct HJ as [[LJ _] _]. assert (LC : forall q, length (col q J) = (N * n)%nat) by (intros q; unfold col; now rewrite map_length).
    apply (form_bilin (N * n) J DT i j _ (col j J)); [ apply LC | apply LC | apply (sparse_dot_vec_correct N N n t (col j J) DT T2 (LC j) T5) | | exact LJ ].
    intros k Hk. apply el_col. lia. }
  assert (FS : symmetric p F) by (intros i j Hi Hj; rewrite !FB by assumption; now apply bilin_sym).
  split; [ exact FB | split; [ exact FS | split ]].
  - intros x. unfold quad. rewrite (Rsum_ext p _ (fun i => Rsum p (fun j => x i * bilin (N * n) DT (fun k => el2 J k i) (fun k => el2 J k j) * x j))) by (intros i Hi; apply Rsum_ext; intros j Hj; now rewrite FB).
    apply Rsum_psd. intros y. destruct (Classical_Prop.classic (exists i, (i < N * n)%nat /\ y i <> 0)) as [Q | Q]; [ left; now apply PD | right ].
    unfold quad. symmetry. rewrite (Rsum_ext _ _ (fun _ => 0)); [ apply Rsum_0 | ]. intros i Hi. rewrite (Rsum_ext _ _ (fun _ => 0)); [ apply Rsum_0 | ]. intros j Hj.
    destruct (Req_dec (y i) 0) as [-> | Qi]; [ ring | exfalso; apply Q; eauto ].
  - intros j Hj. destruct (R4 j Hj) as (y & Y1 & _ & _ & Y2). exists y. split; [ exact Y1 | ]. intros i Hi. rewrite (Y2 i Hi), (FS j i Hj Hi). field.
Qed.

(** ** the program, and the modes *)
Lemma map3_id (L : list (list (list R))) : map (map (map (fun x : R => x))) L = L.
Proof. etransitivity; [ | apply map_id ]. apply map_ext. intros m. etransitivity; [ | apply map_id ]. apply map_ext. intros w. apply map_id. Qed.
Lemma notebook_program la c ells probes T nl P f_sky data : built c -> _gamma c = None ->
  (forall b, limber_epoch probes b -> 0 < b /\ D c b <> 0) -> (forall k a, P (lift_cosmo c) k a = nonlinear_matter_power c k a T nl) ->
  gnotebook_likelihood num_R la (lift_cosmo c) ells probes P f_sky data = notebook_likelihood la c ells probes T nl f_sky data.
Proof.
  intros B NG HD HP. destruct (proj2 (like_programs la c probes ells T nl P f_sky true data true "inverse" B NG) HD HP) as [E _].
  unfold gnotebook_likelihood, notebook_likelihood. rewrite <- E. destruct (ggaussian_cl_covariance_and_mean num_R (lift_cosmo c) ells probes P f_sky true) as [[m C] | x]; [ | reflexivity ]. cbn [bind fst snd].
  destruct C as [ | | | a b n s | ]; cbn [arr_of]; try reflexivity. unfold inv, check_sparse. cbn [num_R cst val]. destruct (Nat.eqb a b) eqn:Eab; cbn [negb bind andb]; [ | reflexivity ].
  rewrite !map3_id, map_id. reflexivity.
Qed.
Lemma notebook_modes la c e ells probes nl osc f_sky data :
  match gnotebook_likelihood NB la (hessian_cosmo c e) ells probes (gmodel NB nl osc) f_sky data with
  | Err x => forall d, gnotebook_likelihood NO la (twice_cosmo c e d) ells probes (gmodel NO nl osc) f_sky data = Err x
  | Ok y => forall d, exists z1 z2, gnotebook_likelihood NO la (twice_cosmo c e d) ells probes (gmodel NO nl osc) f_sky data = Ok (fst y, (z1, z2)) /\ gradient_along y d = z1 /\ hessian_along y d = z2
  end.
Proof.
  assert (K := fun d => q_notebook _ _ _ (rbo_num 10 (weight d 0 0)) la _ _ ells probes _ _ f_sky data (rbo_cosmo c e d) (r_model _ _ _ (rbo_num 10 (weight d 0 0)) _ _ nl osc (rbo_cosmo c e d))).
  destruct (gnotebook_likelihood NB la (hessian_cosmo c e) ells probes (gmodel NB nl osc) f_sky data) as [y | x]; intros d; specialize (K d);
    destruct (gnotebook_likelihood NO la (twice_cosmo c e d) ells probes (gmodel NO nl osc) f_sky data) as [z | x']; cbn [res_rel] in K; try contradiction; [ | now rewrite K ].
  destruct (rbo_read d y z K) as (E1 & E2 & E3). destruct z as [z0 [z1 z2]]. cbn [fst snd] in *. exists z1, z2. subst z0. split; [ reflexivity | now split ].
Qed.
Lemma c_routes la c nl osc ells probes f_sky mu a n s ds J : built c -> _gamma c = None -> (forall x, limber_epoch probes x -> 0 < x /\ D c x <> 0) ->
  gaussian_cl_covariance_and_mean c (Array1 ells) probes (eh osc) (model_nl nl) f_sky true = Ok (mu, A3 a a n s) ->
  jacobian c ells probes nl osc (a * n) ds J -> let p := length ds in
  exists t F, inv (la_inv la) (A3 a a n s) = Ok t /\ Sparse.dot [A2 p (a * n) (transposed p J); t; A2 (a * n) p J] = Ok (A2 p p F) /\
    forall j, (j < p)%nat -> exists y, gnotebook_likelihood NB la (hessian_cosmo c (nth j ds nowhere)) ells probes (gmodel NB nl osc) f_sky mu = Ok y /\ fst (fst y) = 0 /\ (forall d, gradient_along y d = 0) /\
      forall i, (i < p)%nat -> - hessian_along y (nth i ds nowhere) = (el2 F i j + el2 F j i) / 2.
Proof.
  intros HB NG HD HM HJ p. destruct (routes la c nl osc ells probes f_sky mu a n s HB NG HD HM ds J HJ) as (F & E1 & E2 & _ & E3). eauto 6.
Qed.
