(** * Forward-mode differentiation of the Gaussian log-likelihood: public statements *)
From Coquelicot Require Import Coquelicot.
From Verif Require Import Np NpLemmas Core Sparse SparseSpec SparseProofs DetSpec MxBridge DetProofs DetProofs2 DetPivots Likelihood LikelihoodSpec LikelihoodProofs Interp InterpProofs
  Background BgSpec BgPositive Power Redshift Probes AngularCl GradSpec FisherSpec Deriv PosDefOpen OracleDeriv
  Ad AdSpec AdProofs AdPower AdProbes AdRel AdProbesProofs AdArrSpec AdProbesFinal AdHalofitSpec AdLike AdLikeProofs AdLikeSpec.
Opaque chi_table growth_table_ODE growth_table_gamma logspace.
Local Open Scope R_scope.
Local Notation tang := (fun (f : R -> R) (x : dual) => tangent_of f 0 x).
Local Notation vr := (lr tang).
Local Notation mr := (lr (lr tang)).
Local Notation tr := (lr (lr (lr tang))).

(** ** arrays along curves *)
Lemma lr_of_nth {X Y} (rl : (R -> X) -> Y -> Prop) dx dy (l : list Y) : respects rl -> forall f, (forall s, length (f s) = length l) ->
  (forall i, (i < length l)%nat -> rl (fun s => nth i (f s) dx) (nth i l dy)) -> lr rl f l.
Proof.
  intros HR. induction l as [ | y l IH]; intros f L P.
  - apply lr_nil. intros s. specialize (L s). now destruct (f s).
  - apply (lr_cons _ _ (fun s => nth 0 (f s) dx) (fun s => tl (f s))).
    + intros s. specialize (L s). destruct (f s); [ discriminate | reflexivity ].
    + apply (P 0%nat). cbn [length]. lia.
    + apply IH; [ intros s; specialize (L s); destruct (f s); [ discriminate | now injection L ] | ].
      intros i Hi. apply (HR (fun s => nth (S i) (f s) dx)); [ | apply (P (S i)); cbn [length]; lia ].
      intros s. specialize (L s). destruct (f s); [ discriminate | reflexivity ].
Qed.
Lemma curve1_lr n v x : curve1 n v x -> vr v x.
Proof.
  intros (W & L & T). apply (lr_of_nth tang 0 (0, 0)); [ exact tangent_respects | intros s; rewrite L; apply W | ]. intros i Hi. apply T. lia.
Qed.
Lemma curve2_lr r c m x : curve2 r c m x -> mr m x.
Proof.
  intros (W & L & L2 & T). apply (lr_of_nth vr [] []); [ apply lr_respects | intros s; rewrite L; apply (W s) | ]. intros i Hi. rewrite L in Hi.
  apply (lr_of_nth tang 0 (0, 0)); [ exact tangent_respects | intros s; rewrite (L2 i Hi); apply (wf2_row r c); auto | ]. intros j Hj. rewrite (L2 i Hi) in Hj. now apply T.
Qed.
Lemma curve3_lr a b n t x : curve3 a b n t x -> tr t x.
Proof.
  intros (W & L & L2 & L3 & T). apply (lr_of_nth mr [] []); [ apply lr_respects | intros s; rewrite L; apply (W s) | ]. intros i Hi. rewrite L in Hi.
  apply (curve2_lr b n (fun s => nth i (t s) [])). split; [ intros s; now apply (wf3_row a) | split; [ now apply L2 | split ]].
  - intros j Hj. now apply L3.
  - intros j k Hj Hk. now apply T.
Qed.
Lemma lr_vals f x : vr f x -> map fst x = f 0.
Proof. induction 1 as [f E | f u fu y l E P Q IH]; rewrite E; [ reflexivity | ]. cbn [map]. rewrite IH. f_equal. apply P. Qed.
Lemma mr_vals f x : mr f x -> map (map fst) x = f 0.
Proof. induction 1 as [f E | f u fu y l E P Q IH]; rewrite E; [ reflexivity | ]. cbn [map]. rewrite IH. f_equal. now apply lr_vals. Qed.
Lemma lr_tangents f x i : vr f x -> dv (fun s => el (f s) i) 0 (el (map snd x) i).
Proof.
  intros P. assert (T := lr_nth tang f x 0 (0, 0) i tangent_respects (t_cst 0 0) P). replace (el (map snd x) i) with (snd (nth i x (0, 0))) by (symmetry; exact (map_nth snd x (0, 0) i)).
  apply T.
Qed.
Lemma mr_tangents f x i j : mr f x -> dv (fun s => el2 (f s) i j) 0 (el2 (map (map snd) x) i j).
Proof.
  intros P. assert (T := lr_nth vr f x [] [] i (lr_respects tang) (lr_nil' tang) P). unfold el2 at 2. change (@nil R) with (map snd (@nil dual)). rewrite map_nth. exact (lr_tangents _ _ j T).
Qed.
Lemma mr_wf n f x : (forall s, wf2 n n (f s)) -> mr f x -> wf2 n n (map (map snd) x).
Proof.
  intros W P. split; [ exact (eq_trans (map_length _ x) (eq_trans (eq_sym (lr_length _ _ _ P 0)) (proj1 (W 0)))) | ]. intros row HR. apply in_map_iff in HR. destruct HR as (v & <- & Hv).
  rewrite map_length. apply (In_nth _ _ []) in Hv. destruct Hv as (i & Hi & <-). assert (T := lr_nth vr f x [] [] i (lr_respects tang) (lr_nil' tang) P).
  refine (eq_trans (eq_sym (lr_length _ _ _ T 0)) _). apply (wf2_row n n); [ apply W | ]. assert (E := lr_length _ _ _ P 0). destruct (W 0) as [E2 _]. rewrite <- E2, E. exact Hi.
Qed.

(** ** the oracles *)
Section Oracles.
Variable la : linalg.
Hypotheses (HO : linalg_ok la) (HS : linalg_shaped la).
Lemma d_inv n f x : (forall s, wf2 n n (f s)) -> invertible n (f 0) -> mr f x -> mr (fun s => la_inv la n (f s)) (ga_inv (linalg_dual la) n x).
Proof.
  intros W I P. apply (curve2_lr n n). cbn [ga_inv linalg_dual]. rewrite (mr_vals f x P).
  split; [ intros s; now apply HS | split; [ apply length_tab | split ]].
  - intros i Hi. rewrite nth_tab by exact Hi. apply length_tab.
  - intros i j Hi Hj. rewrite !nth_tab by assumption. split; [ reflexivity | ]. cbn [snd].
    exact (inv_moving HO W I (fun i j _ _ => mr_tangents f x i j P) Hi Hj).
Qed.
Lemma d_det n f x : (forall s, wf2 n n (f s)) -> invertible n (f 0) -> mr f x -> tangent_of (fun s => snd (la_slogdet la n (f s))) 0 (ga_logdet (linalg_dual la) n x).
Proof.
  intros W I P. cbn [ga_logdet linalg_dual]. rewrite (mr_vals f x P). split; [ reflexivity | ]. cbn [snd].
  exact (logdet_moving HO W I (fun i j _ _ => mr_tangents f x i j P)).
Qed.
Lemma d_cho n f x r y : (forall s, wf2 n n (f s)) -> (forall s, symmetric n (f s)) -> pos_def n (f 0) -> (forall s, wf1 n (r s)) -> mr f x -> vr r y ->
  vr (fun s => la_cho_solve la n (f s) (r s)) (ga_cho_solve (linalg_dual la) n x y).
Proof.
  intros W S PD Wr P Q. apply (curve1_lr n). cbn [ga_cho_solve linalg_dual]. rewrite (mr_vals f x P), (lr_vals r y Q).
  split; [ intros s; now apply HS | split; [ apply length_tab | ]].
  intros i Hi. rewrite nth_tab by exact Hi. split; [ reflexivity | ]. cbn [snd].
  refine (cho_moving HO W S PD Wr _ (mr_wf n f x W P) (fun i j _ _ => mr_tangents f x i j P) (fun i _ => lr_tangents r y i Q) Hi).
  exact (eq_trans (map_length _ y) (eq_trans (eq_sym (lr_length _ _ _ Q 0)) (Wr 0))).
Qed.
Lemma d_log f x : f 0 <> 0 -> tangent_of f 0 x -> tangent_of (fun s => ln (Rabs (f s))) 0 (nln num_dual (nabs num_dual x)).
Proof. intros N T. apply (t_ln 0 (fun s => Rabs (f s))); [ now apply Rabs_pos_lt | now apply t_abs ]. Qed.

Lemma rr_number F G : rr tang F G -> jvp_number F G \/ exists e, G = Err e /\ forall t, F t = Err e.
Proof. intros HR. destruct (rr_cases _ _ _ HR) as [(V & M & -> & E & L) | (e & -> & E)]; [ left; now exists V, M | right; now exists e ]. Qed.
Lemma rr_ok_number F G v : rr tang F G -> F 0 = Ok v -> jvp_number F G.
Proof. intros HR E. destruct (rr_number F G HR) as [J | (e & _ & EE)]; [ exact J | rewrite EE in E; discriminate ]. Qed.

Lemma dense_rr n f x data mu m il method : mr f x -> vr mu m -> (forall s, wf2 n n (f s)) -> (forall s, symmetric n (f s)) -> pos_def n (f 0) ->
  rr tang (fun s => gaussian_log_likelihood la data (mu s) (A2 n n (f s)) il method) (ggaussian_log_likelihood num_dual (linalg_dual la) data m (G2 n n x) il method).
Proof.
  intros T V W S PD.
  refine (l_like_dense num_dual tang la (linalg_dual la) tangent_respects (t_cst 0) (t_add 0) (t_sub 0) (t_mul 0) d_inv d_det d_cho n n f x data mu m il method T V W (pos_def_invertible PD) (fun _ => conj S PD)).
Qed.
Lemma dense_inverse_rr n f x data mu m il : mr f x -> vr mu m -> (forall s, wf2 n n (f s)) -> invertible n (f 0) ->
  rr tang (fun s => gaussian_log_likelihood la data (mu s) (A2 n n (f s)) il "inverse") (ggaussian_log_likelihood num_dual (linalg_dual la) data m (G2 n n x) il "inverse").
Proof.
  intros T V W I.
  refine (l_like_dense num_dual tang la (linalg_dual la) tangent_respects (t_cst 0) (t_add 0) (t_sub 0) (t_mul 0) d_inv d_det d_cho n n f x data mu m il "inverse" T V W I _). discriminate.
Qed.
Lemma sparse_rr a n f x data mu m il method : (0 < a)%nat -> (0 < n)%nat -> tr f x -> vr mu m -> wf3 a a n (f 0) -> trailing_invertible a n (f 0) ->
  rr tang (fun s => gaussian_log_likelihood la data (mu s) (A3 a a n (f s)) il method) (ggaussian_log_likelihood num_dual (linalg_dual la) data m (G3 a a n x) il method).
Proof.
  intros Ha Hn T V W I. assert (SL := slice_trailing W I). destruct (pivots_nonzero (proj1 HO) W Ha Hn I) as [PZ LZ].
  apply (l_like_sparse num_dual tang la (linalg_dual la) tangent_respects (t_cst 0) (t_add 0) (t_sub 0) (t_mul 0) d_inv a a n f x data mu m il method T V).
  - intros k Hk. specialize (SL 0%nat k Ha Hk). rewrite Nat.sub_0_r in SL. change (sub3 0 a 0 a (f 0)) with (trail (f 0) a 0) in SL. now rewrite (trail0 W) in SL.
  - intros _. apply (l_logdet num_dual tang la (linalg_dual la) tangent_respects (t_cst 0) (t_add 0) (t_sub 0) (t_mul 0) d_log d_inv a n f x T).
    + intros k q Hk Hq. apply (SL (k + 1)%nat q); [ lia | exact Hq ].
    + intros k z Hk. apply (PZ k z). lia.
    + exact LZ.
Qed.
End Oracles.

(** ** likelihood of moving means and covariances *)
Lemma dense_jvp la n C Cd data mu mud il method : linalg_ok la -> linalg_shaped la -> curve2 n n C Cd -> curve1 n mu mud -> wf1 n data ->
  (forall s, symmetric n (C s)) -> pos_def n (C 0) -> method = "inverse"%string \/ method = "cholesky"%string ->
  jvp_number (fun t => gaussian_log_likelihood la data (mu t) (A2 n n (C t)) il method)
    (ggaussian_log_likelihood num_dual (linalg_dual la) data mud (G2 n n Cd) il method).
Proof.
  intros HO HS HC HM Wd SY PD HM2. assert (WC := proj1 HC). assert (WM := proj1 HM).
  destruct (cholesky_eq_inverse la HO n (C 0) data (mu 0) il (WC 0) (SY 0) PD Wd (WM 0)) as (v & E1 & E2).
  apply (rr_ok_number _ _ v); [ apply dense_rr; try assumption; [ now apply (curve2_lr n n) | now apply (curve1_lr n) ] | ].
  destruct HM2 as [-> | ->]; assumption.
Qed.
Lemma sparse_jvp la a n C Cd data mu mud il method : linalg_ok la -> linalg_shaped la -> (0 < a)%nat -> (0 < n)%nat -> curve3 a a n C Cd -> curve1 (a * n) mu mud ->
  wf1 (a * n) data -> trailing_invertible a n (C 0) ->
  jvp_number (fun t => gaussian_log_likelihood la data (mu t) (A3 a a n (C t)) il method)
    (ggaussian_log_likelihood num_dual (linalg_dual la) data mud (G3 a a n Cd) il method).
Proof.
  intros HO HS Ha Hn HC HM Wd I. assert (WC := proj1 HC). assert (WM := proj1 HM).
  destruct (sparse_eq_dense la HO a n (C 0) (dense_of n (C 0)) data (mu 0) il method (WC 0) Ha Hn (dense_of_denotes _ _ _ _ (WC 0)) I Wd (WM 0)) as (v & E & _).
  apply (rr_ok_number _ _ v); [ | exact E ]. apply sparse_rr; try assumption; [ now apply (curve3_lr a a n) | now apply (curve1_lr (a * n)) | apply WC ].
Qed.
