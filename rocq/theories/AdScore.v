(** * The derivative of the log-likelihood in closed form *)
From Coquelicot Require Import Coquelicot.
From Verif Require Import Np NpLemmas Core Sparse SparseSpec SparseProofs DetSpec MxBridge DetProofs DetProofs2 Likelihood LikelihoodSpec LikelihoodProofs SparsePrec DetPos ExSparse ExLikelihood FisherSpec Deriv PosDefOpen OracleDeriv
  Ad AdSpec AdProofs AdRel AdArrSpec AdProbesFinal AdHalofitSpec AdLike AdLikeProofs AdLikeSpec AdLikeFinal.
Local Open Scope R_scope.

Lemma dv_Rsum n (f : nat -> R -> R) t d : (forall i, (i < n)%nat -> dv (f i) t (d i)) -> dv (fun s => Rsum n (fun i => f i s)) t (Rsum n d).
Proof.
  induction n as [ | n IH]; intros H; cbn [Rsum].
  - apply (@dv_ext (fun _ => 0)); [ reflexivity | apply dv_const ].
  - apply (@dv_plus (fun s => Rsum n (fun i => f i s)) (f n)); [ apply IH; intros; apply H; lia | apply H; lia ].
Qed.
Lemma bilin_sym n P u v : symmetric n P -> bilin n P u v = bilin n P v u.
Proof. intros SY. unfold bilin. rewrite Rsum_swap. apply Rsum_ext. intros i Hi. apply Rsum_ext. intros j Hj. rewrite (SY j i Hj Hi). ring. Qed.
Lemma el2_mmul n X Y i j : (i < n)%nat -> (j < n)%nat -> el2 (mmul n X Y) i j = Rsum n (fun k => el2 X i k * el2 Y k j).
Proof. intros Hi Hj. unfold mmul. rewrite el2_tab by assumption. apply vsum_tab. Qed.
Lemma trace_mmul n P C' : trace n (mmul n P C') = trace_prod n P C'.
Proof. unfold trace, trace_prod. rewrite vsum_tab. apply Rsum_ext. intros i Hi. now apply el2_mmul. Qed.
Lemma sandwich_mmul n P C' u v : sandwich n P C' u v = bilin n (mmul n (mmul n P C') P) u v.
Proof.
  unfold sandwich, bilin.
  transitivity (Rsum n (fun j => Rsum n (fun k => Rsum n (fun i => Rsum n (fun l => u i * el2 P i j * el2 C' j k * el2 P k l * v l))))).
  { apply Rsum_ext; intros j Hj. apply Rsum_ext; intros k Hk. rewrite <- !Rsum_scal_r. apply Rsum_ext; intros i Hi. rewrite <- Rsum_scal. apply Rsum_ext; intros l Hl. ring. }
  transitivity (Rsum n (fun i => Rsum n (fun l => Rsum n (fun k => Rsum n (fun j => u i * el2 P i j * el2 C' j k * el2 P k l * v l))))).
  { rewrite (Rsum_ext n _ (fun j => Rsum n (fun i => Rsum n (fun k => Rsum n (fun l => u i * el2 P i j * el2 C' j k * el2 P k l * v l))))) by (intros; apply Rsum_swap).
    rewrite Rsum_swap. apply Rsum_ext; intros i Hi.
    rewrite (Rsum_ext n _ (fun j => Rsum n (fun l => Rsum n (fun k => u i * el2 P i j * el2 C' j k * el2 P k l * v l)))) by (intros; apply Rsum_swap).
    rewrite Rsum_swap. apply Rsum_ext; intros l Hl. apply Rsum_swap. }
  apply Rsum_ext; intros i Hi. apply Rsum_ext; intros l Hl. rewrite (el2_mmul n (mmul n P C') P i l Hi Hl), <- Rsum_scal, <- Rsum_scal_r. apply Rsum_ext; intros k Hk.
  rewrite el2_mmul by assumption. rewrite <- Rsum_scal_r, <- Rsum_scal, <- Rsum_scal_r. apply Rsum_ext; intros j Hj. ring.
Qed.
Lemma sandwich_opp n P C' u v : sandwich n P C' (fun i => - u i) (fun i => - v i) = sandwich n P C' u v.
Proof. rewrite !sandwich_mmul. unfold bilin. apply Rsum_ext; intros; apply Rsum_ext; intros; ring. Qed.

Section Score.
Variables (la : linalg) (n : nat) (C : R -> list (list R)) (C' : list (list R)) (data : list R) (mu : R -> list R) (mu' : nat -> R) (P : list (list R)).
Hypotheses (HO : linalg_ok la) (WC : forall s, wf2 n n (C s)) (SY : forall s, symmetric n (C s)) (PD : pos_def n (C 0)) (MC : moving n C 0 C') (HI : is_inverse n (C 0) P)
  (Wd : wf1 n data) (Wm : forall s, wf1 n (mu s)) (MM : forall i, (i < n)%nat -> dv (fun s => el (mu s) i) 0 (mu' i)).
Lemma inv_at_0 : la_inv la n (C 0) = P.
Proof. apply (is_inverse_unique n (C 0)); [ | exact HI ]. apply (proj1 HO); [ apply WC | now exists P ]. Qed.
Lemma chi2_moves : dv (fun s => chi2 n (la_inv la n (C s)) data (mu s)) 0
  (- 2 * bilin n P mu' (fun i => el data i - el (mu 0) i) - sandwich n P C' (fun i => el data i - el (mu 0) i) (fun i => el data i - el (mu 0) i)).
Proof.
  assert (IC := pos_def_invertible PD). assert (PS := inverse_symmetric n (C 0) P (SY 0) HI).
  set (r := fun i => el (mu 0) i - el data i).
  apply (@dv_eq _ _ (Rsum n (fun i => Rsum n (fun j => (mu' i * el2 P i j + r i * - el2 (mmul n (mmul n P C') P) i j) * r j + r i * el2 P i j * mu' j)))).
  - transitivity (bilin n P mu' r + bilin n P r mu' - sandwich n P C' r r).
    + rewrite sandwich_mmul. unfold bilin. rewrite <- Rsum_plus, <- Rsum_minus. apply Rsum_ext; intros i Hi. rewrite <- Rsum_plus, <- Rsum_minus. apply Rsum_ext; intros j Hj. ring.
    + rewrite (bilin_sym n P r mu' PS).
      replace (bilin n P mu' r) with (- bilin n P mu' (fun i => el data i - el (mu 0) i)).
      2:{ unfold bilin. replace (- Rsum n (fun i => Rsum n (fun j => mu' i * el2 P i j * (el data j - el (mu 0) j)))) with (-1 * Rsum n (fun i => Rsum n (fun j => mu' i * el2 P i j * (el data j - el (mu 0) j)))) by ring.
          rewrite <- Rsum_scal. apply Rsum_ext; intros i Hi. rewrite <- Rsum_scal. apply Rsum_ext; intros j Hj. unfold r. ring. }
      replace (sandwich n P C' r r) with (sandwich n P C' (fun i => el data i - el (mu 0) i) (fun i => el data i - el (mu 0) i)); [ ring | ].
      rewrite <- sandwich_opp. unfold sandwich, r. apply Rsum_ext; intros j Hj. apply Rsum_ext; intros k Hk. f_equal; [ f_equal | ]; apply Rsum_ext; intros; ring.
  - unfold chi2, quad. apply (dv_Rsum n (fun i s => Rsum n (fun j => (el (mu s) i - el data i) * el2 (la_inv la n (C s)) i j * (el (mu s) j - el data j)))).
    intros i Hi. apply (dv_Rsum n (fun j s => (el (mu s) i - el data i) * el2 (la_inv la n (C s)) i j * (el (mu s) j - el data j))). intros j Hj.
    assert (DR : forall i, (i < n)%nat -> dv (fun s => el (mu s) i - el data i) 0 (mu' i)).
    { intros p Hp. apply (@dv_eq _ _ (mu' p + - 0)); [ ring | ]. apply (@dv_plus (fun s => el (mu s) p) (fun _ => - el data p)); [ now apply MM | ]. apply (@dv_eq _ _ 0); [ ring | apply dv_const ]. }
    apply (@dv_eq _ _ ((mu' i * el2 (la_inv la n (C 0)) i j + r i * - el2 (mmul n (mmul n (la_inv la n (C 0)) C') (la_inv la n (C 0))) i j) * r j + r i * el2 (la_inv la n (C 0)) i j * mu' j)).
    { now rewrite inv_at_0. }
    apply (@dv_mult (fun s => (el (mu s) i - el data i) * el2 (la_inv la n (C s)) i j) (fun s => el (mu s) j - el data j)); [ | now apply DR ].
    apply (@dv_mult (fun s => el (mu s) i - el data i) (fun s => el2 (la_inv la n (C s)) i j)); [ now apply DR | ].
    now apply (inv_moving HO WC IC MC).
Qed.
Lemma like_moves il method f : method = "inverse"%string \/ method = "cholesky"%string -> (forall s, gaussian_log_likelihood la data (mu s) (A2 n n (C s)) il method = Ok (f s)) ->
  dv f 0 (score n P C' data (mu 0) mu' il).
Proof.
  intros HM HF. assert (IC := pos_def_invertible PD).
  assert (NE : near 0 (fun s => (if il then - (1/2) * (chi2 n (la_inv la n (C s)) data (mu s) - snd (la_slogdet la n (C s))) else - (1/2) * chi2 n (la_inv la n (C s)) data (mu s)) = f s)).
  { refine (@near_imp 0 (fun s => pos_def n (C s)) _ _ (@pos_def_open n C C' 0 (SY 0) PD MC)). intros s PS. specialize (HF s).
    assert (IS : is_inverse n (C s) (la_inv la n (C s))) by (apply (proj1 HO); [ apply WC | now apply pos_def_invertible ]).
    destruct (cholesky_eq_inverse la HO n (C s) data (mu s) il (WC s) (SY s) PS Wd (Wm s)) as (v & E1 & E2).
    assert (E : f s = v) by (destruct HM as [-> | ->]; congruence). rewrite E. rewrite (gll_dense_inverse la HO n (C s) _ data (mu s) il (WC s) IS Wd (Wm s)) in E2. now injection E2. }
  apply (@dv_near _ f 0 _ NE). unfold score. destruct il.
  - apply (@dv_eq _ _ (0 * (chi2 n (la_inv la n (C 0)) data (mu 0) - snd (la_slogdet la n (C 0))) + - (1/2) *
      ((- 2 * bilin n P mu' (fun i => el data i - el (mu 0) i) - sandwich n P C' (fun i => el data i - el (mu 0) i) (fun i => el data i - el (mu 0) i)) + - trace n (mmul n (la_inv la n (C 0)) C')))).
    { rewrite inv_at_0, trace_mmul. field. }
    apply (@dv_mult (fun _ => - (1/2)) (fun s => chi2 n (la_inv la n (C s)) data (mu s) - snd (la_slogdet la n (C s)))); [ apply dv_const | ].
    apply (@dv_plus (fun s => chi2 n (la_inv la n (C s)) data (mu s)) (fun s => - snd (la_slogdet la n (C s)))); [ apply chi2_moves | ].
    apply dv_opp. now apply (logdet_moving HO WC IC MC).
  - apply (@dv_eq _ _ (0 * chi2 n (la_inv la n (C 0)) data (mu 0) + - (1/2) *
      (- 2 * bilin n P mu' (fun i => el data i - el (mu 0) i) - sandwich n P C' (fun i => el data i - el (mu 0) i) (fun i => el data i - el (mu 0) i)))); [ field | ].
    apply (@dv_mult (fun _ => - (1/2)) (fun s => chi2 n (la_inv la n (C s)) data (mu s))); [ apply dv_const | apply chi2_moves ].
Qed.
End Score.

Definition tangents2 (x : list (list dual)) : list (list R) := map (map snd) x.
Lemma curve2_moving n C Cd : curve2 n n C Cd -> moving n C 0 (tangents2 Cd).
Proof. intros H i j _ _. apply mr_tangents. now apply (curve2_lr n n). Qed.
Lemma curve1_moving n mu mud : curve1 n mu mud -> forall i, (i < n)%nat -> dv (fun s => el (mu s) i) 0 (snd (nth i mud (0, 0))).
Proof. intros (_ & _ & T) i Hi. apply (T i Hi). Qed.

Lemma dense_score la n C Cd data mu mud il method P : linalg_ok la -> linalg_shaped la -> curve2 n n C Cd -> curve1 n mu mud -> wf1 n data ->
  (forall s, symmetric n (C s)) -> pos_def n (C 0) -> method = "inverse"%string \/ method = "cholesky"%string -> is_inverse n (C 0) P ->
  exists v, gaussian_log_likelihood la data (mu 0) (A2 n n (C 0)) il method = Ok v /\
    ggaussian_log_likelihood num_dual (linalg_dual la) data mud (G2 n n Cd) il method =
      Ok (v, score n P (map (map snd) Cd) data (mu 0) (fun i => snd (nth i mud (0, 0))) il).
Proof.
  intros HO HS HC HM Wd SY PD Hm HI.
  destruct (dense_jvp la n C Cd data mu mud il method HO HS HC HM Wd SY PD Hm) as (f & y & E1 & E2 & [T1 T2]).
  exists (f 0). split; [ apply E1 | ]. rewrite E2. f_equal. rewrite (surjective_pairing y). f_equal; [ exact T1 | ].
  apply (@dv_unique f 0); [ exact T2 | ].
  exact (like_moves la n C _ data mu _ P HO (proj1 HC) SY PD (curve2_moving n C Cd HC) HI Wd (proj1 HM) (curve1_moving n mu mud HM) il method f Hm E1).
Qed.
(** a block-sparse covariance and the dense matrix it stands for, both moving *)
Lemma sparse_score la a n C Cd D Dd data mu mud il method P : linalg_ok la -> linalg_shaped la -> (0 < a)%nat -> (0 < n)%nat -> curve3 a a n C Cd -> curve2 (a * n) (a * n) D Dd ->
  (forall s, denotes a a n (C s) (D s)) -> curve1 (a * n) mu mud -> wf1 (a * n) data ->
  (forall s, symmetric (a * n) (D s)) -> pos_def (a * n) (D 0) -> is_inverse (a * n) (D 0) P ->
  exists v, gaussian_log_likelihood la data (mu 0) (A3 a a n (C 0)) il method = Ok v /\
    ggaussian_log_likelihood num_dual (linalg_dual la) data mud (G3 a a n Cd) il method =
      Ok (v, score (a * n) P (map (map snd) Dd) data (mu 0) (fun i => snd (nth i mud (0, 0))) il).
Proof.
  intros HO HS Ha Hn HC HD DN HM Wd SY PD HI.
  assert (TI : forall s, pos_def (a * n) (D s) -> trailing_invertible a n (C s)) by (intros s Q; refine (pos_def_trailing _ _ (DN s) Q); [ apply HC | exact Hn ]).
  destruct (sparse_jvp la a n C Cd data mu mud il method HO HS Ha Hn HC HM Wd (TI 0 PD)) as (f & y & E1 & E2 & [T1 T2]).
  exists (f 0). split; [ apply E1 | ]. rewrite E2. f_equal. rewrite (surjective_pairing y). f_equal; [ exact T1 | ].
  destruct (dense_jvp la (a * n) D Dd data mu mud il "inverse" HO HS HD HM Wd SY PD (or_introl eq_refl)) as (g & z & F1 & F2 & [U1 U2]).
  apply (@dv_unique f 0); [ exact T2 | ].
  refine (@dv_near g f 0 _ _ _).
  2:{ exact (like_moves la (a * n) D _ data mu _ P HO (proj1 HD) SY PD (curve2_moving _ D Dd HD) HI Wd (proj1 HM) (curve1_moving _ mu mud HM) il _ g (or_introl eq_refl) F1). }
  refine (@near_imp 0 (fun s => pos_def (a * n) (D s)) _ _ (@pos_def_open (a * n) D _ 0 (SY 0) PD (curve2_moving _ D Dd HD))). intros s PS.
  destruct (sparse_eq_dense la HO a n (C s) (D s) data (mu s) il method (proj1 HC s) Ha Hn (DN s) (TI s PS) Wd (proj1 HM s)) as (v & V1 & V2). rewrite E1 in V1. rewrite F1 in V2. congruence.
Qed.
(** the derivative of the log density of the normal distribution has the opposite sign in front of the trace *)
Lemma density_score n (C : R -> list (list R)) C' data (mu : R -> list R) (mu' : nat -> R) P : (forall s, wf2 n n (C s)) -> (forall s, symmetric n (C s)) -> pos_def n (C 0) ->
  (forall i j, (i < n)%nat -> (j < n)%nat -> is_derive (fun s => el2 (C s) i j) 0 (el2 C' i j)) -> is_inverse n (C 0) P -> wf1 n data -> (forall s, wf1 n (mu s)) ->
  (forall i, (i < n)%nat -> is_derive (fun s => el (mu s) i) 0 (mu' i)) -> forall Q, (forall s, pos_def n (C s) -> is_inverse n (C s) (Q s)) ->
  is_derive (fun s => log_density n (C s) (Q s) data (mu s)) 0 (score n P C' data (mu 0) mu' true - trace_prod n P C').
Proof.
  intros WC SY PD MC HI Wd Wm MM Q HQ. assert (HO := la_mx_ok). assert (IC := pos_def_invertible PD).
  assert (CM := chi2_moves la_mx n C C' data mu mu' P HO WC SY PD MC HI MM). assert (LM := logdet_moving HO WC IC MC). rewrite trace_mmul in LM. rewrite (inv_at_0 la_mx n C P HO WC HI) in LM.
  apply (@dv_near (fun s => - (1/2) * (chi2 n (la_inv la_mx n (C s)) data (mu s) + snd (la_slogdet la_mx n (C s))))).
  - refine (@near_imp 0 (fun s => pos_def n (C s)) _ _ (@pos_def_open n C C' 0 (SY 0) PD MC)). intros s PS. unfold log_density.
    assert (IS : invertible n (C s)) by now apply pos_def_invertible. rewrite (dense_logdet la_mx HO n (C s) (WC s) IS).
    rewrite Rabs_right by (left; now apply pos_def_det). rewrite (is_inverse_unique n (C s) (la_inv la_mx n (C s)) (Q s)); [ reflexivity | now apply (proj1 HO) | now apply HQ ].
  - unfold score. apply (@dv_eq _ _ (0 * (chi2 n (la_inv la_mx n (C 0)) data (mu 0) + snd (la_slogdet la_mx n (C 0))) + - (1/2) *
      ((- 2 * bilin n P mu' (fun i => el data i - el (mu 0) i) - sandwich n P C' (fun i => el data i - el (mu 0) i) (fun i => el data i - el (mu 0) i)) + trace_prod n P C'))); [ field | ].
    apply (@dv_mult (fun _ => - (1/2)) (fun s => chi2 n (la_inv la_mx n (C s)) data (mu s) + snd (la_slogdet la_mx n (C s)))); [ apply dv_const | ].
    now apply (@dv_plus (fun s => chi2 n (la_inv la_mx n (C s)) data (mu s)) (fun s => snd (la_slogdet la_mx n (C s)))).
Qed.
Lemma density_gap la n C Cd data mu mud method P : linalg_ok la -> linalg_shaped la -> curve2 n n C Cd -> curve1 n mu mud -> wf1 n data ->
  (forall s, symmetric n (C s)) -> pos_def n (C 0) -> method = "inverse"%string \/ method = "cholesky"%string -> is_inverse n (C 0) P ->
  exists v g, ggaussian_log_likelihood num_dual (linalg_dual la) data mud (G2 n n Cd) true method = Ok (v, g) /\
    forall Q, (forall s, pos_def n (C s) -> is_inverse n (C s) (Q s)) ->
    is_derive (fun s => log_density n (C s) (Q s) data (mu s)) 0 (g - trace_prod n P (map (map snd) Cd)).
Proof.
  intros HO HS HC HM Wd SY PD Hm HI.
  destruct (dense_score la n C Cd data mu mud true method P HO HS HC HM Wd SY PD Hm HI) as (v & _ & E2).
  exists v, (score n P (map (map snd) Cd) data (mu 0) (fun i => snd (nth i mud (0, 0))) true). split; [ exact E2 | ]. intros Q HQ.
  apply density_score; try assumption; [ apply HC | intros i j Hi Hj; now apply (curve2_moving n C Cd HC) | apply HM | intros i Hi; now apply (curve1_moving n mu mud HM) ].
Qed.
