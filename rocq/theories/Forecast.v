(** * Surveys side by side: adding probes, changing the noise *)
From Coq Require Import Permutation.
From Coquelicot Require Import Coquelicot.
From Verif Require Import Np NpLemmas Core Integrate IntegrateSpec SimpsProofs Interp Background BgSpec BgTables BgPositive BgGrowth BgProofs BgFinal BgFinal2
  BgFinal4 Transfer Power PowerSpec PowerProofs TransferProofs PowerFinal Redshift RedshiftSpec RedshiftProofs Bias Probes ProbesSpec ProbesProofs ProbesFinal Sparse SparseSpec SparseProofs AngularCl CovSpec CovProofs Gram CovPsd CovFinal
  AclSpec AclProofs AclFinal.
Opaque chi_table growth_table_ODE growth_table_gamma logspace.

(** noise power of the i-th tracer of all probes together *)
Definition tracer_noise (probes : list probe) (i : nat) : R :=
  match tracer probes i with Some (p, k) => match noise p with Ok v => el v k | Err _ => 0 end | None => 0 end.

Lemma el_repeat (q : R) n l : (l < n)%nat -> nth l (repeat q n) 0 = q.
Proof. intros Hl. eapply (repeat_spec n). apply nth_In. now rewrite repeat_length. Qed.

Lemma noise_row probes n noi s i j l : noise_total probes -> noise_cl n probes = Ok noi ->
  nth_error (get_cl_ordering probes) s = Some (i, j) -> (l < n)%nat -> el2 noi s l = if Nat.eqb i j then tracer_noise probes i else 0.
Proof.
  intros HT E Hs Hl. destruct (noise_cl_spec probes n HT) as (noi' & F2 & _ & VN). rewrite E in F2. injection F2 as <-.
  destruct (VN s i j Hs) as (p & k & v & Ep & Ev & Er). unfold el2. rewrite (nth_of_nth_error _ _ _ [] Er), el_repeat by exact Hl.
  unfold tracer_noise. now rewrite Ep, Ev.
Qed.

(** signal plus noise, pair by pair, when only the signal rows and noise of the same ordering are given *)
Lemma observed_split probes n sig noi S S0 : noise_total probes -> noise_cl n probes = Ok noi ->
  wf2 (length (get_cl_ordering probes)) n sig ->
  spectra_of (get_cl_ordering probes) (madd sig noi) S -> spectra_of (get_cl_ordering probes) sig S0 ->
  forall i j l, (i < n_bins probes)%nat -> (j < n_bins probes)%nat -> (l < n)%nat ->
  S i j l = S0 i j l + if Nat.eqb i j then tracer_noise probes i else 0.
Proof.
  intros HT E W1 HS HS0 i j l Hi Hj Hl. pose proof (noise_rows_wf probes n noi HT E) as W2.
  assert (VS : forall a b, (a <= b)%nat -> (b < n_bins probes)%nat ->
     S a b l = S0 a b l + (if Nat.eqb a b then tracer_noise probes a else 0) /\ S b a l = S0 b a l + (if Nat.eqb b a then tracer_noise probes b else 0)).
  { intros a b Hab Hb. destruct (In_nth_error _ _ (proj2 (proj1 (ordering_spec probes) a b) (conj Hab Hb))) as [s Hs].
    destruct (HS s a b l Hs) as [-> ->]. destruct (HS0 s a b l Hs) as [-> ->].
    assert (Ls : (s < length (get_cl_ordering probes))%nat) by (apply nth_error_Some; congruence).
    rewrite (el2_madd _ _ sig noi s l W1 W2 Ls), (noise_row probes n noi s a b l HT E Hs Hl).
    split; [ reflexivity | ]. rewrite (Nat.eqb_sym b a). destruct (Nat.eqb_spec a b); [ now subst | reflexivity ]. }
  destruct (Nat.le_ge_cases i j) as [H | H]; [ now destruct (VS i j H Hj) | now destruct (VS j i H Hi) ].
Qed.

(** ** Adding probes *)
Lemma tracer_app ps qs i : (i < n_bins ps)%nat -> tracer (ps ++ qs) i = tracer ps i.
Proof.
  unfold n_bins. revert i. induction ps as [ | p ps IH]; intros i Hi; simpl in *; [ lia | ]. rewrite app_length in Hi.
  destruct (Nat.ltb_spec i (length (bins_of p))); [ reflexivity | ]. apply IH. lia.
Qed.
Lemma n_bins_app ps qs : n_bins (ps ++ qs) = (n_bins ps + n_bins qs)%nat.
Proof. unfold n_bins. now rewrite map_app, concat_app, app_length. Qed.
Lemma survey_zmax_app ps qs : ps <> [] -> (forall q, In q qs -> zmax_of (bins_of q) <= survey_zmax ps) -> survey_zmax (ps ++ qs) = survey_zmax ps.
Proof.
  intros Hne HQ. unfold survey_zmax in *. set (f := fun p => zmax_of (bins_of p)) in *.
  destruct (list_max_spec (map f ps)) as [A B]; [ destruct ps; [ congruence | discriminate ] | ].
  destruct (list_max_spec (map f (ps ++ qs))) as [C D]; [ destruct ps; [ congruence | discriminate ] | ].
  apply Rle_antisym.
  - rewrite map_app in C. apply in_app_or in C. rewrite <- map_app in C. destruct C as [C | C]; [ now apply B | ].
    apply in_map_iff in C. destruct C as (q & Eq & Hq). rewrite <- Eq. now apply HQ.
  - apply D. rewrite map_app. apply in_or_app. now left.
Qed.
Lemma probes_ok_app ps qs : probes_ok ps -> (forall q, In q qs -> probe_ok q) -> probes_ok (ps ++ qs).
Proof.
  intros [H1 H2] HQ. split; [ destruct ps; [ congruence | discriminate ] | ]. intros p Hp. apply in_app_or in Hp. destruct Hp; auto.
Qed.
Lemma spectrum_app c T nl ps qs i j ell : ps <> [] -> (forall q, In q qs -> zmax_of (bins_of q) <= survey_zmax ps) -> (i < n_bins ps)%nat -> (j < n_bins ps)%nat ->
  spectrum c T nl (ps ++ qs) i j ell = spectrum c T nl ps i j ell.
Proof.
  intros Hne HQ Hi Hj. unfold spectrum, survey_kernel. rewrite !tracer_app, survey_zmax_app by assumption. reflexivity.
Qed.

(** spectra and covariances of the tracers already there are not affected by further probes *)
Lemma added_probes c ells ps qs T nl f_sky mean s3 mean' s3' N N' :
  reachable c -> _gamma_growth c = false -> probes_ok ps -> noise_total ps ->
  (forall q, In q qs -> probe_ok q) -> noise_total qs -> (forall q, In q qs -> zmax_of (bins_of q) <= survey_zmax ps) ->
  (2 <= length ells)%nat -> (forall l, (l < length ells)%nat -> knox_norm ells f_sky l <> 0) ->
  gaussian_cl_covariance_and_mean c (Array1 ells) ps T nl f_sky true = Ok (mean, A3 N N (length ells) s3) ->
  gaussian_cl_covariance_and_mean c (Array1 ells) (ps ++ qs) T nl f_sky true = Ok (mean', A3 N' N' (length ells) s3') ->
  forall s t i j m k s' t' l, nth_error (get_cl_ordering ps) s = Some (i, j) -> nth_error (get_cl_ordering ps) t = Some (m, k) ->
    nth_error (get_cl_ordering (ps ++ qs)) s' = Some (i, j) -> nth_error (get_cl_ordering (ps ++ qs)) t' = Some (m, k) -> (l < length ells)%nat ->
    el mean' (s' * length ells + l) = el mean (s * length ells + l) /\ el3 s3' s' t' l = el3 s3 s t l.
Proof.
  intros Hr Hg Hok HT HokQ HTQ HZ HL HK E E' s t i j m k s' t' l Hs Ht Hs' Ht' Hl.
  pose proof (probes_ok_app ps qs Hok HokQ) as Hok'.
  assert (HT' : noise_total (ps ++ qs)) by (intros p Hp; apply in_app_or in Hp; destruct Hp; [ now apply HT | now apply HTQ ]).
  destruct (mean_layout c ells ps T nl f_sky true Hr Hg Hok HT HL) as (sig & noi & mn & cov & E1 & E2 & CI & E3 & E4 & E5 & E6).
  destruct (mean_layout c ells (ps ++ qs) T nl f_sky true Hr Hg Hok' HT' HL) as (sig' & noi' & mn' & cov' & F1 & F2 & CI' & F3 & F4 & F5 & F6).
  rewrite E in E3. injection E3 as <- <-. rewrite E' in F3. injection F3 as <- <-.
  destruct (spectra_exist ps (madd sig noi)) as [S HS]. destruct (spectra_exist ps sig) as [S0 HS0].
  destruct (spectra_exist (ps ++ qs) (madd sig' noi')) as [S' HS']. destruct (spectra_exist (ps ++ qs) sig') as [S0' HS0'].
  destruct (covariance_knox ells ps sig noi f_sky S CI HS HK) as (x3 & x2 & G1 & _ & _ & _ & V). rewrite E4 in G1. injection G1 as _ _ Ex. rewrite <- Ex in *. clear Ex x3.
  destruct (covariance_knox ells (ps ++ qs) sig' noi' f_sky S' CI' HS' HK) as (x3' & x2' & G1' & _ & _ & _ & V'). rewrite F4 in G1'. injection G1' as _ _ Ex. rewrite <- Ex in *. clear Ex x3'.
  assert (B : forall a b u, nth_error (get_cl_ordering ps) u = Some (a, b) -> (a < n_bins ps)%nat /\ (b < n_bins ps)%nat).
  { intros a b u Hu. apply (ordering_bound ps). eapply nth_error_In. exact Hu. }
  destruct (B _ _ _ Hs) as [Bi Bj]. destruct (B _ _ _ Ht) as [Bm Bk].
  assert (A : forall a, (a < n_bins ps)%nat -> (a < n_bins (ps ++ qs))%nat) by (intros; rewrite n_bins_app; lia).
  assert (EQ0 : forall a b, (a < n_bins ps)%nat -> (b < n_bins ps)%nat -> S0' a b l = S0 a b l).
  { intros a b Ha Hb. rewrite (rows_spectra c ells ps T nl sig S0 Hr Hg Hok E1 HS0 a b l Ha Hb Hl).
    rewrite (rows_spectra c ells (ps ++ qs) T nl sig' S0' Hr Hg Hok' F1 HS0' a b l) by auto. apply spectrum_app; auto. apply Hok. }
  assert (EQ : forall a b, (a < n_bins ps)%nat -> (b < n_bins ps)%nat -> S' a b l = S a b l).
  { intros a b Ha Hb. destruct CI as (_ & W & _). destruct CI' as (_ & W' & _).
    rewrite (observed_split ps _ sig noi S S0 HT E2 W HS HS0 a b l Ha Hb Hl), (observed_split (ps ++ qs) _ sig' noi' S' S0' HT' F2 W' HS' HS0' a b l) by auto.
    rewrite EQ0 by assumption. f_equal. unfold tracer_noise. now rewrite tracer_app. }
  split.
  - rewrite F6, E6 by (assumption || (apply nth_error_Some; congruence)).
    destruct (HS0 s i j l Hs) as [<- _]. destruct (HS0' s' i j l Hs') as [<- _]. now apply EQ0.
  - rewrite (proj1 (V s t i j m k l l Hs Ht Hl Hl)), (proj1 (V' s' t' i j m k l l Hs' Ht' Hl Hl)). unfold knox. now rewrite !EQ by assumption.
Qed.

(** every old pair is a pair of the larger survey *)
Lemma pair_kept ps qs s i j : nth_error (get_cl_ordering ps) s = Some (i, j) -> exists s', nth_error (get_cl_ordering (ps ++ qs)) s' = Some (i, j).
Proof.
  intros Hs. apply nth_error_In in Hs. apply (proj1 (ordering_spec ps)) in Hs. apply In_nth_error. apply (proj1 (ordering_spec (ps ++ qs))). rewrite n_bins_app. lia.
Qed.

(** ** More noise *)
Definition form4b (n : nat) (A B : nat -> nat -> R) (Y : nat -> nat -> R) : R :=
  Rsum n (fun i => Rsum n (fun j => Rsum n (fun m => Rsum n (fun k => Y i j * Y m k * (A i m * B j k))))).
Lemma form4b_gram n A B Y v :
  (forall i j, (i < n)%nat -> (j < n)%nat -> B i j = Rsum n (fun k => v k i * v k j)) ->
  form4b n A B Y = Rsum n (fun q => quadf n A (fun i => Rsum n (fun j => Y i j * v q j))).
Proof.
  intros Hv. unfold form4b, quadf.
  transitivity (Rsum n (fun i => Rsum n (fun m => Rsum n (fun q =>
    Rsum n (fun j => Y i j * v q j) * A i m * Rsum n (fun k => Y m k * v q k))))).
  2:{ transitivity (Rsum n (fun i => Rsum n (fun q => Rsum n (fun m =>
        Rsum n (fun j => Y i j * v q j) * A i m * Rsum n (fun k => Y m k * v q k))))).
      - apply Rsum_ext; intros; apply Rsum_swap.
      - apply Rsum_swap. }
  apply Rsum_ext; intros i Hi.
  rewrite Rsum_swap. apply Rsum_ext; intros m Hm.
  transitivity (Rsum n (fun j => Rsum n (fun k => Rsum n (fun q => Y i j * Y m k * A i m * (v q j * v q k))))).
  - apply Rsum_ext; intros j Hj; apply Rsum_ext; intros k Hk.
    rewrite Rsum_scal, <- Hv by assumption. ring.
  - transitivity (Rsum n (fun j => Rsum n (fun q => Rsum n (fun k => Y i j * Y m k * A i m * (v q j * v q k))))).
    + apply Rsum_ext; intros; apply Rsum_swap.
    + rewrite Rsum_swap. apply Rsum_ext; intros q Hq.
      replace (Rsum n (fun j => Y i j * v q j) * A i m * Rsum n (fun k => Y m k * v q k))
        with (A i m * (Rsum n (fun j => Y i j * v q j) * Rsum n (fun k => Y m k * v q k))) by ring.
      rewrite Rsum_prod, <- Rsum_scal. apply Rsum_ext; intros j Hj.
      rewrite <- Rsum_scal. apply Rsum_ext; intros k Hk. ring.
Qed.
Lemma form4b_nonneg n A B Y : psdf n A -> symf n B -> psdf n B -> 0 <= form4b n A B Y.
Proof.
  intros HA Hs Hp. destruct (gram n B Hs Hp) as [v Hv]. rewrite (form4b_gram n A B Y v Hv). apply Rsum_nonneg; intros q _. apply HA.
Qed.
Lemma form4_add n A B Y : form4 n (fun i j => A i j + B i j) Y = form4 n A Y + form4b n A B Y + form4b n B A Y + form4 n B Y.
Proof.
  unfold form4, form4b. rewrite <- !Rsum_plus. apply Rsum_ext; intros i _. rewrite <- !Rsum_plus. apply Rsum_ext; intros j _.
  rewrite <- !Rsum_plus. apply Rsum_ext; intros m _. rewrite <- !Rsum_plus. apply Rsum_ext; intros k _. ring.
Qed.
Lemma form4_ext n A B Y : (forall i j, (i < n)%nat -> (j < n)%nat -> A i j = B i j) -> form4 n A Y = form4 n B Y.
Proof.
  intros H. unfold form4. apply Rsum_ext; intros i Hi. apply Rsum_ext; intros j Hj. apply Rsum_ext; intros m Hm. apply Rsum_ext; intros k Hk. now rewrite !H by assumption.
Qed.
Lemma form4_order n A B Y : symf n A -> psdf n A -> symf n B -> psdf n B -> form4 n A Y <= form4 n (fun i j => A i j + B i j) Y.
Proof.
  intros. rewrite form4_add. pose proof (form4b_nonneg n A B Y). pose proof (form4b_nonneg n B A Y). pose proof (form4_nonneg n B Y).
  assert (0 <= form4b n A B Y) by auto. assert (0 <= form4b n B A Y) by auto. assert (0 <= form4 n B Y) by auto. lra.
Qed.
Lemma diag_psd n (d : nat -> R) : (forall i, (i < n)%nat -> 0 <= d i) -> psdf n (fun i j => if Nat.eqb i j then d i else 0).
Proof.
  intros Hd x. rewrite (quadf_ext n _ x (fun i j => 0 + if Nat.eqb i j then d i else 0) x) by (intros; ring || reflexivity).
  rewrite (quadf_plus_diag n (fun _ _ => 0)). unfold quadf. rewrite (Rsum_0_ext n); [ | intros; apply Rsum_0_ext; intros; ring ].
  rewrite Rplus_0_l. apply Rsum_nonneg. intros i Hi. apply Rmult_le_pos; [ now apply Hd | nra ].
Qed.
Lemma diag_sym n (d : nat -> R) : symf n (fun i j => if Nat.eqb i j then d i else 0).
Proof. intros i j _ _. rewrite (Nat.eqb_sym j i). destruct (Nat.eqb_spec i j); [ now subst | reflexivity ]. Qed.

Lemma more_noise ell ps qs sig noi noi' f_sky S :
  n_bins qs = n_bins ps -> noise_total ps -> noise_total qs -> (forall i, (i < n_bins ps)%nat -> 0 <= tracer_noise ps i <= tracer_noise qs i) ->
  (2 <= length ell)%nat -> wf2 (length (get_cl_ordering ps)) (length ell) sig -> spectra_of (get_cl_ordering ps) sig S ->
  (forall l, (l < length ell)%nat -> psdf (n_bins ps) (fun i j => S i j l)) ->
  (forall l, (l < length ell)%nat -> 0 < knox_norm ell f_sky l) ->
  noise_cl (length ell) ps = Ok noi -> noise_cl (length ell) qs = Ok noi' ->
  exists d m m', gaussian_cl_covariance (Array1 ell) ps sig noi f_sky false = Ok (A2 d d m) /\
    gaussian_cl_covariance (Array1 ell) qs sig noi' f_sky false = Ok (A2 d d m') /\ forall x, quad d m x <= quad d m' x.
Proof.
  intros HB HT HT' HN HL W HS0 HP HK E E'.
  assert (EO : get_cl_ordering qs = get_cl_ordering ps) by (unfold get_cl_ordering; now rewrite !total_tracers_bins, HB).
  assert (W' : wf2 (length (get_cl_ordering qs)) (length ell) sig) by (now rewrite EO).
  assert (HS0' : spectra_of (get_cl_ordering qs) sig S) by (now rewrite EO).
  assert (CI : cov_input ell ps sig noi) by (split; [ exact HL | split; [ exact W | now apply noise_rows_wf ]]).
  assert (CI' : cov_input ell qs sig noi') by (split; [ exact HL | split; [ exact W' | now apply noise_rows_wf ]]).
  destruct (spectra_exist ps (madd sig noi)) as [A HA]. destruct (spectra_exist qs (madd sig noi')) as [A' HA'].
  destruct (covariance_main ell ps sig noi f_sky A CI HA) as (s3 & m2 & _ & Hw & H2 & -> & HE).
  destruct (covariance_main ell qs sig noi' f_sky A' CI' HA') as (s3' & m2' & _ & Hw' & H2' & -> & HE').
  rewrite EO in Hw', H2', HE'.
  exists (length ell * length (get_cl_ordering ps))%nat; do 2 eexists; split; [ exact H2 | split; [ exact H2' | ]].
  intros x. rewrite Nat.mul_comm.
  rewrite (quad_dense _ _ s3 _ x Hw), (quad_dense _ _ s3' _ x Hw') by (now apply dense_of_denotes).
  apply Rsum_le; intros l Hl.
  rewrite (el3_knox_slice ell ps sig noi f_sky A s3 l HE Hl CI (fun s => x (s * length ell + l)%nat)).
  rewrite <- EO in HE'. pose proof (el3_knox_slice ell qs sig noi' f_sky A' s3' l HE' Hl CI' (fun s => x (s * length ell + l)%nat)) as K. cbv zeta in K. rewrite EO, HB in K. rewrite K. clear K.
  apply Rmult_le_compat_l; [ left; apply Rinv_0_lt_compat; pose proof (HK l Hl); lra | ].
  set (Y := fun i j : nat => _ + _). set (n := n_bins ps) in *.
  pose (d1 := fun i j => if Nat.eqb i j then tracer_noise ps i else 0). pose (d2 := fun i j => if Nat.eqb i j then tracer_noise qs i - tracer_noise ps i else 0).
  rewrite (form4_ext n (fun i j => A i j l) (fun i j => S i j l + d1 i j)).
  2:{ intros i j Hi Hj. exact (observed_split ps _ sig noi A S HT E W HA HS0 i j l Hi Hj Hl). }
  rewrite (form4_ext n (fun i j => A' i j l) (fun i j => (S i j l + d1 i j) + d2 i j)).
  2:{ intros i j Hi Hj. rewrite (observed_split qs _ sig noi' A' S HT' E' W' HA' HS0' i j l) by (rewrite ?HB; assumption). unfold d1, d2. destruct (Nat.eqb i j); ring. }
  apply form4_order.
  - intros i j Hi Hj. rewrite (spectra_sym ps sig S i j l HS0) by assumption. f_equal. now apply (diag_sym n).
  - intros y. unfold d1. rewrite quadf_plus_diag. pose proof (HP l Hl y). assert (0 <= Rsum n (fun i => tracer_noise ps i * (y i * y i))); [ | lra ].
    apply Rsum_nonneg. intros i Hi. apply Rmult_le_pos; [ now apply HN | nra ].
  - apply (diag_sym n (fun i => tracer_noise qs i - tracer_noise ps i)).
  - apply (diag_psd n (fun i => tracer_noise qs i - tracer_noise ps i)). intros i Hi. pose proof (HN i Hi). lra.
Qed.
