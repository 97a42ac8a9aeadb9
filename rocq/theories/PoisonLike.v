(** * A bin that spoils every result computed from it: its spectra in a survey, and the likelihood of the survey *)
From Coq Require Import Reals Lra Lia List Permutation String.
From Verif Require Import Np NpLemmas Core Sparse Likelihood Interp Integrate Background Transfer Power Redshift Bias Probes ProbesProofs AngularCl CovProofs Ad AdPower AdProbes AdLike AdNuis AdNuisLike Poison.
Import ListNotations.
Local Open Scope R_scope.

(** as many biases and calibrations as bins *)
Definition gbias_fits {A} (n : nat) (b : gbias_arg A) : Prop := match b with GOneBias _ => True | GBiasList bs => length bs = n end.
Definition gprobe_fits {A} (p : gprobe A) : Prop :=
  match p with
  | GPWL q => match gwl_m q with GMScalar _ => True | GMList ms => length ms = length (gwl_bins q) end /\
              match gwl_ia q with None => True | Some b => gbias_fits (length (gwl_bins q)) b end
  | GPNC q => gbias_fits (length (gnc_bins q)) (gnc_bias q)
  end.
(** the bins of all probes, in the order of the spectra *)
Definition all_bins {A} (S : list (gprobe A)) : list (gnz A) := concat (map gbins_of S).

Section Poison.
Context {Nm : Type} {N : num Nm} {bad : Nm -> Prop} {PO : poison N bad}.
Local Notation gd := (gnz_default N).
Local Notation row_bad := (row_bad (bad := bad)).
Local Notation dead := (dead (N := N) (bad := bad)).

(** ** rows of kernels *)
(** one row of length n for each bin; bad for dead bins *)
Definition rows_of (n : nat) (ds : list (gnz Nm)) (rows : list (list Nm)) : Prop :=
  length rows = length ds /\ (forall row, In row rows -> length row = n) /\ forall k, (k < length ds)%nat -> dead (nth k ds gd) -> row_bad n (nth k rows []).
Lemma rows_map n ds rows (f : list Nm -> list Nm) : (forall r, length r = n -> length (f r) = n) -> (forall r, row_bad n r -> row_bad n (f r)) -> rows_of n ds rows -> rows_of n ds (map f rows).
Proof.
  intros F1 F2 (L & R & B). split; [ now rewrite map_length | split ].
  - intros row Hr. apply in_map_iff in Hr. destruct Hr as (r & <- & Hr). now apply F1, R.
  - intros k Hk HD. rewrite (nth_indep _ [] (f [])) by (rewrite map_length; lia). rewrite map_nth. now apply F2, B.
Qed.
Lemma bcast_same {X Y Z} (f : X -> Y -> Z) u v : length u = length v -> bcast f u v = Ok (map2 f u v).
Proof. intros E. unfold bcast. apply Nat.eqb_eq in E. now rewrite E. Qed.
Lemma nth_map2 {X Y Z} (f : X -> Y -> Z) dx dy dz u : forall v k, (k < length u)%nat -> (k < length v)%nat -> nth k (map2 f u v) dz = f (nth k u dx) (nth k v dy).
Proof. induction u as [ | x u IH]; intros [ | y v] [ | k] H1 H2; cbn [length map2 nth] in *; try lia; [ reflexivity | ]. apply IH; lia. Qed.
Lemma in_map2_both {X Y Z} (f : X -> Y -> Z) u : forall v z, In z (map2 f u v) -> exists x y, In x u /\ In y v /\ z = f x y.
Proof. induction u as [ | x u IH]; intros [ | y v] z H; try easy. destruct H as [<- | H]; [ exists x, y; repeat split; now left | ]. destruct (IH v z H) as (x' & y' & H1 & H2 & H3). exists x', y'. repeat split; try now right. exact H3. Qed.
Lemma rows_map2 {Y} n ds rows (f : list Nm -> Y -> list Nm) (ys : list Y) : (forall r y, In y ys -> length r = n -> length (f r y) = n) -> (forall r y, In y ys -> row_bad n r -> row_bad n (f r y)) -> length ys = length ds ->
  rows_of n ds rows -> rows_of n ds (map2 f rows ys).
Proof.
  intros F1 F2 LY (L & R & B). split; [ rewrite length_map2, L, LY; apply Nat.min_id | split ].
  - intros row Hr. destruct (in_map2_both _ _ _ _ Hr) as (r & y & H1 & H2 & ->). apply F1; [ exact H2 | now apply R ].
  - intros k Hk HD. destruct ys as [ | y0 ys']; [ cbn [length] in LY; lia | ]. rewrite (nth_map2 f [] y0 []) by lia. apply F2; [ apply nth_In; lia | now apply B ].
Qed.
Lemma bad_row_map {X} n (f : X -> Nm) l : length l = n -> (forall x, In x l -> bad (f x)) -> row_bad n (map f l).
Proof. intros L B. split; [ now rewrite map_length | ]. intros x Hx. apply in_map_iff in Hx. destruct Hx as (y & <- & Hy). now apply B. Qed.
Lemma len_vmul n (u v : list Nm) : length u = n -> length v = n -> length (gvmul N u v) = n.
Proof. intros L1 L2. unfold gvmul. rewrite length_map2, L1, L2. apply Nat.min_id. Qed.
Lemma len_vadd n (u v : list Nm) : length u = n -> length v = n -> length (gvadd N u v) = n.
Proof. intros L1 L2. unfold gvadd. rewrite length_map2, L1, L2. apply Nat.min_id. Qed.
Lemma len_vscale n k (u : list Nm) : length u = n -> length (gvscale N k u) = n.
Proof. intros L. unfold gvscale. now rewrite map_length. Qed.
Lemma clustering_rows_of c ds ba z rows : gbias_fits (length ds) ba -> hclustering_rows N c ds ba z = Ok rows -> rows_of (length z) ds rows.
Proof.
  intros HB. unfold hclustering_rows. destruct (existsb gis_delta ds); [ discriminate | ].
  assert (B0 : rows_of (length z) ds (map (fun d => map (hpz N d) z) ds)).
  { split; [ apply map_length | split ]; [ intros row Hr; apply in_map_iff in Hr; destruct Hr as (d & <- & _); apply map_length | ].
    intros k Hk HD. rewrite (nth_indep _ [] (map (hpz N gd) z)) by (rewrite map_length; lia). rewrite (map_nth (fun d => map (hpz N d) z)). apply bad_row_map; [ reflexivity | ]. intros q _. now apply dead_pz. }
  revert B0. generalize (map (fun d => map (hpz N d) z) ds) as dndz. intros dndz B0. destruct ds as [ | d0 ds']; [ discriminate | ].
  destruct (htimes_bias N c ba z dndz) as [m | e] eqn:EB; [ cbn [bind] | discriminate ]. intros E. apply ok_inj in E. rewrite <- E. clear E.
  apply rows_map; [ intros r L; apply len_vmul; [ exact L | apply map_length ] | intros r BR; apply vmul_bad; [ exact BR | apply map_length ] | ].
  unfold htimes_bias in EB. destruct ba as [b | bs].
  - apply ok_inj in EB. rewrite <- EB. apply rows_map; [ intros r L; apply len_vmul; [ exact L | apply map_length ] | intros r BR; apply vmul_bad; [ exact BR | apply map_length ] | exact B0 ].
  - destruct bs as [ | b0 bs]; [ discriminate | ]. cbn [gbias_fits] in HB. set (bv := map (fun b => map (hbias_at N b c) z) (b0 :: bs)) in EB. assert (LB : length bv = length (d0 :: ds')) by (unfold bv; now rewrite map_length).
    assert (RB : forall y, In y bv -> length y = length z) by (intros y Hy; apply in_map_iff in Hy; destruct Hy as (b & <- & _); apply map_length). clearbody bv.
    rewrite bcast_same in EB by (destruct B0 as (L & _); congruence). apply ok_inj in EB. rewrite <- EB.
    apply rows_map2; [ intros r y Hy L; apply len_vmul; [ exact L | now apply RB ] | intros r y Hy BR; apply vmul_bad; [ exact BR | now apply RB ] | exact LB | exact B0 ].
Qed.
Lemma density_rows_of c ds ba z ell rows : gbias_fits (length ds) ba -> hdensity_kernel N c ds ba z ell = Ok rows -> rows_of (length z) ds rows.
Proof.
  intros HB. unfold hdensity_kernel. destruct (gcosmo_jit c) as [c' | e]; [ cbn [bind] | discriminate ]. destruct (hclustering_rows N c' ds ba z) as [m | e] eqn:EM; [ cbn [bind] | discriminate ]. intros E. apply ok_inj in E. rewrite <- E.
  apply rows_map; [ intros r; apply len_vscale | intros r; apply vscale_bad | now apply (clustering_rows_of c' ds ba z) ].
Qed.
Lemma nla_rows_of c ds ba z ell rows : gbias_fits (length ds) ba -> hnla_kernel N c ds ba z ell = Ok rows -> rows_of (length z) ds rows.
Proof.
  intros HB. unfold hnla_kernel. destruct (gcosmo_jit c) as [c' | e]; [ cbn [bind] | discriminate ]. destruct (hclustering_rows N c' ds ba z) as [m | e] eqn:EM; [ cbn [bind] | discriminate ]. intros E. apply ok_inj in E. rewrite <- E.
  apply rows_map; [ intros r L; apply len_vscale, len_vmul; [ exact L | apply map_length ] | intros r B; apply vscale_bad, vmul_bad; [ exact B | apply map_length ] | now apply (clustering_rows_of c' ds ba z) ].
Qed.
(** ** lensing *)
Lemma extended_bad c zmax d z : dead d -> bad (hwl_extended N c zmax d z).
Proof.
  intros HD. unfold hwl_extended. assert (B : bad (hwl_integrand N c d z z)) by (apply po_div_l, po_mul_l, dead_pz, HD).
  assert (EV : Nat.eqb (S (S 254) mod 2) 1 = false) by reflexivity. destruct (simps_first (hwl_integrand N c d z) z zmax 254 EV B) as (v & E & BV).
  change (gsimps N (hwl_integrand N c d z) z zmax 256 = Ok v) in E. rewrite E. now apply po_mul_l, po_mul_l.
Qed.
Lemma lensing_rows_of c ds z ell rows : hweak_lensing_kernel N c ds z ell = Ok rows -> rows_of (length z) ds rows.
Proof.
  unfold hweak_lensing_kernel. destruct (gcosmo_jit c) as [c' | e]; [ cbn [bind] | discriminate ]. destruct (pymax (map gnz_zmax ds)) as [zm | e]; [ cbn [bind] | discriminate ]. cbv zeta. intros E. apply ok_inj in E. rewrite <- E. clear E.
  apply rows_map; [ intros r; apply len_vscale | intros r; apply vscale_bad | ].
  set (ext := idx_where (fun d => negb (gis_delta d)) ds). set (del := idx_where gis_delta ds).
  assert (HP : Permutation (ext ++ del) (seq 0 (length ds))) by (unfold ext, del; rewrite !(idx_where_filter _ gd); apply (filter_split (fun i => gis_delta (nth i ds gd)))).
  assert (LP : length (ext ++ del) = length ds) by (rewrite (Permutation_length HP); apply seq_length).
  set (fe := fun i => map (hwl_extended N c' zm (nth_gnz N ds i)) z). set (fd := fun i => map (hwl_delta N c' (nth_gnz N ds i)) z).
  assert (TE : forall i, In i ext -> gis_delta (nth i ds gd) = false) by (intros i Hi; unfold ext in Hi; rewrite (idx_where_filter _ gd) in Hi; apply filter_In in Hi; destruct Hi as [_ Hi]; now apply Bool.negb_true_iff).
  assert (TD : forall i, In i del -> gis_delta (nth i ds gd) = true) by (intros i Hi; unfold del in Hi; rewrite (idx_where_filter _ gd) in Hi; apply filter_In in Hi; apply Hi).
  assert (ER : map fe ext ++ map fd del = map (fun i => if gis_delta (nth i ds gd) then fd i else fe i) (ext ++ del)).
  { rewrite map_app. f_equal; apply map_ext_in; intros i Hi; [ now rewrite (TE i Hi) | now rewrite (TD i Hi) ]. }
  rewrite ER. set (F := fun i => if gis_delta (nth i ds gd) then fd i else fe i).
  assert (NV : forall k, (k < length ds)%nat -> nth (nth k (argsort (ext ++ del)) 0%nat) (map F (ext ++ del)) [] = F k).
  { intros k Hk. destruct (argsort_inverse (ext ++ del) k) as [A1 A2]; [ now rewrite LP | lia | ]. rewrite (nth_indep _ [] (F 0%nat)) by (rewrite map_length; exact A1). now rewrite map_nth, A2. }
  assert (LF : forall i, length (F i) = length z) by (intros i; unfold F, fd, fe; destruct (gis_delta (nth i ds gd)); apply map_length).
  assert (NR : forall k, (k < length ds)%nat -> nth k (map (fun i => nth i (map F (ext ++ del)) []) (argsort (ext ++ del))) [] = F k).
  { intros k Hk. rewrite (nth_indep _ [] (nth 0%nat (map F (ext ++ del)) [])) by (rewrite map_length, length_argsort; lia). rewrite (map_nth (fun i => nth i (map F (ext ++ del)) [])). now apply NV. }
  assert (LL : length (map (fun i => nth i (map F (ext ++ del)) []) (argsort (ext ++ del))) = length ds) by now rewrite map_length, length_argsort.
  split; [ exact LL | split ].
  - intros row Hr. destruct (In_nth _ _ [] Hr) as (k & Hk & <-). rewrite LL in Hk. rewrite NR by exact Hk. apply LF.
  - intros k Hk HD. rewrite NR by exact Hk. unfold F. destruct HD as [HD1 HD2]. rewrite HD1. unfold fe. apply bad_row_map; [ reflexivity | ]. intros q _. apply extended_bad. now split.
Qed.
Lemma kernel_rows_of p c z ell rows : gprobe_fits p -> hkernel N p c z ell = Ok rows -> rows_of (length z) (gbins_of p) rows.
Proof.
  destruct p as [q | q]; cbn [gprobe_fits hkernel gbins_of]; [ | apply density_rows_of ]. intros [HM HI]. unfold hwl_kernel.
  destruct (hweak_lensing_kernel N c (gwl_bins q) z ell) as [k | e] eqn:EK; [ cbn [bind] | discriminate ]. apply lensing_rows_of in EK.
  assert (MM : forall k, rows_of (length z) (gwl_bins q) k -> happly_m N (gwl_m q) k = Ok rows -> rows_of (length z) (gwl_bins q) rows).
  { clear EK k HI. intros k RK. unfold happly_m. destruct (gwl_m q) as [m | ms].
    - intros E. apply ok_inj in E. rewrite <- E. apply rows_map; [ intros r; apply len_vscale | intros r; apply vscale_bad | exact RK ].
    - destruct ms as [ | m0 ms]; [ discriminate | ]. rewrite bcast_same by (destruct RK as (L & _); congruence). intros E. apply ok_inj in E. rewrite <- E.
      apply rows_map2; [ intros r y _; apply len_vscale | intros r y _; apply vscale_bad | exact HM | exact RK ]. }
  destruct (gwl_ia q) as [b | ]; [ | exact (MM k EK) ]. destruct (hnla_kernel N c (gwl_bins q) b z ell) as [k2 | e] eqn:E2; [ cbn [bind] | discriminate ]. apply nla_rows_of in E2; [ | exact HI ].
  assert (LE : length k = length k2) by (destruct EK as (L & _), E2 as (L2 & _); congruence). rewrite (bcast_same _ _ _ LE). cbn [bind]. apply MM.
  destruct E2 as (L2 & R2 & _). apply rows_map2; [ intros r y Hy L; apply len_vadd; [ exact L | now apply R2 ] | intros r y Hy B; apply vadd_bad_l; [ exact B | now apply R2 ] | congruence | exact EK ].
Qed.
Lemma rows_app n d1 d2 r1 r2 : rows_of n d1 r1 -> rows_of n d2 r2 -> rows_of n (d1 ++ d2) (r1 ++ r2).
Proof.
  intros (L1 & R1 & B1) (L2 & R2 & B2). split; [ rewrite !app_length; lia | split ].
  - intros row Hr. apply in_app_iff in Hr. destruct Hr; auto.
  - intros k Hk HD. rewrite app_length in Hk. destruct (Nat.lt_ge_cases k (length d1)) as [H | H].
    + rewrite app_nth1 in HD |- * by lia. now apply B1.
    + rewrite app_nth2 in HD |- * by lia. rewrite L1. apply B2; [ lia | exact HD ].
Qed.
Lemma survey_rows_of S c z ell ks : (forall p, In p S -> gprobe_fits p) -> mapM (fun p => hkernel N p c z ell) S = Ok ks -> rows_of (length z) (all_bins S) (concat ks).
Proof.
  revert ks. induction S as [ | p S IH]; intros ks HF; cbn [mapM]; [ intros E; apply ok_inj in E; rewrite <- E; split; [ reflexivity | split; [ easy | cbn; intros; lia ]] | ].
  destruct (hkernel N p c z ell) as [r | e] eqn:E1; [ cbn [bind] | discriminate ]. destruct (mapM (fun p => hkernel N p c z ell) S) as [m | e]; [ cbn [bind] | discriminate ]. intros E. apply ok_inj in E. rewrite <- E.
  unfold all_bins. cbn [map concat]. apply rows_app; [ apply (kernel_rows_of p c z ell); [ apply HF; now left | exact E1 ] | ]. apply IH; [ intros q Hq; apply HF; now right | reflexivity ].
Qed.
(** ** spectra *)
Lemma n_bins (S : list (gprobe Nm)) : list_sum (map (fun p => length (gbins_of p)) S) = length (all_bins S).
Proof. unfold all_bins. induction S as [ | p S IH]; cbn [map concat list_sum fold_right]; [ reflexivity | ]. rewrite app_length, <- IH. reflexivity. Qed.
(** rows of length n whose entry q is bad *)
Definition spot (n q : nat) (row : list Nm) : Prop := length row = n /\ bad (nth q row (cst N 0)).
Lemma spot_scale n q k u : (q < n)%nat -> spot n q u -> spot n q (gvscale N k u).
Proof. intros Hq [L B]. split; [ now apply len_vscale | ]. unfold gvscale. rewrite (nth_indep _ _ (nmul N k (cst N 0))) by (rewrite map_length; lia). rewrite map_nth. now apply po_mul_r. Qed.
Lemma spot_add n q u w : (q < n)%nat -> spot n q u -> length w = n -> spot n q (gvadd N u w).
Proof. intros Hq [L B] LW. split; [ now apply len_vadd | ]. unfold gvadd. rewrite (nth_map2 _ (cst N 0) (cst N 0)) by lia. now apply po_add_l. Qed.
Lemma integrand_spot S c P ell a m q i j : (forall p, In p S -> gprobe_fits p) -> nth_error (hcl_ordering S) q = Some (i, j) -> dead (nth i (all_bins S) gd) \/ dead (nth j (all_bins S) gd) ->
  hcl_integrand N c S P ell a = Ok m -> length m = length a /\ forall row, In row m -> spot (length (hcl_ordering S)) q row.
Proof.
  intros HF HQ HD. unfold hcl_integrand. cbv zeta. destruct (mapM (fun p => hkernel N p c (map a2z a) ell) S) as [ks | e] eqn:EK; [ cbn [bind] | discriminate ]. intros E. apply ok_inj in E. rewrite <- E. clear E.
  apply survey_rows_of in EK; [ | exact HF ]. rewrite map_length in EK. destruct EK as (LK & RK & BK).
  assert (HIJ : (i < length (all_bins S) /\ j < length (all_bins S))%nat).
  { apply nth_error_In in HQ. unfold hcl_ordering in HQ. rewrite n_bins in HQ. apply In_cl_ordering in HQ. lia. }
  assert (LI : length (nth i (concat ks) []) = length a) by (apply RK, nth_In; lia). assert (LJ : length (nth j (concat ks) []) = length a) by (apply RK, nth_In; lia).
  split; [ apply length_tab | ]. intros row Hr. unfold tab in Hr. apply in_map_iff in Hr. destruct Hr as (u & <- & Hu). apply in_seq in Hu. split; [ now rewrite !map_length | ].
  set (pk := map2 (fun kk aa => P c kk (cst N aa)) (map (fun x => ndiv N (cst N (ell + 0.5)) (gclip_lo N x 1.0)) (map (fun q0 => gchi N c (cst N q0)) a)) a).
  assert (LPK : length pk = length a) by (unfold pk; rewrite length_map2, !map_length; apply Nat.min_id). clearbody pk.
  assert (BC : row_bad (length a) (gvmul N (nth i (concat ks) []) (nth j (concat ks) []))).
  { destruct HD as [HD | HD]; [ apply vmul_bad | apply vmul_bad_r ]; try assumption; apply BK; tauto. }
  match goal with |- bad (nth q (map ?f ?l) _) => rewrite (nth_indep _ _ (f [])) by (rewrite !map_length; apply nth_error_Some; rewrite HQ; discriminate); rewrite (map_nth f) end.
  rewrite map_map. erewrite (nth_error_nth _ q) by (rewrite nth_error_map, HQ; cbn [option_map fst snd]; reflexivity). apply (row_bad_nth (length a)); [ | lia ]. apply vdiv_bad; [ | now rewrite !map_length ]. apply vmul_bad; [ | now rewrite map_length ]. apply vmul_bad_r; [ exact BC | exact LPK ].
Qed.
Lemma mapM_len {X Y} (f : X -> res Y) l : forall m, mapM f l = Ok m -> length m = length l.
Proof.
  induction l as [ | x l IH]; intros m; cbn [mapM]; [ intros E; apply ok_inj in E; now rewrite <- E | ]. destruct (f x) as [y | e]; [ cbn [bind] | discriminate ]. destruct (mapM f l) as [m' | e]; [ cbn [bind] | discriminate ]. intros E. apply ok_inj in E. rewrite <- E. cbn [length]. now rewrite IH.
Qed.
Lemma angular_spot S c P ells rows q i j : (forall p, In p S -> gprobe_fits p) -> nth_error (hcl_ordering S) q = Some (i, j) -> dead (nth i (all_bins S) gd) \/ dead (nth j (all_bins S) gd) ->
  hangular_cl N c (Array1 ells) S P = Ok rows -> length (nth q rows []) = length ells /\ In (nth q rows []) rows /\ forall x, In x (nth q rows []) -> bad x.
Proof.
  intros HF HQ HD. unfold hangular_cl. destruct (mapM (fun p => pymax (map gnz_zmax (gbins_of p))) S) as [zs | e]; [ cbn [bind] | discriminate ]. destruct (pymax zs) as [zmax | e]; [ cbn [bind] | discriminate ].
  set (nc := length (hcl_ordering S)). assert (Hq : (q < nc)%nat) by (apply nth_error_Some; rewrite HQ; discriminate). destruct (mapM (hcl_one N c S P zmax) ells) as [cols | e] eqn:EC; [ cbn [bind] | discriminate ]. intros E. apply ok_inj in E. rewrite <- E. clear E.
  assert (LC : length cols = length ells) by exact (mapM_len _ _ _ EC).
  unfold stack1. assert (EN : nth q (tab nc (fun i0 => map (fun l => nth i0 l (cst N 0)) cols)) [] = map (fun l => nth q l (cst N 0)) cols) by (rewrite nth_tab by exact Hq; reflexivity).
  rewrite EN. split; [ now rewrite map_length | split ]; [ rewrite <- EN; apply nth_In; now rewrite length_tab | ]. intros x Hx. apply in_map_iff in Hx. destruct Hx as (col & <- & Hcol).
  destruct (mapM_in _ _ _ EC col Hcol) as (ell & _ & Eone). unfold hcl_one in Eone. fold nc in Eone.
  destruct (gsimps_rows N nc (hcl_integrand N c S P ell) (z2a zmax) 1.0 512) as [v | e] eqn:EV; [ cbn [bind] in Eone | discriminate ]. apply ok_inj in Eone. rewrite <- Eone. clear Eone.
  assert (BV : spot nc q v).
  { refine (simps_rows_any (spot nc q) nc _ _ _ 510 v _ _ _ EV); [ intros k u; now apply spot_scale | intros u w; now apply spot_add | ]. intros m Em. destruct (integrand_spot S c P ell _ m q i j HF HQ HD Em) as [L B]. split; [ rewrite L; unfold linspace; apply length_tab | ].
    intros row Hr. split; [ apply (B row Hr) | now apply B ]. }
  destruct BV as [L B]. rewrite (nth_indep _ _ (ndiv N (cst N 0) (cst N (const_c ^ 2)))) by (rewrite map_length; lia). rewrite (map_nth (fun x => ndiv N x (cst N (const_c ^ 2)))). now apply po_div_l.
Qed.
(** ** the likelihood *)
(** the linear algebra returns arrays of the right shape *)
Definition ga_shaped (ga : glinalg Nm) : Prop := (forall n M, length (ga_inv ga n M) = n) /\ forall n M r, length (ga_cho_solve ga n M r) = n.
Lemma dot_bad u v k : (k < length u)%nat -> (k < length v)%nat -> bad (nth k u (cst N 0)) -> bad (gvdot N u v).
Proof.
  intros H1 H2 HB. apply bad_sum. exists (nth k (gvmul N u v) (cst N 0)). unfold gvmul. split; [ apply nth_In; rewrite length_map2; lia | ]. rewrite (nth_map2 _ (cst N 0) (cst N 0)) by lia. now apply po_mul_l.
Qed.
Lemma len_sum0 n rows : (forall r, In r rows -> length r = n) -> length (gsum0 N n rows) = n.
Proof. intros H. unfold gsum0. induction rows as [ | r rows IH]; cbn [fold_right]; [ apply repeat_length | ]. apply len_vadd; [ apply H; now left | apply IH; intros q Hq; apply H; now right ]. Qed.
Lemma likelihood_bad ga data mu C il method x : ga_shaped ga -> length data = length mu -> (exists y, In y mu /\ bad y) -> ggaussian_log_likelihood N ga data mu C il method = Ok x -> bad x.
Proof.
  intros [SI SC] LD (y & Hy & HB). unfold ggaussian_log_likelihood. set (r := gvsub N mu (map (cst N) data)).
  assert (LR : length r = length mu) by (unfold r, gvsub; rewrite length_map2, map_length, LD; apply Nat.min_id).
  assert (BR : exists k, (k < length r)%nat /\ bad (nth k r (cst N 0))).
  { destruct (In_nth _ _ (cst N 0) Hy) as (k & Hk & <-). exists k. split; [ lia | ]. unfold r, gvsub. rewrite (nth_map2 _ (cst N 0) (cst N 0)) by (rewrite ?map_length; lia). now apply po_sub_l. }
  clearbody r. destruct BR as (k & Hk & BK).
  assert (F : forall chi2 (logdet : res Nm), bad chi2 -> (if negb il then Ok (nmul N (cst N (- (1 / 2))) chi2) else bind logdet (fun logdet => Ok (nmul N (cst N (- (1 / 2))) (nsub N chi2 logdet)))) = Ok x -> bad x).
  { intros chi2 logdet BC. destruct il; cbn [negb]; [ destruct logdet as [ld | e]; [ cbn [bind] | discriminate ] | ]; intros E; apply ok_inj in E; rewrite <- E; apply po_mul_r; [ now apply po_sub_l | exact BC ]. }
  destruct C as [c0 | n0 v0 | k1 k2 m | a b n s | d0]; cbn [gis_sparse].
  - destruct (String.eqb method "inverse"); [ discriminate | destruct (String.eqb method "cholesky"); discriminate ].
  - destruct (String.eqb method "inverse"); [ discriminate | destruct (String.eqb method "cholesky"); discriminate ].
  - destruct (String.eqb method "inverse"); [ | destruct (String.eqb method "cholesky"); [ | discriminate ]].
    + destruct (negb (Nat.eqb k1 k2)); [ discriminate | ]. destruct (Nat.eqb k1 (length r)) eqn:EK; [ cbn [negb bind] | discriminate ]. apply Nat.eqb_eq in EK. apply (F _ (Ok (ga_logdet ga k1 m))). apply (dot_bad _ _ k Hk); [ unfold gmv; rewrite map_length, SI; lia | exact BK ].
    + destruct (negb (Nat.eqb k1 k2)); [ discriminate | ]. destruct (Nat.eqb k1 (length r)) eqn:EK; [ cbn [negb bind] | discriminate ]. apply Nat.eqb_eq in EK. apply (F _ (Ok (ga_logdet ga k1 m))). apply (dot_bad _ _ k Hk); [ rewrite SC; lia | exact BK ].
  - cbn [ginv]. destruct (Nat.eqb a b) eqn:EAB; [ cbn [negb bind] | discriminate ]. cbn [gdot3]. destruct (negb (Nat.eqb (length r) (a * n)) || negb (Nat.eqb (a * n) (length r)))%bool eqn:EK; [ discriminate | ]. cbn [bind].
    apply Bool.orb_false_iff in EK. destruct EK as [EK _]. apply Bool.negb_false_iff, Nat.eqb_eq in EK.
    apply F. unfold gdense_dot_sparse_dot_dense, gel2. cbn [map nth tab seq]. apply (dot_bad _ _ k Hk); [ | exact BK ].
    unfold gsparse_dot_vec. rewrite EK in Hk.
    assert (EG : gcol N 0 (map (fun x => [x]) r) = r) by (unfold gcol; rewrite map_map; cbn [nth]; apply map_id). rewrite EG.
    rewrite (length_concat_const n). + rewrite map_length. unfold ginv_data. rewrite length_tab. lia.
    + intros row Hr. apply in_map_iff in Hr. destruct Hr as (blk & <- & Hb). apply len_sum0. intros w Hw. destruct (in_map2_both _ _ _ _ Hw) as (u & v & H1 & H2 & ->).
      apply len_vmul; [ | apply (chunk_row_length n a r); [ lia | exact H2 ]]. unfold ginv_data, tab in Hb. cbv zeta in Hb. apply in_map_iff in Hb. destruct Hb as (i & <- & _). apply in_map_iff in H1. destruct H1 as (j & <- & _). now rewrite map_length, seq_length.
  - destruct (Nat.eqb d0 3); [ discriminate | ]. destruct (String.eqb method "inverse"); [ discriminate | destruct (String.eqb method "cholesky"); discriminate ].
Qed.
Lemma angular_shape S c P ells rows : hangular_cl N c (Array1 ells) S P = Ok rows -> length rows = length (hcl_ordering S) /\ forall row, In row rows -> length row = length ells.
Proof.
  unfold hangular_cl. destruct (mapM (fun p => pymax (map gnz_zmax (gbins_of p))) S) as [zs | e]; [ cbn [bind] | discriminate ]. destruct (pymax zs) as [zmax | e]; [ cbn [bind] | discriminate ].
  destruct (mapM (hcl_one N c S P zmax) ells) as [cols | e] eqn:EC; [ cbn [bind] | discriminate ]. intros E. apply ok_inj in E. rewrite <- E. clear E. apply mapM_len in EC. unfold stack1. split; [ apply length_tab | ].
  intros row Hr. unfold tab in Hr. apply in_map_iff in Hr. destruct Hr as (k & <- & _). now rewrite map_length.
Qed.
Lemma survey_bad ga S c P ells f_sky sparse data il method x i : ga_shaped ga -> (forall p, In p S -> gprobe_fits p) -> (i < length (all_bins S))%nat -> dead (nth i (all_bins S) gd) -> ells <> [] ->
  length data = (length ells * length (hcl_ordering S))%nat -> hsurvey_likelihood N ga c ells S P f_sky sparse data il method = Ok x -> bad x.
Proof.
  intros HS HF Hi HD HE LD. unfold hsurvey_likelihood, hgaussian_cl_covariance_and_mean. destruct (hangular_cl N c (Array1 ells) S P) as [cl | e] eqn:EC; [ cbn [bind] | discriminate ].
  destruct (hnoise_cl N (length ells) S) as [nv | e]; [ cbn [bind] | discriminate ]. destruct (hgaussian_cl_covariance N ells S cl nv f_sky sparse) as [cov | e]; [ cbn [bind fst snd] | discriminate ].
  assert (HQ : exists q, nth_error (hcl_ordering S) q = Some (i, i)) by (apply In_nth_error; unfold hcl_ordering; rewrite n_bins; apply In_cl_ordering; lia). destruct HQ as (q & HQ).
  destruct (angular_spot S c P ells cl q i i HF HQ (or_introl HD) EC) as (L1 & L2 & L3). destruct (angular_shape S c P ells cl EC) as [A1 A2].
  apply likelihood_bad; [ exact HS | rewrite (length_concat_const (length ells)) by exact A2; rewrite A1, LD; apply Nat.mul_comm | ].
  destruct (nth q cl []) as [ | y row] eqn:ER; [ cbn [length] in L1; destruct ells; [ easy | discriminate ] | ]. exists y. split; [ apply in_concat; exists (y :: row); split; [ exact L2 | now left ] | apply L3; now left ].
Qed.
End Poison.
