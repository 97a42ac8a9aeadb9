(** * Redshift distributions on arrays: proofs *)
From Coquelicot Require Import Coquelicot.
From Verif Require Import Np NpLemmas Core Integrate Interp InterpProofs Redshift RedshiftProofs Nd NdSpec NzArr NzArrSpec NdProofs.

Section Nz.
Variable J : nd -> R -> res nd.

Lemma of_nd2 n m i j : (i < n)%nat -> (j < m)%nat -> bidx [n; 1%nat] [i; j] = [i; 0%nat] /\ bidx [m] [i; j] = [j].
Proof.
  intros Hi Hj. split.
  - unfold bidx. cbn [length Nat.sub skipn map2]. destruct (Nat.eqb_spec n 1) as [-> | _]; cbn [Nat.eqb]; [ assert (i = 0%nat) by lia; now subst | reflexivity ].
  - unfold bidx. cbn [length Nat.sub skipn map2]. destruct (Nat.eqb_spec m 1) as [-> | _]; [ f_equal; lia | reflexivity ].
Qed.
Lemma kde_shape n m : bshape [n; 1%nat] [m] = Some [n; m].
Proof. unfold bshape. cbn [rev app bshape_rev]. destruct (Nat.eqb_spec 1 m) as [<- | _]; reflexivity. Qed.
Lemma kde_entries zcat wt bw x : length wt = length zcat ->
  vdot (map (fun j => kde_kernel bw (el zcat j) x) (seq 0 (length wt))) wt / vsum wt = fam_pz (Kde zcat wt bw) x.
Proof. intros L. cbn [fam_pz]. rewrite L, (map_seq_el (fun X => kde_kernel bw X x)). reflexivity. Qed.
Lemma kde_vector zcat wt bw z m : length wt = length zcat -> shp z = [m] ->
  exists r, kde_pz (Array1 zcat) (Array1 wt) bw z = Ok r /\ elementwise (fam_pz (Kde zcat wt bw)) z r.
Proof.
  intros L Hz. unfold kde_pz, bop2. cbn [of_like atleast_1d expand_last vec shp app]. rewrite Hz, kde_shape. cbn [bind]. unfold dot_vec, transpose. cbn [shp get rev app last]. rewrite L, Nat.eqb_refl. cbn [bind removelast].
  eexists. split; [ reflexivity | ]. split; [ cbn [uop1 shp]; now rewrite Hz | ]. intros i Hi. rewrite Hz in Hi. destruct (inside_1 _ _ Hi) as (k & -> & Hk).
  cbn [uop1 get app]. rewrite <- kde_entries by exact L. rewrite L. f_equal. f_equal. apply map_ext_in. intros q Hq. apply in_seq in Hq. cbn [rev app].
  destruct (of_nd2 (length zcat) m q k ltac:(lia) Hk) as [-> ->]. reflexivity.
Qed.
(** one number: an array of one entry *)
Lemma kde_number zcat wt bw x : length wt = length zcat -> zcat <> [] ->
  exists r, kde_pz (Array1 zcat) (Array1 wt) bw (num0 x) = Ok r /\ shp r = [1%nat] /\ get r [0%nat] = fam_pz (Kde zcat wt bw) x.
Proof.
  intros L HN. unfold kde_pz, bop2. cbn [of_like atleast_1d expand_last vec shp app num0]. unfold bshape. cbn [rev app bshape_rev]. cbn [bind]. unfold dot_vec, transpose. cbn [shp get rev app last]. rewrite L, Nat.eqb_refl. cbn [bind removelast].
  eexists. split; [ reflexivity | ]. split; [ reflexivity | ]. cbn [uop1 get app]. rewrite <- kde_entries by exact L. rewrite L. f_equal. f_equal. apply map_ext_in. intros q Hq. apply in_seq in Hq. cbn [rev app].
  destruct (of_nd2 (length zcat) 1 q 0 ltac:(lia) ltac:(lia)) as [-> _]. reflexivity.
Qed.
Lemma kde_scalar_weight zcat w bw zmax z : length zcat <> 1%nat -> (shp (value z) = [] \/ exists m, shp (value z) = [m]) -> apz J (ANz (AKde (Array1 zcat) (Scalar w) bw) zmax) z = Err TypeError.
Proof.
  intros HN Hz. cbn [apz afam_pz]. unfold kde_pz, bop2. cbn [of_like atleast_1d expand_last vec shp app].
  assert (E : exists m, bshape [length zcat; 1%nat] (shp (value z)) = Some [length zcat; m]).
  { destruct Hz as [-> | [m ->]]; [ exists 1%nat; reflexivity | exists m; apply kde_shape ]. }
  destruct E as [m ->]. cbn [bind]. unfold dot_vec, transpose. cbn [shp get rev app last length]. destruct (Nat.eqb_spec (length zcat) 1); [ contradiction | reflexivity ].
Qed.

(** ** vectors *)
Lemma pz_vectors d d' : same_nz d d' -> forall z m, shp (value z) = [m] -> exists r, apz J d z = Ok r /\ elementwise (pz_fn d') (value z) r.
Proof.
  induction 1 as [a b z0 zmax g n | zcat wt bw zmax g n L | p p' b zmax g n S IH]; intros z m Hz; cbn [apz afam_pz].
  - eexists. split; [ reflexivity | ]. split; reflexivity.
  - exact (kde_vector zcat wt bw (value z) m L Hz).
  - destruct (IH (JaxArr (uop1 (fun x => clip_lo (x - b) 0) (value z))) m Hz) as (r & E & H1 & H2). exists r. split; [ exact E | ]. split; [ exact H1 | exact H2 ].
Qed.
Lemma pz_shapes d d' : analytic d d' -> forall z, exists r, apz J d z = Ok r /\ elementwise (pz_fn d') (value z) r.
Proof.
  induction 1 as [a b z0 zmax g n | p p' b zmax g n S IH]; intros z; cbn [apz afam_pz].
  - eexists. split; [ reflexivity | ]. split; reflexivity.
  - destruct (IH (JaxArr (uop1 (fun x => clip_lo (x - b) 0) (value z)))) as (r & E & H1 & H2). exists r. split; [ exact E | ]. split; [ exact H1 | exact H2 ].
Qed.
Lemma analytic_same d d' : analytic d d' -> same_nz d d'. Proof. induction 1; now constructor. Qed.
Lemma flat_elementwise F v r : elementwise F (vec v) r -> flat r = map F v.
Proof.
  intros [H1 H2]. unfold flat. rewrite H1. unfold vec. cbn [shp]. rewrite indices_1, map_map, <- map_seq_el. apply map_ext_in. intros k Hk. apply in_seq in Hk.
  rewrite H2; [ reflexivity | ]. cbn [vec shp]. repeat constructor. lia.
Qed.
Lemma norm_same d d' : same_nz d d' -> anorm J d = Ok (nz_simps_norm d').
Proof.
  intros S. assert (E := fun m => pz_vectors d d' S (JaxArr (vec (linspace 0.0 (nz_zmax d') (256 + 1)))) m). destruct (E _ eq_refl) as (r & Er & Hr). assert (Fr := flat_elementwise _ _ _ Hr).
  assert (Sr : shp r = [(256 + 1)%nat]) by (rewrite (proj1 Hr); cbn [value vec shp]; unfold linspace; now rewrite length_tab).
  assert (G : nz_simps_norm d' = (nz_zmax d' - 0.0) / INR 256 / 3 * vsum (vadd (vadd (evens (removelast (flat r))) (vscale 4 (odds (flat r)))) (evens (skipn 2 (flat r))))) by (rewrite Fr; reflexivity).
  rewrite G. clear G E Fr Hr. inversion S; subst; cbn [nz_zmax] in *; unfold anorm; rewrite Er; cbn [bind]; rewrite Sr; reflexivity.
Qed.
Lemma pz_form d q : nz_norm d = None -> pz d q = pz_fn d q / nz_simps_norm d.
Proof. intros E. unfold pz, nz_call. rewrite E. reflexivity. Qed.
Lemma call_of d d' z r : same_nz d d' -> nz_norm d' = None -> apz J d z = Ok r -> elementwise (pz_fn d') (value z) r -> exists y, acall J d z = Ok y /\ elementwise (pz d') (value z) y.
Proof.
  intros S HN E H. unfold acall. rewrite (norm_same d d' S). cbn [bind]. rewrite E. cbn [bind]. eexists. split; [ reflexivity | ].
  apply (elementwise_ext (fun q => pz_fn d' q / nz_simps_norm d')); [ intros q; now rewrite pz_form | ]. exact (elementwise_map _ (fun x => x / nz_simps_norm d') _ _ H).
Qed.
Lemma call_vectors d d' z m : same_nz d d' -> nz_norm d' = None -> shp (value z) = [m] -> exists y, acall J d z = Ok y /\ elementwise (pz d') (value z) y.
Proof. intros S HN Hz. destruct (pz_vectors d d' S z m Hz) as (r & E & H). exact (call_of d d' z r S HN E H). Qed.
Lemma call_shapes d d' z : analytic d d' -> nz_norm d' = None -> exists y, acall J d z = Ok y /\ elementwise (pz d') (value z) y.
Proof. intros S HN. destruct (pz_shapes d d' S z) as (r & E & H). exact (call_of d d' z r (analytic_same _ _ S) HN E H). Qed.
(** ** catalogues at one redshift, and in a matrix *)
Lemma call_kde_number zcat wt bw zmax g x : length wt = length zcat -> zcat <> [] ->
  exists y, acall J (ANz (AKde (Array1 zcat) (Array1 wt) bw) zmax) (PyFloat x) = Ok y /\ shp y = [1%nat] /\ get y [0%nat] = pz (nz_new (Kde zcat wt bw) g zmax) x.
Proof.
  intros L HN. destruct (kde_number zcat wt bw x L HN) as (r & E & H1 & H2). unfold acall. rewrite (norm_same _ (nz_new (Kde zcat wt bw) g zmax) (same_kde zcat wt bw zmax g None L)). cbn [bind apz afam_pz value]. rewrite E. cbn [bind].
  eexists. split; [ reflexivity | ]. split; [ exact H1 | ]. rewrite pz_form by reflexivity. cbn [uop1 get]. rewrite H2. reflexivity.
Qed.
Lemma kde_matrix : exists d d' z r, same_nz d d' /\ shp z = [2%nat; 1%nat] /\ apz J d (JaxArr z) = Ok r /\ shp r = [1%nat] /\ forall i, inside (shp z) i -> pz_fn d' (get z i) < get r [0%nat].
Proof.
  exists (ANz (AKde (Array1 [0; 1]) (Array1 [1; 1]) 1) 10), (nz_new (Kde [0; 1] [1; 1] 1) 1 10), (Nd [2%nat; 1%nat] (fun i => match i with 0%nat :: _ => 0 | _ => 1 end)).
  eexists. split; [ now constructor | ]. split; [ reflexivity | ]. split; [ reflexivity | ]. split; [ reflexivity | ].
  assert (K : kde_kernel 1 0 1 < kde_kernel 1 0 0 /\ kde_kernel 1 1 0 = kde_kernel 1 0 1 /\ kde_kernel 1 1 1 = kde_kernel 1 0 0).
  { unfold kde_kernel. assert (P := PI_RGT_0). assert (0 < sqrt (2 * PI)) by (apply sqrt_lt_R0; lra). assert (0 < 1.0 / sqrt (2 * PI) / 1).
    { unfold Rdiv. rewrite Rinv_1, Rmult_1_r. apply Rmult_lt_0_compat; [ lra | now apply Rinv_0_lt_compat ]. }
    split; [ apply Rmult_lt_compat_l; [ assumption | ]; apply exp_increasing; lra | split; f_equal; f_equal; f_equal; ring ]. }
  destruct K as (K1 & K2 & K3). intros i Hi. destruct (inside_2 _ _ _ Hi) as (k & l & -> & Hk & Hl). assert (l = 0%nat) by lia. subst l.
  assert (Hk' : k = 0%nat \/ k = 1%nat) by lia. destruct Hk' as [-> | ->]; cbn -[kde_kernel]; unfold vdot, vsum, vmul; cbn -[kde_kernel]; rewrite ?K2, ?K3; lra.
Qed.
(** ** source planes *)
Lemma delta_float z0 zmax : acall J (ANz (ADelta z0) zmax) (PyFloat z0) = Ok (uop1 (fun x => x / 1.0) (num0 0)).
Proof. reflexivity. Qed.
Lemma delta_zero z0 zmax g : exists r, acall J (ANz (ADelta z0) zmax) (PyFloat z0) = Ok r /\ shp r = [] /\ get r [] = 0 /\ pz (nz_new (Delta z0) g zmax) z0 = 1.
Proof.
  eexists. split; [ apply delta_float | ]. split; [ reflexivity | ]. cbn [uop1 get num0]. split; [ lra | ]. unfold pz, nz_call. cbn [nz_new nz_norm fst map el nth pz_fn fam_pz]. destruct (Req_EM_T z0 z0); [ lra | contradiction ].
Qed.
Lemma bidx_self s i : inside s i -> bidx s i = i.
Proof.
  intros H. unfold bidx. assert (L : length i = length s) by (clear -H; induction H; cbn [length]; [ reflexivity | now f_equal ]). rewrite L, Nat.sub_diag. cbn [skipn]. induction H as [ | n k s i Hk H IH]; [ reflexivity | ].
  cbn [map2]. f_equal; [ | apply IH; now injection L ]. destruct (Nat.eqb_spec n 1); lia.
Qed.
Lemma bshape_one n s : bshape (n :: s) [1%nat] = Some (n :: s).
Proof.
  unfold bshape. assert (N : rev (n :: s) <> []) by (cbn [rev]; destruct (rev s); discriminate). destruct (rev (n :: s)) as [ | m r] eqn:E; [ contradiction | ]. cbn [rev app bshape_rev].
  assert (B : bshape_rev r [] = Some r) by (destruct r; reflexivity). rewrite B. assert (Q : rev (m :: r) = n :: s) by (rewrite <- E; apply rev_involutive).
  destruct (Nat.eqb_spec m 1) as [-> | _]; cbn [Nat.eqb]; now rewrite Q.
Qed.
Lemma bidx_unit i : i <> [] -> bidx [1%nat] i = [0%nat].
Proof.
  intros H. unfold bidx. cbn [length]. assert (L : length (skipn (length i - 1) i) = 1%nat) by (rewrite skipn_length; destruct i; [ contradiction | cbn [length]; lia ]).
  destruct (skipn (length i - 1) i) as [ | k [ | ]]; cbn in L; try lia. reflexivity.
Qed.
Lemma delta_arrays z0 zmax g x n s : shp x = n :: s -> exists r, acall J (ANz (ADelta z0) zmax) (NumpyArr x) = Ok r /\ elementwise (pz (nz_new (Delta z0) g zmax)) x r.
Proof.
  intros Hs. unfold acall. cbn [anorm bind apz afam_pz]. unfold bop2. cbn [vec shp length]. rewrite Hs, bshape_one. cbn [bind]. eexists. split; [ reflexivity | ]. split; [ cbn [uop1 shp]; now rewrite Hs | ].
  intros i Hi. rewrite Hs in Hi. cbn [uop1 get]. rewrite (bidx_self _ _ Hi), bidx_unit by (inversion Hi; discriminate). reflexivity.
Qed.
End Nz.
(** ** public forms *)
Lemma number_refuted J : exists d d' x y, same_nz d d' /\ nz_norm d' = None /\ acall J d (PyFloat x) = Ok y /\ shp y = [1%nat].
Proof.
  destruct (call_kde_number J [0.5; 0.7] [1; 2] 0.1 2 1 0.6 eq_refl ltac:(discriminate)) as (y & E & H & _).
  exists (ANz (AKde (Array1 [0.5; 0.7]) (Array1 [1; 2]) 0.1) 2), (nz_new (Kde [0.5; 0.7] [1; 2] 0.1) 1 2), 0.6, y. split; [ now constructor | split; [ reflexivity | split; [ exact E | exact H ]]].
Qed.
Lemma plane_refuted J : exists z0, forall zmax g, exists r, acall J (ANz (ADelta z0) zmax) (PyFloat z0) = Ok r /\ shp r = [] /\ get r [] <> pz (nz_new (Delta z0) g zmax) z0.
Proof. exists 0.5. intros zmax g. destruct (delta_zero J 0.5 zmax g) as (r & E & H1 & H2 & H3). exists r. split; [ exact E | split; [ exact H1 | ]]. rewrite H2, H3. lra. Qed.
(** a shifted catalogue *)
Lemma ex_arrays : same_nz (ANz (AShift (ANz (AKde (Array1 [0.5; 0.7]) (Array1 [1; 2]) 0.1) 2) 0.01) 2) (nz_new (Shift (nz_new (Kde [0.5; 0.7] [1; 2] 0.1) 1 2) 0.01) 1 2) /\
  analytic (ANz (AShift (ANz (ASmail 2 1.5 0.5) 3) 0.01) 3) (nz_new (Shift (nz_new (Smail 2 1.5 0.5) 1 3) 0.01) 1 3) /\ shp (value (NumpyArr (vec [0.1; 0.2; 0.3]))) = [3%nat].
Proof. split; [ | split ]; repeat constructor. Qed.
