(** * Proofs about catalogues with several columns *)
From Coq Require Import Reals Lra Lia ZArith String List.
From Coquelicot Require Import Coquelicot.
From Verif Require Import Np NpLemmas Interp Integrate IntegrateSpec SimpsProofs Redshift RedshiftProofs Spline Nd NdSpec NdProofs NzArr NzArrSpec NzArrProofs PowerNd PowerNdSpec NdBroadcast SplineNd SplineNdProofs RombFn QuadNd QuadNdProofs KdeNd KdeNdSpec.
Import ListNotations.
Local Open Scope R_scope.

Section Call.
Context (F : nd -> res nd) (zmax : R) (t : list nat) (g : list nat -> R -> R).
Context (H : forall z p, shp z = [p] -> exists v, F z = Ok v /\ shp v = p :: t /\ forall j i, (j < p)%nat -> inside t i -> get v (j :: i) = g i (get z [j])).
Lemma call_general z p : shp z = [p] -> exists r, norm_call F zmax z = Ok r /\ shp r = p :: t /\
  forall j i, (j < p)%nat -> inside t i -> get r (j :: i) = g i (get z [j]) / simpson (g i) 0.0 zmax 256.
Proof.
  intros Sz. unfold norm_call. set (nodes := vec (linspace 0.0 zmax (256 + 1))).
  assert (Sn : shp nodes = [(256 + 1)%nat]) by (unfold nodes, vec, linspace; cbn [shp]; now rewrite length_tab).
  assert (Vn : forall j, (j <= 256)%nat -> get nodes [j] = node 0.0 zmax 256 j).
  { intros j Hj. unfold nodes, vec. cbn [get hd]. rewrite linspace_node. unfold el. rewrite nth_tab by lia. reflexivity. }
  destruct (H nodes (256 + 1)%nat Sn) as (y & Ey & Sy & Vy). rewrite Ey. cbn [bind]. rewrite Sy. cbv zeta.
  replace ((256 + 1) / 2)%nat with 128%nat by reflexivity. replace ((256 + 1 - 1) / 2)%nat with 128%nat by reflexivity.
  assert (E2 : forall st, (st <= 2)%nat -> has (128%nat :: t) (every2 st 128 y) (fun i => g (tl i) (node 0.0 zmax 256 (st + 2 * hd 0%nat i)))).
  { intros st Hst. split; [ cbn [every2 shp]; now rewrite Sy | ]. intros i Hi. inversion Hi as [ | ? j ? i' Hj Hi']; subst i. cbn [every2 get hd tl]. rewrite Vy by (lia || exact Hi'). now rewrite Vn by lia. }
  destruct (has_bop (128%nat :: t) Rplus _ _ _ _ (E2 0%nat ltac:(lia)) (has_uop _ (fun u => 4 * u) _ _ (E2 1%nat ltac:(lia)))) as (a & Ea & Ha). rewrite Ea. cbn [bind].
  destruct (has_bop (128%nat :: t) Rplus _ _ _ _ Ha (E2 2%nat ltac:(lia))) as (q & Eq & Hq). rewrite Eq. cbn [bind].
  assert (Hs : has t (uop1 (fun u => (zmax - 0.0) / INR 256 / 3 * u) (sum_first q)) (fun i => simpson (g i) 0.0 zmax 256)).
  { destruct Hq as [Sq Vq]. split; [ cbn [uop1 sum_first shp]; now rewrite Sq | ]. intros i Hi. cbn [uop1 sum_first get]. rewrite Sq. cbn [hd]. unfold simpson. f_equal. rewrite vsum_tab.
    change (256 / 2)%nat with 128%nat. apply Rsum_ext. intros j Hj. rewrite Vq by (constructor; assumption). cbn [hd tl]. rewrite (Nat.add_comm 1 (2 * j)), (Nat.add_comm 2 (2 * j)). reflexivity. }
  set (nm := uop1 _ (sum_first q)) in *. destruct (H z p Sz) as (v & Ev & Sv & Vv). rewrite Ev. cbn [bind].
  destruct (nrep_bop (p :: t) Rdiv v nm _ _ (nrep_get (p :: t) v ltac:(rewrite Sv; apply fits_refl)) (nrep_get (p :: t) nm ltac:(rewrite (proj1 Hs); unfold fits; cbn [rev]; apply under_app))) as (r & Er & Hr & F1 & _).
  exists r. split; [ exact Er | ]. assert (Sr : shp r = p :: t). { apply fits_antisym; [ exact (proj1 Hr) | ]. rewrite Sv in F1. exact F1. }
  split; [ exact Sr | ]. intros j i Hj Hi. assert (Hji : inside (p :: t) (j :: i)) by (constructor; assumption).
  rewrite (nrep_self _ r _ Sr Hr (j :: i) Hji), Sv, (bidx_self _ _ Hji), Vv by assumption. f_equal.
  rewrite (proj1 Hs). assert (bidx t (j :: i) = i) as ->; [ | exact (proj2 Hs i Hi) ].
  rewrite <- (bidx_self t i Hi) at 2. unfold bidx. f_equal. cbn [length]. rewrite (inside_length _ _ Hi).
  replace (Datatypes.S (length t) - length t)%nat with 1%nat by lia. rewrite Nat.sub_diag. reflexivity.
Qed.
End Call.

Lemma column_shape n m p : bshape [n; m; 1%nat] [p] = Some [n; m; p].
Proof. unfold bshape. cbn [rev app bshape_rev]. destruct (Nat.eqb_spec 1 p) as [<- | _]; reflexivity. Qed.
Lemma column_index n m p i l j : (i < n)%nat -> (l < m)%nat -> (j < p)%nat -> bidx [n; m; 1%nat] [i; l; j] = [i; l; 0%nat] /\ bidx [p] [i; l; j] = [j].
Proof.
  intros Hi Hl Hj. unfold bidx. cbn [length Nat.sub skipn map2]. split.
  - destruct (Nat.eqb_spec n 1); destruct (Nat.eqb_spec m 1); cbn [Nat.eqb]; repeat f_equal; lia.
  - destruct (Nat.eqb_spec p 1); f_equal; lia.
Qed.
Lemma vdot_tab n f h : vdot (tab n f) (tab n h) = vsum (tab n (fun j => f j * h j)).
Proof.
  unfold vdot. f_equal. unfold vmul. apply (list_eq_nth 0); [ rewrite length_map2, !length_tab; lia | ]. intros i Hi. rewrite length_map2, !length_tab, Nat.min_id in Hi.
  rewrite (nth_map2 Rmult _ _ i 0 0 0) by (rewrite length_tab; exact Hi). now rewrite !nth_tab.
Qed.
Lemma tab_el n v : length v = n -> tab n (el v) = v.
Proof. intros L. apply (list_eq_nth 0); [ now rewrite length_tab | ]. intros i Hi. rewrite length_tab in Hi. now rewrite nth_tab. Qed.

Section Columns.
Context (zcat : nd) (bw zmax : R) (n m : nat) (Sc : shp zcat = [n; m]).
Lemma kde_columns wt z p : length wt = n -> shp z = [p] -> exists v, kde_nd zcat (vec wt) bw z = Ok v /\ shp v = p :: [m] /\
  forall j i, (j < p)%nat -> inside [m] i -> get v (j :: i) = fam_pz (Kde (column zcat n (hd 0%nat i)) wt bw) (get z [j]).
Proof.
  intros L Sz. unfold kde_nd, bop2. cbn [atleast1 vec shp expand_last]. rewrite Sc, Sz. cbn [app]. rewrite column_shape. cbn [bind]. unfold dot_nd, transpose. cbn [shp get rev app last vec]. fold (vec wt). rewrite L, Nat.eqb_refl. cbn [bind].
  eexists. split; [ reflexivity | ]. cbn [uop1 shp get removelast]. split; [ reflexivity | ]. intros j i Hj Hi. destruct (inside_1 _ _ Hi) as (l & -> & Hl). cbn [hd app fam_pz].
  rewrite flat_vec. f_equal. unfold column. rewrite map_tab. match goal with |- _ = vdot ?X wt => replace (vdot X wt) with (vdot X (tab n (el wt))) by (now rewrite (tab_el n wt L)) end. rewrite vdot_tab. f_equal. apply tab_ext. intros k Hk. cbn [rev app hd].
  destruct (column_index n m p k l j Hk Hl Hj) as [-> ->]. cbn [removelast]. reflexivity.
Qed.
Theorem call_columns wt z p g : length wt = n -> shp z = [p] -> exists r, kde_call zcat (vec wt) bw zmax z = Ok r /\ shp r = [p; m] /\
  forall j l, (j < p)%nat -> (l < m)%nat -> get r [j; l] = pz (nz_new (Kde (column zcat n l) wt bw) g zmax) (get z [j]).
Proof.
  intros L Sz. destruct (call_general (kde_nd zcat (vec wt) bw) zmax [m] (fun i => fam_pz (Kde (column zcat n (hd 0%nat i)) wt bw)) (fun z p => kde_columns wt z p L) z p Sz) as (r & E & S & V).
  exists r. split; [ exact E | split; [ exact S | ] ]. intros j l Hj Hl. rewrite V by (exact Hj || (repeat constructor; exact Hl)). rewrite pz_form by reflexivity. cbn [hd]. f_equal.
  unfold nz_simps_norm. cbn [nz_new nz_zmax pz_fn]. now rewrite simps_eq by (reflexivity || lia).
Qed.
(** weights with several columns *)
Context (wt : nd) (c : nat) (Sw : shp wt = [n; c]).
Lemma kde_matrix_weights z p : shp z = [p] -> exists v, kde_nd zcat wt bw z = Ok v /\ shp v = p :: [m; c] /\
  forall j i, (j < p)%nat -> inside [m; c] i ->
    get v (j :: i) = vdot (map (fun X => kde_kernel bw X (get z [j])) (column zcat n (hd 0%nat i))) (column wt n (last i 0%nat)) / vsum (flat wt).
Proof.
  intros Sz. unfold kde_nd, bop2. unfold atleast1. cbn [shp expand_last]. rewrite Sc, Sz, Sw. cbn [app]. rewrite column_shape. cbn [bind]. unfold dot_nd, transpose. cbn [shp get rev app last]. rewrite Sw, Nat.eqb_refl. cbn [bind].
  eexists. split; [ reflexivity | ]. cbn [uop1 shp get removelast app]. split; [ reflexivity | ]. intros j i Hj Hi. destruct (inside_2 _ _ _ Hi) as (l & l' & -> & Hl & Hl'). cbn [hd last removelast app].
  f_equal. unfold column. rewrite map_tab, vdot_tab. f_equal. apply tab_ext. intros k Hk. cbn [rev app]. destruct (column_index n m p k l j Hk Hl Hj) as [-> ->]. reflexivity.
Qed.
Theorem call_matrix_weights z p g : shp z = [p] -> vsum (flat wt) <> 0 -> exists r, kde_call zcat wt bw zmax z = Ok r /\ shp r = [p; m; c] /\
  forall j l l', (j < p)%nat -> (l < m)%nat -> (l' < c)%nat -> vsum (column wt n l') <> 0 ->
    get r [j; l; l'] = pz (nz_new (Kde (column zcat n l) (column wt n l') bw) g zmax) (get z [j]).
Proof.
  intros Sz Q. destruct (call_general (kde_nd zcat wt bw) zmax [m; c] (fun i x => vdot (map (fun X => kde_kernel bw X x) (column zcat n (hd 0%nat i))) (column wt n (last i 0%nat)) / vsum (flat wt)) kde_matrix_weights z p Sz) as (r & E & S & V).
  exists r. split; [ exact E | split; [ exact S | ] ]. intros j l l' Hj Hl Hl' Q'. rewrite V by (exact Hj || (repeat constructor; assumption)). rewrite pz_form by reflexivity. cbn [hd last].
  set (d := nz_new _ g zmax). unfold nz_simps_norm. cbn [d nz_new nz_zmax]. rewrite simps_eq by (reflexivity || lia).
  set (C := vsum (column wt n l') / vsum (flat wt)). assert (HC : C <> 0) by (unfold C, Rdiv; apply Rmult_integral_contrapositive_currified; [ exact Q' | now apply Rinv_neq_0_compat ]).
  assert (G : forall x, vdot (map (fun X => kde_kernel bw X x) (column zcat n l)) (column wt n l') / vsum (flat wt) = C * pz_fn d x) by (intros x; cbn [d nz_new pz_fn fam_pz]; unfold C; field; split; assumption).
  rewrite G. rewrite (simpson_ext _ (fun x => C * pz_fn d x) 0.0 zmax 256 (fun i _ => G _)), simpson_scal. unfold Rdiv. rewrite Rinv_mult.
  replace (C * pz_fn d (get z [j]) * (/ C * / simpson (pz_fn d) 0.0 zmax 256)) with (C * / C * (pz_fn d (get z [j]) * / simpson (pz_fn d) 0.0 zmax 256)) by ring.
  rewrite Rinv_r by exact HC. now rewrite Rmult_1_l.
Qed.
End Columns.
(** catalogues without columns, as in NzArr.v *)
Lemma kde_single zcat wt bw z p : length wt = length zcat -> shp z = [p] -> exists v, kde_nd (vec zcat) (vec wt) bw z = Ok v /\ shp v = p :: [] /\
  forall j i, (j < p)%nat -> inside [] i -> get v (j :: i) = fam_pz (Kde zcat wt bw) (get z [j]).
Proof.
  intros L Sz. unfold kde_nd, bop2. cbn [atleast1 vec shp expand_last app]. rewrite Sz, kde_shape. cbn [bind]. unfold dot_nd, transpose. cbn [shp get rev app last vec]. fold (vec wt). rewrite L, Nat.eqb_refl. cbn [bind].
  eexists. split; [ reflexivity | ]. cbn [uop1 shp get removelast]. split; [ reflexivity | ]. intros j i Hj Hi. inversion Hi. cbn [hd app fam_pz].
  rewrite flat_vec. f_equal.
  match goal with |- _ = vdot ?X wt => replace (vdot X wt) with (vdot (tab (length zcat) (fun k => kde_kernel bw (el zcat k) (get z [j]))) (tab (length zcat) (el wt))) end.
  2: { rewrite (tab_el _ wt L). f_equal. rewrite <- (tab_el (length zcat) zcat eq_refl) at 2. now rewrite map_tab. }
  rewrite vdot_tab. f_equal. apply tab_ext. intros k Hk. cbn [rev app]. destruct (of_nd2 (length zcat) p k j Hk Hj) as [-> ->]. reflexivity.
Qed.
Theorem call_single zcat wt bw zmax z p g : length wt = length zcat -> shp z = [p] -> exists r, kde_call (vec zcat) (vec wt) bw zmax z = Ok r /\ elementwise (pz (nz_new (Kde zcat wt bw) g zmax)) z r.
Proof.
  intros L Sz. destruct (call_general (kde_nd (vec zcat) (vec wt) bw) zmax [] (fun _ => fam_pz (Kde zcat wt bw)) (fun z p => kde_single zcat wt bw z p L) z p Sz) as (r & E & S & V).
  exists r. split; [ exact E | split; [ congruence | ] ]. intros i Hi. rewrite Sz in Hi. destruct (inside_1 _ _ Hi) as (j & -> & Hj). rewrite V by (exact Hj || constructor). rewrite pz_form by reflexivity. f_equal.
  unfold nz_simps_norm. cbn [nz_new nz_zmax pz_fn]. now rewrite simps_eq by (reflexivity || lia).
Qed.
(** a matrix of weights beside a catalogue of the same shape *)
Definition catalogue22 : nd := Nd [2%nat; 2%nat] (fun i => INR (hd 0%nat i) + INR (last i 0%nat) / 2).
Definition weights22 : nd := Nd [2%nat; 2%nat] (fun _ => 1).
Lemma weights22_sum : vsum (flat weights22) <> 0 /\ forall l, vsum (column weights22 2 l) <> 0.
Proof. split; [ | intros l ]; unfold column; cbn; unfold vsum; simpl; lra. Qed.
Lemma weights_refuted : exists zcat wt bw zmax z p m r, shp zcat = [2%nat; m] /\ shp wt = shp zcat /\ shp z = [p] /\ kde_call zcat wt bw zmax z = Ok r /\ shp r <> [p; m].
Proof.
  destruct (call_matrix_weights catalogue22 (1 / 10) 2 2 2 eq_refl weights22 2 eq_refl (vec [1 / 2; 1; 3 / 2]) 3 1 eq_refl (proj1 weights22_sum)) as (r & E & S & _).
  exists catalogue22, weights22, (1 / 10), 2, (vec [1 / 2; 1; 3 / 2]), 3%nat, 2%nat, r. repeat (split; [ reflexivity | ]). split; [ exact E | ]. rewrite S. discriminate.
Qed.
