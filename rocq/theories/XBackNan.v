(** * jax.grad of redshift distributions with a cut-off exponent below 1 *)
From Coquelicot Require Import Coquelicot.
From Coq Require Import FunctionalExtensionality.
From Verif Require Import Np NpLemmas Core Interp Integrate IntegrateSpec Background Transfer Power SparseX HalofitX Redshift RedshiftProofs Bias Probes AngularCl GradSpec Ad AdSpec AdProofs
  AdPower AdProbes AdNuis AdNuisSpec AdNan AdNanSpec AdNanProofs AdNanFinal Poison AdNuisBack AdNuisBackSpec AdNuisBackFinal XBack XBackSpec AdNuisNz.
From Coq Require Import List.
Import ListNotations.
Local Open Scope R_scope.
Local Notation N := num_xb.

(** every backward pass from x adds NaN to slot i *)
Definition spoils (i : nat) (x : xback) : Prop := exists B, snd x = Some B /\ forall u, B u i = NaN.
Lemma pplus_spoil_l i B f : (forall u, B u i = NaN) -> exists B', pplus (Some B) f = Some B' /\ forall u, B' u i = NaN.
Proof. intros HB. destruct f as [f | ]; cbn [pplus]; eexists; (split; [ reflexivity | ]); intros u; cbn beta; now rewrite HB. Qed.
Lemma pplus_spoil_r i B f : (forall u, B u i = NaN) -> exists B', pplus f (Some B) = Some B' /\ forall u, B' u i = NaN.
Proof. intros HB. destruct f as [f | ]; cbn [pplus]; eexists; (split; [ reflexivity | ]); intros u; cbn beta; now rewrite ?HB, ?xadd_nan. Qed.
Global Instance spoils_poison i : poison num_xb (spoils i).
Proof.
  split; intros x y (B & E & HB); unfold spoils; cbn [nadd nsub nmul ndiv num_xb snd]; rewrite E; cbn [pby option_map];
    (apply pplus_spoil_l || apply pplus_spoil_r); intros u; apply HB.
Qed.
Definition live (i : nat) (x : xback) : Prop := exists B, snd x = Some B /\ B NaN i = NaN.
Lemma live_pplus_l i B f : B NaN i = NaN -> exists B', pplus (Some B) f = Some B' /\ B' NaN i = NaN.
Proof. intros HB. destruct f as [f | ]; cbn [pplus]; eexists; (split; [ reflexivity | ]); cbn beta; now rewrite ?HB. Qed.
Lemma live_pplus_r i B f : B NaN i = NaN -> exists B', pplus f (Some B) = Some B' /\ B' NaN i = NaN.
Proof. intros HB. destruct f as [f | ]; cbn [pplus]; eexists; (split; [ reflexivity | ]); cbn beta; now rewrite ?HB, ?xadd_nan. Qed.
Lemma live_input x i : live i (xinput (x, Some i)).
Proof. eexists. split; [ reflexivity | ]. cbn beta. now rewrite Nat.eqb_refl. Qed.
Lemma nan_mul x : xmul NaN x = NaN. Proof. reflexivity. Qed.
Lemma live_div i x y : live i x \/ live i y -> live i (ndiv N x y).
Proof.
  intros [(B & E & HB) | (B & E & HB)]; unfold live; cbn [ndiv num_xb snd]; rewrite E; cbn [pby option_map]; [ apply live_pplus_l; now rewrite xdiv_nan | apply live_pplus_r; now rewrite !nan_mul ].
Qed.
Lemma live_sub i x y : live i y -> live i (nsub N x y).
Proof. intros (B & E & HB); unfold live; cbn [nsub num_xb snd]; rewrite E; cbn [pby option_map]. apply live_pplus_r. exact HB. Qed.
Lemma live_clip i x lo : live i x -> live i (gclip_lo N x lo).
Proof. intros (B & E & HB); unfold live, gclip_lo; cbn [nmax num_xb snd]; rewrite E; cbn [pby option_map]. apply live_pplus_l. now rewrite nan_mul. Qed.
Lemma zero_inf u : u = Fin 0 \/ u = NaN -> xmul u PInf = NaN.
Proof. intros [-> | ->]; [ | reflexivity ]. cbn [xmul xsgR]. unfold Rsgn. destruct (Rlt_dec 0 0); [ lra | ]. rewrite Rmult_1_r. apply inf_0. Qed.
Lemma zero_any u : xmul (Fin 0) u = Fin 0 \/ xmul (Fin 0) u = NaN.
Proof.
  destruct u; cbn [xmul xsgR]; [ left; f_equal; ring | | | now right ]; right; unfold Rsgn; destruct (Rlt_dec 0 0); try lra; rewrite Rmult_0_l; apply inf_0.
Qed.
Lemma spoil_smail i pa pb a b z0 x : fst a = Fin pa -> fst b = Fin pb -> fst x = Fin 0 -> 0 < pa -> 0 < pb < 1 -> (exists z, 0 < z /\ fst z0 = Fin z) -> live i x \/ live i z0 ->
  spoils i (hfam_pz N (GSmail a b z0) x).
Proof.
  intros Ea Eb Ex PA PB (z & PZ & Ez) HL. cbn [hfam_pz]. set (V := ndiv N x z0).
  assert (V0 : fst V = Fin 0). { unfold V. cbn [ndiv num_xb fst]. rewrite Ex, Ez. unfold xdiv. destruct (Req_EM_T z 0); [ lra | ]. f_equal. unfold Rdiv. ring. }
  assert (VL : live i V) by now apply live_div. clearbody V. set (W := npow N V b).
  assert (W0 : fst W = Fin 0) by (unfold W; cbn [npow num_xb fst]; rewrite V0, Eb, xpow_fin by lra; f_equal; apply rpow_0l; lra).
  assert (WS : exists B, snd W = Some B /\ forall u, u = Fin 0 \/ u = NaN -> B u i = NaN).
  { unfold W. cbn [npow num_xb snd]. rewrite V0, Eb, root_jac by lra. destruct VL as (B & E & HB). rewrite E. cbn [pby option_map].
    destruct (snd b) as [f | ]; cbn [option_map pplus]; eexists; (split; [ reflexivity | ]); intros u Hu; cbn beta; rewrite (zero_inf u Hu), HB; reflexivity. }
  clearbody W. destruct WS as (B & E & HB). cbn [nmul nexp nneg num_xb]. unfold spoils. cbn [snd fst]. rewrite E, W0. cbn [pby option_map].
  assert (P0 : xpow (fst x) (fst a) = Fin 0) by (rewrite Ex, Ea, xpow_fin by lra; f_equal; apply rpow_0l; lra).
  apply pplus_spoil_r. intros u. cbn beta. cbn [npow num_xb fst]. rewrite P0. apply HB. cbn [xneg xexp]. rewrite Ropp_0, exp_0.
  destruct (zero_any u) as [-> | ->]; cbn [xmul xneg]; [ left; f_equal; ring | now right ].
Qed.
Lemma root_dead i d : root_leaf i d -> dead (N := num_xb) (bad := spoils i) (nz_map xinput d).
Proof.
  destruct d as [[a b z0 | | | [[a b z0 | | | ] g zm] be] g' zm']; try easy.
  - intros (A & B & Z & HZ & S). split; [ reflexivity | ]. cbn [nz_map fam_map hpz_fn]. apply (spoil_smail i (fst a) (fst b)); try reflexivity; try assumption; [ now exists (fst z0) | ].
    right. destruct z0 as [z s]. cbn [snd] in S. subst. apply live_input.
  - intros (A & B & Z & E & S). assert (0 < fst a) by lra. split; [ reflexivity | ]. cbn [nz_map fam_map hpz_fn hfam_pz].
    apply (spoil_smail i (fst a) (fst b)); try reflexivity; try assumption; [ | now exists (fst z0) | ].
    + unfold gclip_lo. cbn [nmax nsub cst num_xb fst snd xinput]. unfold xsub. cbn [xneg xadd]. unfold xmax, xlt. destruct (Rlt_dec _ _); f_equal; lra.
    + left. apply live_clip, live_sub. destruct be as [e s]. cbn [snd] in S. subst. apply live_input.
Qed.
Definition leaf_dual (w : nat -> R) (l : leaf) : xdual := moves_at (match snd l with Some i => w i | None => 0 end) (fst l).
Lemma leaf_moving w t : leaf_at w t = (fun l => moving t (leaf_dual w l)).
Proof. apply functional_extensionality. intros l. unfold leaf_at, leaf_dual, moving, x_val, x_tan. cbn [fst snd moves_at]. ring. Qed.
Lemma root_nan i d q : root_leaf i d -> 0 <= q -> (forall w, ex_derive (fun t => pz (read_nz (leaf_at w t) d) q) 0) /\ partial (hpz num_xb (nz_map xinput d) q) i = NaN.
Proof.
  intros HD Hq. split.
  - intros w. apply (ex_derive_ext (fun t => pz (read_nz (moving t) (nz_map (leaf_dual w) d)) q)); [ intros t; now rewrite read_nz_map, <- leaf_moving | ].
    destruct d as [[a b z0 | | | [[a b z0 | | | ] g zm] be] g' zm']; try easy; cbn [nz_map fam_map root_leaf] in *; destruct HD as (A & B & Z & HZ & HS); [ apply smail_differentiable | apply shift_differentiable ]; unfold x_val; cbn [leaf_dual moves_at fst]; lra.
  - destruct (dead_pz (bad := spoils i) _ q (root_dead i d HD)) as (B & E & HB). unfold partial. now rewrite E.
Qed.
Lemma root_grad_nan i c (ds : list (gnz leaf)) ba (P : gcosmo xback -> xback -> xback -> xback) ells rows : (forall d, In d ds -> root_leaf i d) ->
  hangular_cl num_xb c (Array1 ells) [GPNC (GNC (map (nz_map xinput) ds) ba)] P = Ok rows -> forall row x, In row rows -> In x row -> partial x i = NaN.
Proof.
  intros HD E row x Hr Hx. assert (B : spoils i x).
  { refine (clustering_nan (bad := spoils i) c (map (nz_map xinput) ds) ba P ells rows _ E row x Hr Hx). intros d Hd. apply in_map_iff in Hd. destruct Hd as (e & <- & He). now apply root_dead, HD. }
  destruct B as (B & EB & HB). unfold partial. now rewrite EB.
Qed.
(** the bins of the LSST DESC requirements *)
Definition lsst_leaf : gnz leaf := GNz (GSmail (2, None) (0.68, None) (0.11, Some 0%nat)) (27, None) 4.
Definition lsst_leaf_shifted : gnz leaf := GNz (GShift (GNz (GSmail (2, None) (0.68, None) (0.11, None)) (27, None) 4) (0, Some 0%nat)) (27, None) 4.
Lemma ex_root : root_leaf 0 lsst_leaf /\ root_leaf 0 lsst_leaf_shifted.
Proof. cbn. repeat split; lra. Qed.
Lemma ex_root_spectra c b (P : gcosmo xback -> xback -> xback -> xback) l : ggamma c = None ->
  exists x, hangular_cl num_xb c (Array1 [l]) [GPNC (GNC (map (nz_map xinput) [lsst_leaf]) (GOneBias b))] P = Ok [[x]] /\ partial x 0 = NaN.
Proof.
  intros HG. destruct (one_bin_any N c (nz_map xinput lsst_leaf) b P l HG eq_refl) as (x & E). exists x. split; [ exact E | ].
  refine (root_grad_nan 0 c [lsst_leaf] (GOneBias b) P [l] _ _ E [x] x (or_introl eq_refl) (or_introl eq_refl)). intros d [<- | []]. apply ex_root.
Qed.
Lemma root_refuted : exists a b z0 g zm : R, 0 < a /\ 0 < b /\ 0 < z0 /\ 0 < zm /\
  forall q, 0 <= q -> ex_derive (fun t => pz (nz_new (Smail a b (z0 + t)) g zm) q) 0 /\ partial (hpz num_xb (nz_map xinput (GNz (GSmail (a, None) (b, None) (z0, Some 0%nat)) (g, None) zm)) q) 0 = NaN.
Proof.
  exists 2, 0.68, 0.11, 27, 4. repeat match goal with |- _ < _ /\ _ => split; [ lra | ] end. intros q Hq. destruct (root_nan 0 lsst_leaf q (proj1 ex_root) Hq) as [D B]. split; [ | exact B ].
  specialize (D (fun _ => 1)). revert D. apply ex_derive_ext. intros t. cbn [lsst_leaf read_nz read_fam]. unfold leaf_at. cbn [fst snd]. now rewrite !Rmult_0_r, !Rplus_0_r, Rmult_1_r.
Qed.
