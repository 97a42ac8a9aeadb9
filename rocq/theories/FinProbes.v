(** * The vocabulary of FinSpec.v and that of the proofs *)
From Coquelicot Require Import Coquelicot.
From Verif Require Import SparseX HalofitX AdNan AdNanSpec AdNanProofs AdNanFinal FinRules FinOps FinBg FinGrowth FinTransfer FinPower FinHalofit FinNz FinSurvey.
From Verif Require Import Np NpLemmas Core Ode OdeSpec OdeProofs Interp InterpProofs InterpCont Integrate IntegrateSpec RombProofs Background BgSpec BgAlgebra BgTables
  BgGrowth BgPositive BgProofs BgFinal BgFinal2 BgFinal4 BgGrad Transfer TransferProofs TransferMono Power PowerProofs ExPower Redshift RedshiftProofs Bias Probes AngularCl GradSpec
  Ad AdSpec AdProofs AdBg AdFinal AdPower AdPowerFinal AdProbes AdRel AdProbesProofs AdProbesFinal AdArrSpec AdNuis AdNuisProofs AdNuisSpec AdNuisNz AdNuisFinal FinSpec.
From Coq Require Import FunctionalExtensionality.
Opaque chi_table growth_table_ODE growth_table_gamma logspace.

Lemma carries_fin f x : carries f x <-> fin_of f 0 x.
Proof. cbn [fin_of floats_follows]. unfold carries, fl_of, tangent_of, rd. cbn [fst snd]. tauto. Qed.
Fixpoint plain_gm (d : gnz xdual) : plain_nz d = AdNanProofs.gm d
with plain_gmf (f : gfam xdual) : plain_fam f = gmf f.
Proof.
  - destruct d as [f g zm]. cbn [plain_nz gm]. now rewrite plain_gmf.
  - destruct f as [ | | | p b]; cbn [plain_fam gmf]; [ reflexivity | reflexivity | reflexivity | now rewrite plain_gm ].
Qed.
Lemma moving_zero x : moving 0 x = x_val x. Proof. unfold moving. ring. Qed.
Lemma cosmo_built t g : built (cosmo_at t g). Proof. reflexivity. Qed.
Lemma cosmo_fin g : finite_cosmo g -> fin_moves (fun t => cosmo_at t g) 0 g. Proof. exact (fl_moves g). Qed.
Lemma number_of F G : rr (fun f x => fin_of f 0 x) F G -> number_carried F G.
Proof.
  intros HR. unfold number_carried. destruct (rr_cases _ _ _ HR) as [(f & x & -> & E & L) | (e & -> & E)]; [ | exact E ]. exists f. split; [ exact E | now apply carries_fin ].
Qed.
Lemma carried_rows F G : rr (lr (lr (fun f x => fin_of f 0 x))) F G -> rows_carried F G.
Proof.
  intros HR. unfold rows_carried. destruct (rr_cases _ _ _ HR) as [(V & M & -> & E & L) | (e & -> & E)]; [ | exact E ].
  assert (RL : forall i, lr (fun f x => fin_of f 0 x) (fun t => nth i (V t) []) (nth i M [])).
  { intros i. apply (lr_nth (lr _)); [ apply lr_respects | apply lr_nil' | exact L ]. }
  exists V. split; [ exact E | split; [ apply (lr_length _ _ _ L) | split ]].
  - intros t i. apply (lr_length _ _ _ (RL i) t).
  - intros i j. apply carries_fin. apply (lr_nth _ _ _ 0 (AdNanSpec.still 0) j (fin_respects 0) (ft_cst (N := num_x) 0 0) (RL i)).
Qed.

(** ** reading plain parameters *)
Lemma read_plain (v : dual -> R) d : read_nz v (plain_nz d) = read_nz (fun x => v (plain x)) d.
Proof. rewrite plain_gm. apply AdNanProofs.read_gm. Qed.
Lemma read_plain_bias (v : dual -> R) b : read_bias v (plain_bias b) = read_bias (fun x => v (plain x)) b. Proof. now destruct b. Qed.
Lemma read_plain_arg (v : dual -> R) b : read_bias_arg v (plain_bias_arg b) = read_bias_arg (fun x => v (plain x)) b.
Proof. destruct b as [b | l]; cbn; [ now rewrite read_plain_bias | ]. rewrite map_map. f_equal. apply map_ext. intros. apply read_plain_bias. Qed.
Lemma read_plain_m (v : dual -> R) b : read_m v (plain_m b) = read_m (fun x => v (plain x)) b.
Proof. destruct b as [b | l]; cbn; [ reflexivity | ]. now rewrite map_map. Qed.
Lemma read_plain_probe (v : dual -> R) p : read_probe v (plain_probe p) = read_probe (fun x => v (plain x)) p.
Proof.
  assert (E : forall l, map (read_nz v) (map plain_nz l) = map (read_nz (fun x => v (plain x))) l) by (intros l; rewrite map_map; apply map_ext; intros; apply read_plain).
  destruct p as [[bs m ia se] | [bs b]]; cbn; rewrite E; [ rewrite read_plain_m; destruct ia; cbn; rewrite ?read_plain_arg; reflexivity | now rewrite read_plain_arg ].
Qed.
Lemma values_plain S : values (map plain_probe S) = map (read_probe x_val) S.
Proof. unfold values. rewrite map_map. apply map_ext. intros p. apply (read_plain_probe fst). Qed.
Lemma x_val_moving : moving 0 = x_val. Proof. apply functional_extensionality. apply moving_zero. Qed.
Lemma probes_0 S : probes_at 0 S = values (map plain_probe S). Proof. rewrite values_plain. unfold probes_at. now rewrite x_val_moving. Qed.
Lemma plain_delta d : gis_delta (plain_nz d) = gis_delta d. Proof. now destruct d as [[ | | | ] ? ?]. Qed.
Lemma plain_zmax d : gnz_zmax (plain_nz d) = gnz_zmax d. Proof. now destruct d. Qed.
Lemma plain_z0 d : hdelta_z0 num_dual (plain_nz d) = plain (hdelta_z0 num_x d). Proof. now destruct d as [[ | | | ] ? ?]. Qed.
Lemma finite_z0 d : finite_nz d -> finite (hdelta_z0 num_x d).
Proof. destruct d as [[ | | | ] ? ?]; intros [H _]; try apply (f_still 0). exact H. Qed.

Lemma no_gamma G t : _gamma (cosmo_at t G) = option_map (moving t) (ggamma G). Proof. reflexivity. Qed.
Lemma fjit_curve G : _gamma (cosmo_at 0 G) = None -> forall s, cosmo_jit (cosmo_at s G) = Ok (cosmo_at s G).
Proof.
  rewrite no_gamma. intros NG s. assert (E : ggamma G = None) by (now destruct (ggamma G)). unfold cosmo_at. rewrite E. reflexivity.
Qed.
Lemma fjit G : _gamma (cosmo_at 0 G) = None -> gcosmo_jit G = Ok G.
Proof. rewrite no_gamma. intros NG. assert (E : ggamma G = None) by (now destruct (ggamma G)). unfold gcosmo_jit. now rewrite E. Qed.

