(** * The power spectra on columns of scale factors *)
From Coquelicot Require Import Coquelicot.
From Verif Require Import ProbesProofs AclProofs.
From Verif Require Import Np NpLemmas Core Interp Integrate IntegrateSpec SimpsProofs Background BgSpec BgProofs BgFinal BgFinal3 BgFinal4 BgGrowth Transfer Power PowerArr PowerArrSpec PowerArrProofs ExPower.
From Verif Require Import Nd NdSpec NzArr NzArrProofs BgArr NdProofs PowerNd PowerNdSpec NdBroadcast PowerNdProofs PowerCol.
Opaque chi_table growth_table_ODE growth_table_gamma logspace.

Lemma Forall2_rev_ {A B} (P : A -> B -> Prop) l m : Forall2 P l m -> Forall2 P (rev l) (rev m).
Proof. induction 1; simpl; [ constructor | ]. apply Forall2_app; [ assumption | now repeat constructor ]. Qed.
Lemma inside_red t : forall s i, under t s -> inside s i -> inside t (red t i).
Proof.
  induction t as [ | m t IH]; intros [ | n s] i H Hi; simpl in H; try contradiction; try constructor.
  inversion Hi as [ | ? k ? i' Hk Hi']; subst. unfold red. cbn [map2]. destruct H as [Hm H]. constructor; [ destruct (Nat.eqb_spec m 1); lia | ]. now apply (IH s).
Qed.
Lemma inside_bidx t s i : fits t s -> inside s i -> inside t (bidx t i).
Proof.
  intros F Hi. assert (L : (length t <= length i)%nat) by (rewrite (inside_length _ _ Hi); apply under_length in F; now rewrite !rev_length in F).
  rewrite <- (rev_involutive t) at 1. rewrite <- (rev_involutive (bidx t i)). apply Forall2_rev_. rewrite rev_bidx by exact L. apply (inside_red _ (rev s)); [ exact F | now apply Forall2_rev_ ].
Qed.
Lemma nrep_elementwise s F a r : fits (shp a) s -> elementwise F a r -> nrep s r (fun i => F (wave a i)).
Proof. intros H [Es E]. split; rewrite Es; [ exact H | ]. intros i Hi. apply E. now apply (inside_bidx _ s). Qed.

Section Final.
Variables (c : cosmology) (T : transfer).
Hypothesis Hc : fresh c.

(** k of any shape; a a vector or a column *)
Lemma linear_nd_values k a m s : shp a = [m] \/ shp a = [m; 1%nat] -> bshape (shp (atleast1 k)) (shp a) = Some s ->
  exists r, linear_nd c k a T = Ok r /\ holds_on s r (fun i => linear_matter_power c (wave k i) (wave a i) T).
Proof.
  intros Ha B. destruct (bshape_fits _ _ _ B) as [Fk Fa]. unfold linear_nd. assert (E1 : atleast1 a = a) by (unfold atleast1; destruct Ha as [-> | ->]; reflexivity). rewrite E1.
  destruct (growth_arrays c a m Hc Ha) as (g & -> & Eg). cbn [bind]. pose proof (nrep_wave1 k s Fk) as Rk. pose proof (nrep_elementwise s _ a g Fa Eg) as Rg.
  destruct (nrep_bop s Rmult (uop1 (primordial_matter_power c) (atleast1 k)) (uop1 (fun x => x ^ 2) (uop1 (T c) (atleast1 k))) _ _ (nrep_uop s _ _ _ Rk) (nrep_uop s _ _ _ (nrep_uop s _ _ _ Rk))) as (p & -> & Rp & Fp & _).
  cbn [bind]. destruct (nrep_bop s Rmult p (uop1 (fun x => x ^ 2) g) _ _ Rp (nrep_uop s _ _ _ Rg)) as (q & -> & Rq & Fq & Gq).
  cbn [bind]. eexists. split; [ reflexivity | ]. apply squeeze_holds; [ | exact (nrep_uop s _ _ _ Rq) ]. cbn [uop1 shp] in *.
  refine (exact_shape _ _ _ _ B (fits_trans _ _ _ Fp Fq) _ (proj1 Rq)). rewrite (proj1 Eg) in Gq. exact Gq.
Qed.
(** rows of scale factors raise *)
Lemma linear_rows k a p t m : shp a = p :: t ++ [m] -> m <> 1%nat -> m <> 128%nat -> linear_nd c k a T = Err TypeError.
Proof.
  intros E N1 N2. unfold linear_nd. rewrite (atleast1_id a _ _ E). now rewrite (proj2 (tables_raise c a p t m E N1) N2).
Qed.
Lemma integrand_raises v knl logk : reachable c -> (2 <= length v)%nat -> length knl = length v -> (2 <= length logk)%nat -> length logk <> length v ->
  integrand_column c v knl T logk = Err TypeError.
Proof.
  intros Hr Lv Lk L2 Ln. unfold integrand_column. destruct (pk_nodes c T Hr logk L2) as (w & E & Ew).
  destruct (linear_matter_power_nd c (Array1 (map exp logk)) (Scalar 1.0) T) as [pk | e]; [ | discriminate ]. cbn [bind] in E |- *.
  change (atleast1 (column_of v)) with (column_of v). destruct (growth_arrays c (column_of v) (length v) Hc (or_intror eq_refl)) as (g & -> & Eg & _). cbn [bind]. rewrite E. cbn [bind of_like].
  assert (Lw : length w = length logk) by (rewrite Ew; apply map_length).
  unfold bop2 at 1. cbn [expand_last vec shp uop1 app]. unfold bshape at 1. cbn [rev app bshape_rev]. rewrite Lw, map_length, Nat.eqb_refl, Lk.
  destruct (Nat.eqb_spec 1 (length v)) as [X | _]; [ lia | ]. cbn [Nat.eqb rev app bind].
  unfold bop2 at 1. cbn [expand_first shp uop1]. rewrite Eg. cbn [column_of shp]. unfold bshape at 1. cbn [rev app bshape_rev].
  destruct (Nat.eqb_spec (length logk) (length v)); [ lia | ]. destruct (Nat.eqb_spec (length logk) 1); [ lia | ]. destruct (Nat.eqb_spec (length v) 1); [ lia | ]. reflexivity.
Qed.
Lemma halofit_columns k v s rest : (2 <= length v)%nat -> length v <> 257%nat -> bshape (shp (atleast1 k)) [length v; 1%nat] = Some s -> halofit_column c k v T rest = Err TypeError.
Proof.
  intros L N B. pose proof (fresh_reachable c Hc) as Hr. unfold halofit_column. destruct (linear_nd_values k (column_of v) (length v) s (or_intror eq_refl) B) as (r & -> & _). cbn [bind].
  rewrite (k_nl_eq c T Hr). cbn [bind]. rewrite atleast_squeeze. rewrite integrand_raises; [ reflexivity | exact Hr | exact L | apply map_length | | ]; rewrite linspace_node, length_tab; lia.
Qed.
(** k against a column: the table *)
Lemma table k v n : shp k = [n] -> (2 <= n)%nat -> (2 <= length v)%nat -> exists r, linear_nd c k (column_of v) T = Ok r /\ shp r = [length v; n] /\
  forall i j, (i < length v)%nat -> (j < n)%nat -> get r [i; j] = linear_matter_power c (get k [j]) (el v i) T.
Proof.
  intros E Hn Hv. assert (N1 : Nat.eqb n 1 = false) by (apply Nat.eqb_neq; lia). assert (N2 : Nat.eqb (length v) 1 = false) by (apply Nat.eqb_neq; lia).
  assert (B : bshape (shp (atleast1 k)) (shp (column_of v)) = Some [length v; n]).
  { rewrite (atleast1_id k _ _ E), E. unfold bshape. cbn [column_of shp rev app bshape_rev]. now rewrite N1. }
  destruct (linear_nd_values k (column_of v) (length v) _ (or_intror eq_refl) B) as (r & Er & H). destruct (holds_grid _ _ _ _ Hv Hn H) as [Hs G].
  exists r. split; [ exact Er | split; [ exact Hs | ]]. intros i j Hi Hj. rewrite G by assumption. unfold wave. rewrite E. unfold bidx. cbn. rewrite N1, N2. reflexivity.
Qed.
End Final.
