(** * The power spectra on arrays of any rank *)
From Coquelicot Require Import Coquelicot.
From Verif Require Import ProbesProofs AclProofs.
From Verif Require Import Np NpLemmas Core Interp Integrate Background BgSpec BgProofs BgFinal Transfer Power PowerArr PowerArrSpec PowerArrProofs.
From Verif Require Import Nd NdSpec NzArr NzArrProofs PowerNd PowerNdSpec NdBroadcast.
Opaque chi_table growth_table_ODE growth_table_gamma logspace.

Lemma assemble_nrep s k pklin knl an bn cn gamn aln ben mun nun f1 f2 f3 k' p' q' a' b' c' g' l' e' m' u' x1 x2 x3 :
  nrep s k k' -> nrep s pklin p' -> nrep s knl q' -> nrep s an a' -> nrep s bn b' -> nrep s cn c' -> nrep s gamn g' -> nrep s aln l' -> nrep s ben e' ->
  nrep s mun m' -> nrep s nun u' -> nrep s f1 x1 -> nrep s f2 x2 -> nrep s f3 x3 ->
  exists z, assemble_grid k pklin knl an bn cn gamn aln ben mun nun f1 f2 f3 = Ok z /\
    nrep s z (fun i => hf_assemble (k' i) (p' i) (q' i) (HfCoeffs (a' i) (b' i) (c' i) (g' i) (l' i) (e' i) (m' i) (u' i)) (x1 i, x2 i, x3 i)) /\
    fits (shp k) (shp z) /\ fits (shp pklin) (shp z) /\ fits (shp an) (shp z).
Proof.
  intros Rk Rp Rq Ra Rb Rc Rg Rl Re Rm Ru R1 R2 R3.
  assert (U : forall h x f, nrep s x f -> nrep s (uop1 h x) (fun i => h (f i))) by (intros; now apply nrep_uop).
  unfold assemble_grid.
  Local Ltac go := match goal with
    | U : forall h x f, nrep ?s x f -> _ |- exists z, bind (bop2 ?h ?x ?y) _ = _ /\ _ =>
        let z := fresh "z" in let R := fresh "R" in let F := fresh "F" in let G := fresh "G" in let E := fresh "E" in
        destruct (nrep_bop s h x y _ _ ltac:(repeat apply U; eassumption) ltac:(repeat apply U; eassumption)) as (z & E & R & F & G); rewrite E; cbn [bind]; clear E; cbn [uop1 shp] in F, G
    end.
  do 21 (go; cbv zeta).
  match goal with |- exists w, bop2 ?h ?x ?y = _ /\ _ => destruct (nrep_bop s h x y _ _ ltac:(repeat apply U; eassumption) ltac:(repeat apply U; eassumption)) as (wz & -> & Rw & Fw & Gw) end.
  cbn [uop1 shp] in Fw, Gw. exists wz. split; [ reflexivity | split; [ exact Rw | split; [ exact Fw | ]]].
  Local Ltac climb := first [ eassumption | match goal with F : fits ?a ?b |- fits ?a _ => refine (fits_trans _ _ _ F _); clear F; climb end ].
  split; climb.
Qed.

(** numbers and vectors of scale factors *)
Lemma width_atleast a : width a = length (atleast_1d a).
Proof. now destruct a. Qed.
Lemma epoch_el a s i : inside s i -> fits [width a] s -> epoch a i = el (atleast_1d a) (hd 0%nat (bidx [width a] i)) /\ (hd 0%nat (bidx [width a] i) < width a)%nat.
Proof.
  intros Hi F. unfold fits in F. cbn [rev app under] in F. destruct (rev s) as [ | n r] eqn:E; [ contradiction | ]. destruct F as [F _].
  assert (Es : s = rev r ++ [n]) by (rewrite <- (rev_involutive s), E; reflexivity). subst s.
  apply Forall2_app_inv_l in Hi. destruct Hi as (i1 & i2 & _ & H2 & ->). inversion H2 as [ | ? k ? ? Hk H3]; subst. inversion H3; subst.
  assert (Eb : bidx [width a] (i1 ++ [k]) = [if Nat.eqb (width a) 1 then 0%nat else k]).
  { unfold bidx. rewrite app_length. cbn [length]. replace (length i1 + 1 - 1)%nat with (length i1) by lia. rewrite skipn_app, skipn_all, Nat.sub_diag. reflexivity. }
  rewrite Eb. cbn [hd]. destruct a as [x | [ | x [ | y l]]]; cbn [width length epoch atleast_1d Nat.eqb] in *.
  - split; [ reflexivity | lia ].
  - lia.
  - split; [ reflexivity | lia ].
  - rewrite last_last. split; [ reflexivity | lia ].
Qed.
Lemma nrep_mapped s a (F : R -> R) : fits [width a] s -> nrep s (vec (map F (atleast_1d a))) (fun i => F (epoch a i)).
Proof.
  intros H. split; cbn [vec shp get]; rewrite map_length, <- width_atleast; [ exact H | ]. intros i Hi. destruct (epoch_el a s i Hi H) as [-> L]. apply el_map. now rewrite <- width_atleast.
Qed.
Lemma nrep_squeezed_list s a (F : R -> R) : fits [width a] s -> nrep s (of_like (squeeze (Array1 (map F (atleast_1d a))))) (fun i => F (epoch a i)).
Proof.
  intros H. pose proof (nrep_mapped s a F H) as M. destruct a as [x | [ | x [ | y l]]]; cbn [atleast_1d map squeeze of_like] in *; try exact M; split; try exact I; reflexivity.
Qed.
Lemma nrep_wave k s : fits (shp k) s -> nrep s k (wave k).
Proof. intros H. split; [ exact H | reflexivity ]. Qed.
Lemma nrep_wave1 k s : fits (shp (atleast1 k)) s -> nrep s (atleast1 k) (wave k).
Proof.
  intros H. split; [ exact H | ]. intros i Hi. unfold wave, atleast1. destruct (shp k) as [ | n t] eqn:E; cbn [get shp]; [ | now rewrite E ]. reflexivity.
Qed.
Lemma against_bshape k a s : against k a s <-> bshape (shp (atleast1 k)) [width a] = Some s.
Proof. unfold against, atleast1. destruct (shp k) as [ | n t] eqn:E; cbn [shp]; [ tauto | now rewrite E ]. Qed.
Lemma wave_fits k s : fits (shp (atleast1 k)) s -> fits (shp k) s.
Proof. unfold atleast1. destruct (shp k) as [ | n t] eqn:E; [ intros _; exact I | now rewrite E ]. Qed.
(** an array that covers k and has at least one axis covers atleast_1d(k) *)
Lemma fits_atleast k m v : fits (shp k) v -> fits [m] v -> fits (shp (atleast1 k)) v.
Proof.
  unfold atleast1. destruct (shp k) as [ | n t] eqn:E; cbn [shp]; [ | now rewrite E ]. unfold fits. cbn [rev app under]. destruct (rev v); tauto.
Qed.

Section Final.
Variables (c : cosmology) (T : transfer).
Hypothesis Hr : reachable c.

Lemma linear_raw k a s : against k a s -> exists x, linear_grid c k a T = Ok (squeeze_nd x) /\ shp x = s /\ nrep s x (fun i => linear_matter_power c (wave k i) (epoch a i) T).
Proof.
  intros B. apply against_bshape in B. destruct (bshape_fits _ _ _ B) as [Fk Fa]. unfold linear_grid. rewrite (growth_vals c Hr). cbn [bind].
  pose proof (nrep_wave1 k s Fk) as Rk. pose proof (nrep_mapped s a (D c) Fa) as Rg.
  destruct (nrep_bop s Rmult (uop1 (primordial_matter_power c) (atleast1 k)) (uop1 (fun x => x ^ 2) (uop1 (T c) (atleast1 k))) _ _ (nrep_uop s _ _ _ Rk) (nrep_uop s _ _ _ (nrep_uop s _ _ _ Rk))) as (p & -> & Rp & Fp & _).
  cbn [bind]. destruct (nrep_bop s Rmult p (uop1 (fun x => x ^ 2) (vec (map (D c) (atleast_1d a)))) _ _ Rp (nrep_uop s _ _ _ Rg)) as (q & -> & Rq & Fq & Gq).
  cbn [bind]. eexists. split; [ reflexivity | ]. split; [ | exact (nrep_uop s _ _ _ Rq) ]. cbn [uop1 shp] in *.
  refine (exact_shape _ _ _ _ B (fits_trans _ _ _ Fp Fq) _ (proj1 Rq)). cbn [vec shp] in Gq. rewrite map_length, <- width_atleast in Gq. exact Gq.
Qed.
Theorem linear_grid_values k a s : against k a s -> exists r, linear_grid c k a T = Ok r /\ holds_on s r (fun i => linear_matter_power c (wave k i) (epoch a i) T).
Proof. intros B. destruct (linear_raw k a s B) as (x & E & Es & R). exists (squeeze_nd x). split; [ exact E | now apply squeeze_holds ]. Qed.

(** halofit once the linear power has been computed, over any covering shape *)
Lemma halofit_raw k a s p pl P : fits (shp k) s -> fits [width a] s -> linear_grid c k (Array1 (atleast_1d a)) T = Ok pl -> nrep s pl P -> known p ->
  exists z, halofit_grid c k a T p = Ok (squeeze_nd z) /\ fits (shp k) (shp z) /\ fits (shp pl) (shp z) /\ fits [width a] (shp z) /\ fits (shp z) s /\
    exists F, nrep s z F /\ forall i, inside s i -> P i = linear_matter_power c (wave k i) (epoch a i) T -> halofit c (wave k i) (epoch a i) T p = Ok (F i).
Proof.
  intros Fk Fa El Rp Kp. unfold halofit_grid. rewrite El. cbn [bind]. rewrite (parameters_eq c T Hr). cbn [bind]. cbv zeta.
  pose proof (nrep_wave k s Fk) as Rk. pose proof (fun F => nrep_mapped s a F Fa) as M. pose proof (nrep_squeezed_list s a (fun x => k_nl c x T) Fa) as Rq.
  assert (W : forall F : R -> R, shp (vec (map F (atleast_1d a))) = [width a]) by (intros F; cbn [vec shp]; now rewrite map_length, <- width_atleast).
  destruct Kp as [-> | ->]; cbn [String.eqb Ascii.eqb Bool.eqb].
  - repeat (rewrite map2_map || rewrite map2_diag || rewrite map_map).
    match goal with |- exists z, bind (assemble_grid ?k ?pl ?knl ?an ?bn ?cn ?gamn ?aln ?ben ?mun ?nun ?f1 ?f2 ?f3) _ = _ /\ _ =>
      destruct (assemble_nrep s k pl knl an bn cn gamn aln ben mun nun f1 f2 f3 _ _ _ _ _ _ _ _ _ _ _ _ _ _ Rk Rp Rq (M _) (M _) (M _) (M _) (M _) (M _) (M _) (M _) (M _) (M _) (M _)) as (z & -> & Rz & Hk & Hp & Ha) end.
    cbn [bind]. exists z. rewrite W in Ha. split; [ reflexivity | ]. split; [ exact Hk | split; [ exact Hp | split; [ exact Ha | split; [ exact (proj1 Rz) | ]]]].
    eexists. split; [ exact Rz | ]. intros i Hi E. cbv beta. rewrite E. reflexivity.
  - repeat (rewrite combine_map || rewrite map2_map || rewrite map2_diag || rewrite map_map).
    match goal with |- exists z, bind (assemble_grid ?k ?pl ?knl ?an ?bn ?cn ?gamn ?aln ?ben ?mun ?nun ?f1 ?f2 ?f3) _ = _ /\ _ =>
      destruct (assemble_nrep s k pl knl an bn cn gamn aln ben mun nun f1 f2 f3 _ _ _ _ _ _ _ _ _ _ _ _ _ _ Rk Rp Rq (M _) (M _) (M _) (M _) (M _) (M _) (nrep_num s 0.0) (M _) (M _) (M _) (M _)) as (z & -> & Rz & Hk & Hp & Ha) end.
    cbn [bind]. exists z. rewrite W in Ha. split; [ reflexivity | ]. split; [ exact Hk | split; [ exact Hp | split; [ exact Ha | split; [ exact (proj1 Rz) | ]]]].
    eexists. split; [ exact Rz | ]. intros i Hi E. cbv beta. rewrite E. reflexivity.
Qed.
Lemma linear_atleast k a : linear_grid c k (Array1 (atleast_1d a)) T = linear_grid c k a T.
Proof. now destruct a. Qed.

Theorem halofit_grid_values k a s p : against k a s -> units_first s -> known p ->
  exists v, (forall i, inside s i -> halofit c (wave k i) (epoch a i) T p = Ok (v i)) /\ exists r, halofit_grid c k a T p = Ok r /\ holds_on s r v.
Proof.
  intros B Us Kp. destruct (linear_raw k a s B) as (x & El & Es & Rx). pose proof (proj1 (against_bshape _ _ _) B) as B'. destruct (bshape_fits _ _ _ B') as [Fk Fa].
  rewrite <- linear_atleast in El. destruct (halofit_raw k a s p _ _ (wave_fits _ _ Fk) Fa El (nrep_squeezed s x _ Us Es Rx) Kp) as (z & E & Hk & _ & Ha & Hz & F & RF & HF).
  exists F. split; [ intros i Hi; now apply HF | ]. exists (squeeze_nd z). split; [ exact E | ]. apply squeeze_holds; [ | exact RF ].
  exact (exact_shape _ _ _ _ B' (fits_atleast _ _ _ Hk Ha) Ha Hz).
Qed.

Lemma holds_grid n m r f : (2 <= n)%nat -> (2 <= m)%nat -> holds_on [n; m] r f -> shp r = [n; m] /\ forall i j, (i < n)%nat -> (j < m)%nat -> get r [i; j] = f [i; j].
Proof.
  intros Hn Hm [Es H]. cbn [filter without_units] in *. assert (N1 : Nat.eqb n 1 = false) by (apply Nat.eqb_neq; lia). assert (N2 : Nat.eqb m 1 = false) by (apply Nat.eqb_neq; lia).
  rewrite N1, N2 in Es. split; [ exact Es | ]. intros i j Hi Hj. rewrite <- (H [i; j]); [ cbn [without_units]; now rewrite N1, N2 | ]. repeat constructor; assumption.
Qed.
Lemma column_against k n l : shp k = [n; 1%nat] -> (2 <= length l)%nat -> against k (Array1 l) [n; length l].
Proof.
  intros E L. apply against_bshape. unfold atleast1. rewrite E, E. unfold bshape. cbn [rev app bshape_rev width].
  destruct (Nat.eqb_spec 1 (length l)); [ lia | ]. reflexivity.
Qed.
Lemma column_wave k n i j : shp k = [n; 1%nat] -> (i < n)%nat -> wave k [i; j] = get k [i; 0%nat].
Proof. intros E Hi. unfold wave. rewrite E. unfold bidx. cbn. destruct (Nat.eqb_spec n 1); [ | reflexivity ]. now replace i with 0%nat by lia. Qed.
Lemma epoch_two l i j : (2 <= length l)%nat -> epoch (Array1 l) [i; j] = el l j.
Proof. intros L. destruct l as [ | x [ | y l]]; cbn [length] in L; try lia. reflexivity. Qed.

Theorem grid k l n p : shp k = [n; 1%nat] -> (2 <= n)%nat -> (2 <= length l)%nat -> known p ->
  exists u v, linear_grid c k (Array1 l) T = Ok u /\ halofit_grid c k (Array1 l) T p = Ok v /\ shp u = [n; length l] /\ shp v = [n; length l] /\
    forall i j, (i < n)%nat -> (j < length l)%nat ->
      get u [i; j] = linear_matter_power c (get k [i; 0%nat]) (el l j) T /\ halofit c (get k [i; 0%nat]) (el l j) T p = Ok (get v [i; j]).
Proof.
  intros E Hn L Kp. pose proof (column_against k n l E L) as B. destruct (linear_grid_values k _ _ B) as (u & Eu & Hu).
  assert (Us : units_first [n; length l]) by (exists 0%nat, [n; length l]; split; [ reflexivity | simpl; lia ]).
  destruct (halofit_grid_values k _ _ p B Us Kp) as (f & Hf & v & Ev & Hv).
  destruct (holds_grid _ _ _ _ Hn L Hu) as [Su Gu]. destruct (holds_grid _ _ _ _ Hn L Hv) as [Sv Gv].
  exists u, v. repeat (split; [ assumption | ]). intros i j Hi Hj. rewrite Gu, Gv by assumption.
  rewrite <- (Hf [i; j]) by (repeat constructor; assumption). rewrite (column_wave k n i j E Hi), epoch_two by exact L. split; reflexivity.
Qed.

(** a column of wavenumbers at one scale factor *)
Theorem column k x n p : shp k = [n; 1%nat] -> (2 <= n)%nat -> known p ->
  exists u v, linear_grid c k (Scalar x) T = Ok u /\ halofit_grid c k (Scalar x) T p = Ok v /\ shp u = [n] /\ shp v = [n; n] /\
    forall i, (i < n)%nat -> get u [i] = linear_matter_power c (get k [i; 0%nat]) x T /\ halofit c (get k [i; 0%nat]) x T p = Ok (get v [i; i]).
Proof.
  intros E Hn Kp. assert (N : Nat.eqb n 1 = false) by (apply Nat.eqb_neq; lia).
  assert (B : against k (Scalar x) [n; 1%nat]) by (apply against_bshape; unfold atleast1; rewrite E, E; reflexivity).
  destruct (linear_grid_values k _ _ B) as (u & Eu & Su & Gu).
  assert (Su' : shp u = [n]) by (rewrite Su; cbn [filter]; rewrite N; reflexivity).
  assert (Gu' : forall i, (i < n)%nat -> get u [i] = linear_matter_power c (get k [i; 0%nat]) x T).
  { intros i Hi. specialize (Gu [i; 0%nat] ltac:(repeat constructor; lia)). cbn [without_units] in Gu. rewrite N in Gu. cbn [Nat.eqb] in Gu. rewrite Gu. rewrite (column_wave k n i 0 E Hi). reflexivity. }
  assert (Fk : fits (shp k) [n; n]) by (rewrite E; unfold fits; simpl; tauto). assert (Fa : fits [width (Scalar x)] [n; n]) by (unfold fits; simpl; tauto).
  assert (Ru : nrep [n; n] u (fun i => linear_matter_power c (get k [nth 1 i 0%nat; 0%nat]) x T)).
  { split; [ rewrite Su'; unfold fits; simpl; tauto | ]. intros i Hi. inversion Hi as [ | ? i0 ? i' H0 Hi']; subst. inversion Hi' as [ | ? i1 ? i'' H1 Hi'']; subst. inversion Hi''; subst.
    rewrite Su'. unfold bidx. cbn. rewrite N. now apply Gu'. }
  pose proof Eu as Eu'. rewrite <- linear_atleast in Eu'. destruct (halofit_raw k (Scalar x) [n; n] p u _ Fk Fa Eu' Ru Kp) as (z & Ez & Hk & Hp & _ & Hz & F & RF & HF).
  assert (Sz : shp z = [n; n]).
  { refine (exact_shape _ _ _ _ _ Hk Hp Hz). rewrite E, Su'. unfold bshape. cbn [rev app bshape_rev]. rewrite Nat.eqb_sym, N. reflexivity. }
  destruct (holds_grid n n _ _ Hn Hn (squeeze_holds _ z F Sz RF)) as [Sv Gv].
  exists u, (squeeze_nd z). repeat (split; [ assumption | ]). intros i Hi. split; [ now apply Gu' | ]. rewrite Gv by assumption.
  rewrite <- (column_wave k n i i E Hi). apply (HF [i; i]); [ repeat constructor; assumption | ]. cbn [nth epoch]. now rewrite (column_wave k n i i E Hi).
Qed.
Theorem mismatch k a p : bshape (shp (atleast1 k)) [width a] = None -> linear_grid c k a T = Err TypeError /\ halofit_grid c k a T p = Err TypeError.
Proof.
  intros B. assert (L : linear_grid c k a T = Err TypeError).
  { unfold linear_grid. rewrite (growth_vals c Hr). cbn [bind]. unfold bop2 at 1. cbn [uop1 shp].
    assert (Sf : bshape (shp (atleast1 k)) (shp (atleast1 k)) = Some (shp (atleast1 k))).
    { unfold bshape. assert (G : forall t, bshape_rev t t = Some t). { induction t as [ | m t IH]; [ reflexivity | ]. cbn [bshape_rev]. now rewrite IH, Nat.eqb_refl. } now rewrite G, rev_involutive. }
    rewrite Sf. cbn [bind]. unfold bop2. cbn [uop1 shp vec]. now rewrite map_length, <- width_atleast, B. }
  split; [ exact L | ]. unfold halofit_grid. rewrite linear_atleast, L. reflexivity.
Qed.
End Final.
