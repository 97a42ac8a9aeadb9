(** * The power spectra on arrays are the pointwise power spectra *)
From Coquelicot Require Import Coquelicot.
From Verif Require Import ProbesProofs AclProofs.
From Verif Require Import Np NpLemmas Core Interp Integrate IntegrateSpec SimpsProofs Background BgSpec BgTables BgProofs BgFinal BgFinal2 Transfer Power PowerArr PowerArrSpec.
Opaque chi_table growth_table_ODE growth_table_gamma logspace.

(** x stands for the n values f *)
Definition rep (n : nat) (x : array_like) (f : nat -> R) : Prop := (size x = n \/ size x = 1%nat) /\ forall i, (i < n)%nat -> elem x i = f i.

Lemma rep_elem n x : size x = n \/ size x = 1%nat -> rep n x (elem x).
Proof. intros H. split; [ exact H | reflexivity ]. Qed.
Lemma rep_ext n x f g : (forall i, (i < n)%nat -> f i = g i) -> rep n x f -> rep n x g.
Proof. intros E [H H']. split; [ exact H | ]. intros i Hi. rewrite H' by exact Hi. now apply E. Qed.
Lemma rep_array n l f : length l = n -> (0 < n)%nat -> (forall i, (i < n)%nat -> el l i = f i) -> rep n (Array1 l) f.
Proof.
  intros L Hn H. split; [ now left | ]. intros i Hi. unfold elem. destruct (Nat.eqb_spec (length l) 1) as [E | E]; [ | now apply H ].
  assert (i = 0%nat) by lia. subst i. now apply H.
Qed.
Lemma rep_one n l f : length l = 1%nat -> (forall i, (i < n)%nat -> el l 0 = f i) -> rep n (Array1 l) f.
Proof. intros L H. split; [ now right | ]. intros i Hi. unfold elem. rewrite L. simpl. now apply H. Qed.
Lemma rep_scalar n v f : (forall i, (i < n)%nat -> v = f i) -> rep n (Scalar v) f.
Proof. intros H. split; [ now right | ]. intros i Hi. simpl. now apply H. Qed.

Lemma el_map (f : R -> R) l i : (i < length l)%nat -> el (map f l) i = f (el l i).
Proof. intros H. unfold el. now apply nth_map_lt. Qed.
Lemma el_map2 (f : R -> R -> R) l m i : (i < length l)%nat -> (i < length m)%nat -> el (map2 f l m) i = f (el l i) (el m i).
Proof. intros H H'. unfold el. now apply nth_map2. Qed.

Lemma size_uop h x : size (uop h x) = size x.
Proof. destruct x; simpl; [ reflexivity | apply map_length ]. Qed.
Lemma rep_uop n h x f : (0 < n)%nat -> rep n x f -> rep n (uop h x) (fun i => h (f i)).
Proof.
  intros Hn [S H]. split; [ now rewrite size_uop | ]. intros i Hi. rewrite <- H by exact Hi. destruct x as [v | l]; [ reflexivity | ].
  simpl. rewrite map_length. apply el_map. simpl in S. destruct (Nat.eqb_spec (length l) 1); lia.
Qed.
Lemma rep_bop n h x y f g : (0 < n)%nat -> rep n x f -> rep n y g ->
  exists z, bop h x y = Ok z /\ rep n z (fun i => h (f i) (g i)) /\ (size x = n \/ size y = n -> size z = n).
Proof.
  intros Hn [Sx Hx] [Sy Hy]. destruct x as [u | l]; destruct y as [v | m]; simpl in *.
  - eexists. split; [ reflexivity | ]. split; [ | simpl; tauto ]. apply rep_scalar. intros i Hi. now rewrite <- Hx, <- Hy.
  - eexists. split; [ reflexivity | ]. split; [ | simpl; rewrite map_length; destruct Sy; tauto || lia ].
    split; [ simpl; rewrite map_length; exact Sy | ]. intros i Hi. rewrite <- Hx, <- Hy by exact Hi. simpl. rewrite map_length. apply el_map.
    destruct (Nat.eqb_spec (length m) 1); lia.
  - eexists. split; [ reflexivity | ]. split; [ | simpl; rewrite map_length; destruct Sx; tauto || lia ].
    split; [ simpl; rewrite map_length; exact Sx | ]. intros i Hi. rewrite <- Hx, <- Hy by exact Hi. simpl. rewrite map_length. rewrite el_map; [ reflexivity | ].
    destruct (Nat.eqb_spec (length l) 1); lia.
  - destruct (Nat.eqb_spec (length l) (length m)) as [E | E].
    { eexists. split; [ reflexivity | ]. split; [ | simpl; rewrite length_map2; lia ].
      split; [ simpl; rewrite length_map2; lia | ]. intros i Hi. rewrite <- Hx, <- Hy by exact Hi. simpl. rewrite length_map2. rewrite <- E, Nat.min_id.
      apply el_map2; destruct (Nat.eqb_spec (length l) 1); lia. }
    destruct (Nat.eqb_spec (length l) 1) as [E1 | E1].
    { eexists. split; [ reflexivity | ]. split; [ | simpl; rewrite map_length; lia ].
      split; [ simpl; rewrite map_length; exact Sy | ]. intros i Hi. rewrite <- Hx, <- Hy by exact Hi. simpl. rewrite map_length.
      destruct (Nat.eqb_spec (length m) 1); [ lia | ]. apply el_map. lia. }
    destruct (Nat.eqb_spec (length m) 1) as [E2 | E2]; [ | lia ].
    eexists. split; [ reflexivity | ]. split; [ | simpl; rewrite map_length; lia ].
    split; [ simpl; rewrite map_length; exact Sx | ]. intros i Hi. rewrite <- Hx, <- Hy by exact Hi. simpl. rewrite map_length.
    destruct (Nat.eqb_spec (length l) 1); [ lia | ]. rewrite el_map by lia. reflexivity.
Qed.
Lemma rep_squeeze n x f : (0 < n)%nat -> rep n x f -> size x = n -> squeeze x = values n f.
Proof.
  intros Hn [_ H] E. unfold values. destruct x as [v | l].
  - simpl in E. subst n. simpl. f_equal. apply (H 0%nat). lia.
  - simpl in E. destruct (Nat.eqb_spec n 1) as [N | N].
    + destruct l as [ | v [ | w l ]]; simpl in E; try lia. simpl. f_equal. apply (H 0%nat). lia.
    + simpl squeeze. replace (match l with [v] => Scalar v | _ => Array1 l end) with (Array1 l) by (destruct l as [ | v [ | w l ]]; simpl in *; try reflexivity; lia).
      f_equal. apply nth_ext with (d := 0) (d' := 0); [ now rewrite length_tab | ]. intros i Hi. rewrite nth_tab by lia. rewrite <- (H i) by lia.
      simpl. destruct (Nat.eqb_spec (length l) 1); [ lia | reflexivity ].
Qed.
Lemma squeeze_size x : size (squeeze x) = size x.
Proof. destruct x as [v | [ | v [ | w l ]]]; reflexivity. Qed.
Lemma rep_squeezed n x f : (0 < n)%nat -> rep n x f -> rep n (squeeze x) f.
Proof.
  intros Hn [S H]. split; [ now rewrite squeeze_size | ]. intros i Hi. rewrite <- H by exact Hi. destruct x as [v | [ | v [ | w l ]]]; reflexivity.
Qed.
Lemma rep_values n f : (0 < n)%nat -> rep n (values n f) f /\ size (values n f) = n.
Proof.
  intros Hn. unfold values. destruct (Nat.eqb_spec n 1) as [-> | N].
  - split; [ | reflexivity ]. apply rep_scalar. intros i Hi. now replace i with 0%nat by lia.
  - split; [ | simpl; apply length_tab ]. apply rep_array; [ apply length_tab | exact Hn | ]. intros i Hi. unfold el. now apply nth_tab.
Qed.
Lemma rep_atleast n x f : (0 < n)%nat -> rep n x f -> rep n (Array1 (atleast_1d x)) f /\ size (Array1 (atleast_1d x)) = size x.
Proof.
  intros Hn [S H]. destruct x as [v | l]; [ | split; [ split; assumption | reflexivity ]]. simpl. split; [ | reflexivity ].
  apply rep_one; [ reflexivity | ]. intros i Hi. now rewrite <- H.
Qed.
Lemma broadcasts_rep k a n : broadcasts k a n -> (0 < n)%nat /\ rep n k (elem k) /\ rep n a (elem a) /\ (size k = n \/ size a = n).
Proof. intros [Hn H]. repeat split; try (now apply rep_elem; intuition); intuition. Qed.

Section Arr.
Variables (c : cosmology) (T : transfer).
Hypothesis Hr : reachable c.

Lemma growth_vals a : growth_values c a = Ok (map (D c) a).
Proof. now apply growth_map. Qed.

Lemma linear_rep n k a f g : (0 < n)%nat -> rep n k f -> rep n a g -> size k = n \/ size a = n ->
  linear_matter_power_nd c k a T = Ok (values n (fun i => linear_matter_power c (f i) (g i) T)).
Proof.
  intros Hn Rk Ra S. unfold linear_matter_power_nd. rewrite growth_vals. cbn [bind].
  destruct (rep_atleast n k f Hn Rk) as [Rk' Sk]. destruct (rep_atleast n a g Hn Ra) as [Ra' Sa].
  set (k' := Array1 (atleast_1d k)) in *.
  pose proof (rep_uop n (D c) _ g Hn Ra') as Rg. change (uop (D c) (Array1 (atleast_1d a))) with (Array1 (map (D c) (atleast_1d a))) in Rg.
  destruct (rep_bop n Rmult (uop (primordial_matter_power c) k') (uop (fun x => x ^ 2) (uop (T c) k')) _ _ Hn (rep_uop n _ _ _ Hn Rk') (rep_uop n _ _ _ Hn (rep_uop n _ _ _ Hn Rk'))) as (p & -> & Rp & Sp).
  cbn [bind]. destruct (rep_bop n Rmult p (uop (fun x => x ^ 2) (Array1 (map (D c) (atleast_1d a)))) _ _ Hn Rp (rep_uop n _ _ _ Hn Rg)) as (q & -> & Rq & Sq).
  cbn [bind]. f_equal. apply rep_squeeze; [ exact Hn | exact (rep_uop n _ _ _ Hn Rq) | ]. rewrite size_uop. apply Sq.
  destruct S as [S | S]; [ left; apply Sp; left; rewrite size_uop; lia | right; rewrite size_uop; simpl in *; rewrite map_length; lia ].
Qed.

Lemma simps_rows_at {X} (ord : list X) (g : X -> R -> R) f a b N : Nat.even N = true -> (2 <= N)%nat ->
  f (linspace a b (N + 1)) = Ok (map (fun t => map (fun q => g q t) ord) (linspace a b (N + 1))) ->
  simps_rows (length ord) f a b N = Ok (map (fun q => simpson (g q) a b N) ord).
Proof.
  intros HE HN H. rewrite <- (simps_rows_eq ord g (fun x => Ok (map (fun t => map (fun q => g q t) ord) x)) a b N HE HN (fun x => eq_refl)).
  unfold simps_rows. now rewrite H.
Qed.
Lemma simps_val f a b N : Nat.even N = true -> (2 <= N)%nat -> simps_value f a b N = simpson f a b N.
Proof. intros HE HN. unfold simps_value. now rewrite simps_eq. Qed.

Lemma pk_nodes logk : (2 <= length logk)%nat ->
  exists v, bind (linear_matter_power_nd c (Array1 (map exp logk)) (Scalar 1.0) T) (fun pk => bop Rmult pk (Array1 (map (fun x => x ^ 3) (map exp logk)))) = Ok (Array1 v) /\
    v = map (fun t => linear_matter_power c (exp t) 1.0 T * exp t ^ 3) logk.
Proof.
  intros L. set (n := length logk) in *. assert (Hn : (0 < n)%nat) by lia.
  assert (Rk : rep n (Array1 (map exp logk)) (fun i => exp (el logk i))).
  { apply rep_array; [ now rewrite map_length | exact Hn | ]. intros i Hi. now apply el_map. }
  rewrite (linear_rep n _ _ (fun i => exp (el logk i)) (fun _ => 1.0) Hn Rk); [ | now apply rep_scalar | left; simpl; now rewrite map_length ].
  cbn [bind]. destruct (rep_values n (fun i => linear_matter_power c (exp (el logk i)) 1.0 T) Hn) as [Rv Sv].
  pose proof (rep_uop n (fun x => x ^ 3) _ _ Hn Rk) as R3.
  destruct (rep_bop n Rmult _ _ _ _ Hn Rv R3) as (z & E & Rz & Sz). specialize (Sz (or_introl Sv)).
  change (uop (fun x => x ^ 3) (Array1 (map exp logk))) with (Array1 (map (fun x => x ^ 3) (map exp logk))) in E.
  destruct z as [v | v]; [ simpl in Sz; lia | ]. exists v. split; [ exact E | ].
  apply nth_ext with (d := 0) (d' := 0); [ simpl in Sz; now rewrite map_length | ]. intros i Hi. simpl in Sz.
  destruct Rz as [_ Rz]. specialize (Rz i ltac:(lia)). simpl in Rz. destruct (Nat.eqb_spec (length v) 1); [ lia | ].
  change (nth i v 0) with (el v i). rewrite Rz. symmetry. change (el (map (fun t => linear_matter_power c (exp t) 1.0 T * exp t ^ 3) logk) i = linear_matter_power c (exp (el logk i)) 1.0 T * exp (el logk i) ^ 3). now rewrite el_map by lia.
Qed.
Lemma bind_assoc {A B C} (x : res A) (f : A -> res B) (g : B -> res C) : bind (bind x f) g = bind x (fun y => bind (f y) g).
Proof. destruct x; reflexivity. Qed.

Lemma sigma_rows a logk : (2 <= length logk)%nat ->
  hf_int_sigma_rows c a T logk = Ok (map (fun t => map (fun lr => hf_int_sigma c a T (exp lr) t) hf_logr) logk).
Proof.
  intros L. unfold hf_int_sigma_rows. destruct (pk_nodes logk L) as (v & E & Ev).
  destruct (linear_matter_power_nd c (Array1 (map exp logk)) (Scalar 1.0) T) as [pk | e]; [ | discriminate ]. cbn [bind] in E |- *.
  rewrite growth_vals. cbn [bind]. rewrite E. cbn [bind]. f_equal. rewrite Ev. rewrite map2_map, map2_diag. apply map_ext. intros t.
  rewrite map_map. apply map_ext. intros lr. reflexivity.
Qed.
Lemma R_nl_arr_eq a : R_nl_arr c T a = Ok (R_nl c a T).
Proof.
  unfold R_nl_arr. rewrite (simps_rows_at hf_logr (fun lr t => hf_int_sigma c a T (exp lr) t)); [ | reflexivity | lia | ].
  2:{ apply sigma_rows. rewrite linspace_node, length_tab. lia. }
  cbn [bind]. unfold interp. cbn [bind map]. unfold R_nl.
  replace (map (fun q => simpson (fun t => hf_int_sigma c a T (exp q) t) (ln 1e-4) (ln 1e4) 256) hf_logr) with (hf_sigma c a T); [ reflexivity | ].
  unfold hf_sigma. apply map_ext. intros lr. apply simps_val; [ reflexivity | lia ].
Qed.
Lemma map_res_map {A B} (f : A -> res B) (g : A -> B) l : (forall x, f x = Ok (g x)) -> map_res f l = Ok (map g l).
Proof. intros H. induction l as [ | x l IH ]; simpl; [ reflexivity | ]. rewrite H. cbn [bind]. rewrite IH. reflexivity. Qed.
Lemma k_nl_eq a : k_nl_nd c a T = Ok (squeeze (Array1 (map (fun x => k_nl c x T) a))).
Proof.
  unfold k_nl_nd. rewrite (map_res_map _ (fun x => R_nl c x T)) by apply R_nl_arr_eq. cbn [bind]. f_equal.
  destruct a as [ | x [ | y a ]]; [ reflexivity | reflexivity | ]. simpl. unfold k_nl. now rewrite map_map.
Qed.
Lemma atleast_squeeze l : atleast_1d (squeeze (Array1 l)) = l.
Proof. destruct l as [ | x [ | y l ]]; reflexivity. Qed.

Definition both (a : list R) : list (bool * R) := map (pair false) a ++ map (pair true) a.
Definition hf_d (q : bool * R) (t : R) : R := if fst q then hf_dC c (snd q) T t else hf_dneff c (snd q) T t.
Lemma integrand_rows a logk : (2 <= length logk)%nat ->
  hf_integrand_rows c a (map (fun x => k_nl c x T) a) T logk = Ok (map (fun t => map (fun q => hf_d q t) (both a)) logk).
Proof.
  intros L. unfold hf_integrand_rows. destruct (pk_nodes logk L) as (v & E & Ev).
  destruct (linear_matter_power_nd c (Array1 (map exp logk)) (Scalar 1.0) T) as [pk | e]; [ | discriminate ]. cbn [bind] in E |- *.
  rewrite growth_vals. cbn [bind]. rewrite E. cbn [bind]. f_equal. rewrite Ev. rewrite map2_map, map2_diag. apply map_ext. intros t.
  cbv zeta. rewrite map_map. rewrite map2_map, map2_diag. rewrite !map2_map, !map2_diag. unfold both. rewrite map_app, !map_map. reflexivity.
Qed.
Lemma parameters_eq a : halofit_parameters_nd c a T =
  Ok (squeeze (Array1 (map (fun x => k_nl c x T) a)), map (fun x => snd (fst (halofit_parameters c x T))) a, map (fun x => snd (halofit_parameters c x T)) a).
Proof.
  unfold halofit_parameters_nd. rewrite k_nl_eq. cbn [bind]. rewrite atleast_squeeze.
  replace (2 * length a)%nat with (length (both a)) by (unfold both; rewrite app_length, !map_length; lia).
  rewrite (simps_rows_at (both a) hf_d); [ | reflexivity | lia | ].
  2:{ apply integrand_rows. rewrite linspace_node, length_tab. lia. }
  cbn [bind]. unfold both. rewrite map_app, !map_map.
  rewrite firstn_app, skipn_app, !map_length, Nat.sub_diag. cbn [firstn skipn]. rewrite app_nil_r.
  rewrite firstn_all2 by (rewrite map_length; lia). rewrite skipn_all2 by (rewrite map_length; lia). cbn [app].
  rewrite map_map, map2_map, map2_diag. unfold halofit_parameters, hf_d. cbn [fst snd]. do 2 f_equal; [ f_equal | ]; apply map_ext; intros x; now rewrite !simps_val by (reflexivity || lia).
Qed.
End Arr.

Lemma assemble_rep n k pklin knl an bn cn gamn aln ben mun nun f1 f2 f3 k' p' q' a' b' c' g' l' e' m' u' x1 x2 x3 : (0 < n)%nat ->
  rep n k k' -> rep n pklin p' -> rep n knl q' -> rep n an a' -> rep n bn b' -> rep n cn c' -> rep n gamn g' -> rep n aln l' -> rep n ben e' ->
  rep n mun m' -> rep n nun u' -> rep n f1 x1 -> rep n f2 x2 -> rep n f3 x3 -> size k = n \/ size an = n ->
  exists z, assemble_nd k pklin knl an bn cn gamn aln ben mun nun f1 f2 f3 = Ok z /\
    rep n z (fun i => hf_assemble (k' i) (p' i) (q' i) (HfCoeffs (a' i) (b' i) (c' i) (g' i) (l' i) (e' i) (m' i) (u' i)) (x1 i, x2 i, x3 i)) /\ size z = n.
Proof.
  intros Hn Rk Rp Rq Ra Rb Rc Rg Rl Re Rm Ru R1 R2 R3 S.
  assert (U : forall h x f, rep n x f -> rep n (uop h x) (fun i => h (f i))) by (intros; now apply rep_uop).
  unfold assemble_nd.
  Local Ltac go := match goal with
    | U : forall h x f, rep ?n x f -> _, Hn : (0 < ?n)%nat |- exists z, bind (bop ?h ?x ?y) _ = _ /\ _ =>
        let z := fresh "z" in let R := fresh "R" in let SS := fresh "SS" in let E := fresh "E" in
        destruct (rep_bop n h x y _ _ Hn ltac:(repeat apply U; eassumption) ltac:(repeat apply U; eassumption)) as (z & E & R & SS); rewrite E; cbn [bind]; clear E
    end.
  do 21 (go; cbv zeta).
  match goal with |- exists w, bop ?h ?x ?y = _ /\ _ => destruct (rep_bop n h x y _ _ Hn ltac:(repeat apply U; eassumption) ltac:(repeat apply U; eassumption)) as (wz & -> & Rw & Sw) end.
  exists wz. split; [ reflexivity | split; [ exact Rw | ]].
  rewrite ?size_uop in *. destruct S as [S | S]; [ apply Sw; now left | ]. apply Sw. right. intuition.
Qed.

(** lists obtained from the list of scale factors *)
Lemma rep_mapped n al (F : R -> R) : (0 < n)%nat -> length al = n \/ length al = 1%nat -> rep n (Array1 (map F al)) (fun i => F (elem (Array1 al) i)).
Proof. intros Hn L. exact (rep_uop n F (Array1 al) _ Hn (rep_elem n (Array1 al) L)). Qed.
Lemma map2_combine {A B C X} (F : B * C -> X) (f : A -> B) (g : A -> C) l : map F (combine (map f l) (map g l)) = map (fun x => F (f x, g x)) l.
Proof. induction l as [ | x l IH ]; [ reflexivity | ]. simpl. now rewrite IH. Qed.
Lemma combine_map {A B C} (f : A -> B) (g : A -> C) l : combine (map f l) (map g l) = map (fun x => (f x, g x)) l.
Proof. induction l as [ | x l IH ]; [ reflexivity | ]. simpl. now rewrite IH. Qed.

Section Final.
Variables (c : cosmology) (T : transfer).
Hypothesis Hr : reachable c.

Definition hf_val (p : string) (k a : R) : R := match halofit c k a T p with Ok v => v | Err _ => 0 end.

Theorem halofit_arr k a n p : broadcasts k a n -> known p ->
  exists v, (forall i, (i < n)%nat -> halofit c (elem k i) (elem a i) T p = Ok (v i)) /\ halofit_nd c k a T p = Ok (values n v).
Proof.
  intros B Kp. exists (fun i => hf_val p (elem k i) (elem a i)). split.
  { intros i Hi. unfold hf_val, halofit. destruct (halofit_parameters c (elem a i) T) as [[? ?] ?]. destruct Kp as [-> | ->]; reflexivity. }
  destruct (broadcasts_rep k a n B) as (Hn & Rk & Ra & S).
  unfold halofit_nd. set (al := atleast_1d a).
  assert (Ea : forall i, elem (Array1 al) i = elem a i) by (intros i; unfold al; destruct a; reflexivity).
  assert (Sa : size (Array1 al) = size a) by (unfold al; destruct a; reflexivity).
  assert (La : length al = n \/ length al = 1%nat). { change (length al) with (size (Array1 al)). rewrite Sa. exact (proj1 Ra). }
  assert (Ra' : rep n (Array1 al) (elem a)). { split; [ exact La | ]. intros i _. apply Ea. }
  rewrite (linear_rep c T Hr n k (Array1 al) _ _ Hn Rk Ra') by (rewrite Sa; exact S).
  cbn [bind]. rewrite (parameters_eq c T Hr al). cbn [bind]. cbv zeta.
  destruct (rep_values n (fun i => linear_matter_power c (elem k i) (elem a i) T) Hn) as [Rp _].
  assert (M : forall F : R -> R, rep n (Array1 (map F al)) (fun i => F (elem a i))).
  { intros F. refine (rep_ext n _ _ _ _ (rep_mapped n al F Hn La)). intros i _. cbn beta. now rewrite Ea. }
  assert (Rq : rep n (squeeze (Array1 (map (fun x => k_nl c x T) al))) (fun i => k_nl c (elem a i) T)) by (apply rep_squeezed; [ exact Hn | apply M ]).
  assert (Sz : forall F : R -> R, size k = n \/ size (Array1 (map F al)) = n).
  { intros F. simpl. rewrite map_length. change (length al) with (size (Array1 al)). rewrite Sa. exact S. }
  destruct Kp as [-> | ->]; cbn [String.eqb Ascii.eqb Bool.eqb].
  - repeat (rewrite map2_map || rewrite map2_diag || rewrite map_map).
    match goal with |- bind (assemble_nd ?k ?pl ?knl ?an ?bn ?cn ?gamn ?aln ?ben ?mun ?nun ?f1 ?f2 ?f3) _ = _ =>
      destruct (assemble_rep n k pl knl an bn cn gamn aln ben mun nun f1 f2 f3 _ _ _ _ _ _ _ _ _ _ _ _ _ _ Hn Rk Rp Rq (M _) (M _) (M _) (M _) (M _) (M _) (M _) (M _) (M _) (M _) (M _) (Sz _)) as (z & -> & Rz & Hz) end.
    cbn [bind]. f_equal. apply rep_squeeze; [ exact Hn | | exact Hz ]. refine (rep_ext n _ _ _ _ Rz). intros i Hi. reflexivity.
  - repeat (rewrite combine_map || rewrite map2_map || rewrite map2_diag || rewrite map_map).
    match goal with |- bind (assemble_nd ?k ?pl ?knl ?an ?bn ?cn ?gamn ?aln ?ben ?mun ?nun ?f1 ?f2 ?f3) _ = _ =>
      destruct (assemble_rep n k pl knl an bn cn gamn aln ben mun nun f1 f2 f3 _ _ _ _ _ _ _ _ _ _ _ _ _ _ Hn Rk Rp Rq (M _) (M _) (M _) (M _) (M _) (M _) (rep_scalar n 0.0 (fun _ => 0.0) (fun _ _ => eq_refl)) (M _) (M _) (M _) (M _) (Sz _)) as (z & -> & Rz & Hz) end.
    cbn [bind]. f_equal. apply rep_squeeze; [ exact Hn | | exact Hz ]. refine (rep_ext n _ _ _ _ Rz). intros i Hi. reflexivity.
Qed.
End Final.

Section Errors.
Variables (c : cosmology) (T : transfer).
Hypothesis Hr : reachable c.

Lemma linear_mismatch l m : length l <> length m -> length l <> 1%nat -> length m <> 1%nat ->
  linear_matter_power_nd c (Array1 l) (Array1 m) T = Err TypeError.
Proof.
  intros H Hl Hm. unfold linear_matter_power_nd. cbn [atleast_1d]. rewrite (growth_vals c Hr). cbn [bind uop bop]. rewrite !map_length, Nat.eqb_refl. cbn [bind bop].
  rewrite length_map2, !map_length, Nat.min_id. apply Nat.eqb_neq in H, Hl, Hm. now rewrite H, Hl, Hm.
Qed.
Lemma halofit_mismatch l m p : length l <> length m -> length l <> 1%nat -> length m <> 1%nat ->
  halofit_nd c (Array1 l) (Array1 m) T p = Err TypeError.
Proof. intros. unfold halofit_nd. cbn [atleast_1d]. now rewrite linear_mismatch. Qed.
Lemma halofit_unknown k a n p : broadcasts k a n -> p <> "smith2003"%string -> p <> "takahashi2012"%string ->
  halofit_nd c k a T p = Err NotImplementedError.
Proof.
  intros B N1 N2. destruct (broadcasts_rep k a n B) as (Hn & Rk & Ra & S). unfold halofit_nd. destruct (rep_atleast n a _ Hn Ra) as [Ra' Sa].
  rewrite (linear_rep c T Hr n k (Array1 (atleast_1d a)) _ _ Hn Rk Ra') by (rewrite Sa; exact S).
  cbn [bind]. rewrite (parameters_eq c T Hr). cbn [bind]. cbv zeta. apply String.eqb_neq in N1, N2. now rewrite N1, N2.
Qed.
Lemma linear_arr k a n : broadcasts k a n ->
  linear_matter_power_nd c k a T = Ok (values n (fun i => linear_matter_power c (elem k i) (elem a i) T)).
Proof. intros B. destruct (broadcasts_rep k a n B) as (Hn & Rk & Ra & S). now apply linear_rep. Qed.
End Errors.
