(** * Functions on arrays of any rank: proofs *)
From Coquelicot Require Import Coquelicot.
From Verif Require Import Np NpLemmas Core Integrate Interp InterpProofs Redshift RedshiftProofs Background BgSpec BgTables BgFinal BgFinal3 BgGrowth BgFinal4 Nd NdSpec NzArr NzArrSpec BgArr ExAdProbes.
Opaque chi_table growth_table_ODE growth_table_gamma logspace.

(** ** shapes *)
Lemma inside_1 n i : inside [n] i -> exists k, i = [k] /\ (k < n)%nat.
Proof. intros H. inversion H as [ | ? k ? l Hk Hl ]; subst. inversion Hl; subst. now exists k. Qed.
Lemma inside_2 n m i : inside [n; m] i -> exists k l, i = [k; l] /\ (k < n)%nat /\ (l < m)%nat.
Proof. intros H. inversion H as [ | ? k ? l Hk Hl ]; subst. apply inside_1 in Hl. destruct Hl as (q & -> & Hq). exists k, q. auto. Qed.
Lemma indices_1 n : indices [n] = map (fun i => [i]) (seq 0 n).
Proof. cbn [indices]. induction (seq 0 n) as [ | a l IH]; [ reflexivity | ]. cbn [flat_map map app]. now f_equal. Qed.
Lemma map_seq_el (f : R -> R) v : map (fun i => f (el v i)) (seq 0 (length v)) = map f v.
Proof.
  transitivity (map f (map (el v) (seq 0 (length v)))); [ now rewrite map_map | f_equal ].
  apply (nth_ext _ _ 0 0); rewrite map_length, seq_length; [ reflexivity | ]. intros n Hn.
  rewrite (nth_indep _ 0 (el v 0)) by (rewrite map_length, seq_length; exact Hn). rewrite map_nth, seq_nth by exact Hn. reflexivity.
Qed.
Lemma flat_vec v : flat (vec v) = v.
Proof. unfold flat, vec. cbn [shp get]. rewrite indices_1, map_map. cbn [hd]. rewrite (map_seq_el (fun x => x)). apply map_id. Qed.
Lemma bidx_0 i : bidx [] i = []. Proof. reflexivity. Qed.
Lemma bidx_1 n k : (k < n)%nat -> bidx [n] [k] = [k].
Proof. intros H. unfold bidx. cbn [length Nat.sub skipn map2]. destruct (Nat.eqb_spec n 1) as [-> | E]; [ f_equal; lia | reflexivity ]. Qed.
Lemma bidx_one k : bidx [1%nat] [k] = [0%nat]. Proof. reflexivity. Qed.
Lemma bshape_1 s m n : m <> n -> m <> 1%nat -> n <> 1%nat -> bshape (s ++ [m]) [n] = None.
Proof.
  intros H1 H2 H3. unfold bshape. rewrite rev_app_distr. cbn [rev app bshape_rev]. destruct (bshape_rev (rev s) []); [ | reflexivity ].
  destruct (Nat.eqb_spec m n), (Nat.eqb_spec m 1), (Nat.eqb_spec n 1); try contradiction. reflexivity.
Qed.

(** ** interp *)
Lemma cell_scalar x xp fp q : shp x = [] -> get x [] = q -> interp_cell x xp fp q = interp1 q xp fp.
Proof.
  intros Hs Hq. unfold interp_cell, bop2. rewrite Hs. cbn [vec shp bshape rev app bshape_rev]. unfold bshape. cbn [rev app bshape_rev]. unfold interp1.
  assert (E : flat (Nd [length xp] (fun i => (get x (bidx [] i) - get (vec xp) (bidx [length xp] i)) ^ 2)) = map (fun p => (q - p) ^ 2) xp).
  { unfold flat. cbn [shp get]. rewrite indices_1, map_map, <- map_seq_el. apply map_ext_in. intros k Hk. apply in_seq in Hk. rewrite bidx_0, Hq, bidx_1 by lia. reflexivity. }
  rewrite E. reflexivity.
Qed.
Lemma cell_one x xp fp q : shp x = [1%nat] -> get x [0%nat] = q -> interp_cell x xp fp q = interp1 q xp fp.
Proof.
  intros Hs Hq. unfold interp_cell, bop2. rewrite Hs.
  assert (Eb : bshape [1%nat] (shp (vec xp)) = Some [length xp]).
  { unfold bshape, vec. cbn [shp rev app bshape_rev]. destruct (Nat.eqb_spec 1 (length xp)) as [<- | _]; reflexivity. }
  rewrite Eb. unfold interp1.
  assert (E : flat (Nd [length xp] (fun i => (get x (bidx [1%nat] i) - get (vec xp) (bidx (shp (vec xp)) i)) ^ 2)) = map (fun p => (q - p) ^ 2) xp).
  { unfold flat. cbn [shp get]. rewrite indices_1, map_map, <- map_seq_el. apply map_ext_in. intros k Hk. apply in_seq in Hk. rewrite bidx_one, Hq. unfold vec at 1. cbn [get]. unfold vec. cbn [shp]. rewrite bidx_1 by lia. reflexivity. }
  rewrite E. reflexivity.
Qed.
Lemma interp_vector x xp fp n : shp x = [n] -> exists r, interp_nd x xp fp = Ok r /\ elementwise (fun q => interp1 q xp fp) x r.
Proof.
  intros Hs. unfold interp_nd. rewrite Hs. unfold bshape. cbn [rev app bshape_rev]. eexists. split; [ reflexivity | ]. split; [ cbn [shp]; now rewrite Hs | ].
  intros i Hi. rewrite Hs in Hi. destruct (inside_1 _ _ Hi) as (k & -> & Hk). cbn [get hd]. apply cell_scalar; [ unfold row; cbn [shp]; now rewrite Hs | reflexivity ].
Qed.
Lemma interp_column x xp fp n : shp x = [n; 1%nat] -> exists r, interp_nd x xp fp = Ok r /\ elementwise (fun q => interp1 q xp fp) x r.
Proof.
  intros Hs. unfold interp_nd. rewrite Hs.
  assert (Eb : exists t, bshape [1%nat] [length xp] = Some t) by (unfold bshape; cbn [rev app bshape_rev]; destruct (Nat.eqb_spec 1 (length xp)); eexists; reflexivity). destruct Eb as [t ->].
  eexists. split; [ reflexivity | ]. split; [ cbn [shp]; now rewrite Hs | ].
  intros i Hi. rewrite Hs in Hi. destruct (inside_2 _ _ _ Hi) as (k & l & -> & Hk & Hl). assert (l = 0%nat) by lia. subst l. cbn [get hd]. apply cell_one; [ unfold row; cbn [shp]; now rewrite Hs | reflexivity ].
Qed.
Lemma interp_raises x xp fp p s m : shp x = p :: s ++ [m] -> m <> 1%nat -> m <> length xp -> length xp <> 1%nat -> interp_nd x xp fp = Err TypeError.
Proof. intros Hs H1 H2 H3. unfold interp_nd. rewrite Hs, bshape_1; auto. Qed.

(** ** background *)
Lemma elementwise_map F G z r : elementwise F z r -> elementwise (fun q => G (F q)) z (uop1 G r).
Proof. intros [H1 H2]. split; [ exact H1 | ]. intros i Hi. unfold uop1. cbn [get]. now rewrite H2. Qed.
Lemma elementwise_ext F G z r : (forall q, F q = G q) -> elementwise F z r -> elementwise G z r.
Proof. intros E [H1 H2]. split; [ exact H1 | ]. intros i Hi. now rewrite H2. Qed.
Lemma atleast1_id a n s : shp a = n :: s -> atleast1 a = a. Proof. intros E. unfold atleast1. now rewrite E. Qed.
Lemma chi_value c a : fresh c -> chi c a = clip_lo (interp1 a (fst (chi_table c (-3) 256)) (snd (chi_table c (-3) 256))) 0.0.
Proof. intros [F _]. unfold chi, rcd_default, radial_comoving_distance, chi_cache. rewrite F. destruct (chi_table c (-3) 256). reflexivity. Qed.
Lemma D_value c a : fresh c -> D c a = clip (interp1 a (fst (growth_tables c)) (snd (growth_tables c))) 0.0 1.0.
Proof.
  intros [_ F]. unfold D, growth_factor, growth_factor_ODE, growth_factor_gamma, growth_cache_ODE, growth_cache_gamma, growth_tables. rewrite F.
  destruct (_gamma_growth c); [ destruct (growth_table_gamma c (-3) 128) as [? ?] | destruct (growth_table_ODE c (-3) 128) as [[? ?] ?] ]; reflexivity.
Qed.
Lemma growth_tables_length c : length (fst (growth_tables c)) = 128%nat.
Proof.
  unfold growth_tables. destruct (_gamma_growth c); [ rewrite gamma_table_fst; apply length_logspace | ].
  Transparent growth_table_ODE. unfold growth_table_ODE. cbn [fst]. Opaque growth_table_ODE. apply length_logspace.
Qed.
Lemma distance_arrays c a n : fresh c -> shp a = [n] \/ shp a = [n; 1%nat] -> exists r, distance_nd c a = Ok r /\ elementwise (chi c) a r.
Proof.
  intros HF Hs. unfold distance_nd. cbv zeta. assert (E : atleast1 a = a) by (destruct Hs as [Hs | Hs]; exact (atleast1_id _ _ _ Hs)). rewrite E.
  assert (Q : exists r, interp_nd a (fst (chi_table c (-3) 256)) (snd (chi_table c (-3) 256)) = Ok r /\ elementwise (fun q => interp1 q (fst (chi_table c (-3) 256)) (snd (chi_table c (-3) 256))) a r)
    by (destruct Hs as [Hs | Hs]; [ exact (interp_vector _ _ _ _ Hs) | exact (interp_column _ _ _ _ Hs) ]).
  destruct Q as (r & -> & Hr). cbn [bind]. eexists. split; [ reflexivity | ]. apply (elementwise_ext (fun q => clip_lo (interp1 q (fst (chi_table c (-3) 256)) (snd (chi_table c (-3) 256))) 0.0)); [ intros q; symmetry; now apply chi_value | ]. exact (elementwise_map _ (fun x => clip_lo x 0.0) _ _ Hr).
Qed.
Lemma distance_number c x : fresh c -> exists r, distance_nd c (num0 x) = Ok r /\ shp r = [1%nat] /\ get r [0%nat] = chi c x.
Proof.
  intros HF. destruct (interp_vector (Nd [1%nat] (fun _ => x)) (fst (chi_table c (-3) 256)) (snd (chi_table c (-3) 256)) 1 eq_refl) as (r & E & [H1 H2]).
  unfold distance_nd. cbv zeta. change (atleast1 (num0 x)) with (Nd [1%nat] (fun _ => x)). rewrite E. cbn [bind]. eexists. split; [ reflexivity | ]. split; [ exact H1 | ].
  unfold uop1. cbn [get]. rewrite (H2 [0%nat]) by (repeat constructor). cbn [get]. rewrite chi_value by exact HF. reflexivity.
Qed.
Lemma growth_arrays c a n : fresh c -> shp a = [n] \/ shp a = [n; 1%nat] -> exists r, growth_nd c a = Ok r /\ elementwise (D c) a r.
Proof.
  intros HF Hs. assert (ED := fun q => D_value c q HF). unfold growth_nd. cbv zeta. destruct (growth_tables c) as [at' gt]. cbn [fst snd] in *.
  assert (Q : exists r, interp_nd a at' gt = Ok r /\ elementwise (fun q => interp1 q at' gt) a r)
    by (destruct Hs as [Hs | Hs]; [ exact (interp_vector _ _ _ _ Hs) | exact (interp_column _ _ _ _ Hs) ]).
  destruct Q as (r & -> & Hr). cbn [bind]. eexists. split; [ reflexivity | ]. apply (elementwise_ext (fun q => clip (interp1 q at' gt) 0.0 1.0)); [ intros q; now rewrite ED | ]. exact (elementwise_map _ (fun x => clip x 0.0 1.0) _ _ Hr).
Qed.
Lemma tables_raise c a p s m : shp a = p :: s ++ [m] -> m <> 1%nat -> (m <> 256%nat -> distance_nd c a = Err TypeError) /\ (m <> 128%nat -> growth_nd c a = Err TypeError).
Proof.
  intros Hs H1. split; intros H2.
  - unfold distance_nd. cbv zeta. rewrite (atleast1_id _ _ _ Hs). destruct (chi_table_length c (-3) 256) as [L _]. rewrite (interp_raises _ _ _ _ _ _ Hs); [ reflexivity | exact H1 | now rewrite L | rewrite L; lia ].
  - unfold growth_nd. cbv zeta. pose proof (growth_tables_length c) as L. rewrite (interp_raises _ _ _ _ _ _ Hs); [ reflexivity | exact H1 | now rewrite L | rewrite L; lia ].
Qed.
