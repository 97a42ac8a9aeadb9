(** * Convergence of the growth functions: public statements and concrete cases *)
From Coquelicot Require Import Coquelicot.
From Verif Require Import Np NpLemmas Core Interp Ode OdeSpec Background BgSpec BgAlgebra BgTables BgFinal BgFinal4 OdeConvSpec OdeConv GrowthConvSpec GrowthConv GrowthExists Heath QuadConv.
Opaque chi_table growth_table_ODE growth_table_gamma logspace.

Theorem growth_tables_converge c la u v : expanding c -> 0 <= Omega_m c -> ws_growth c = None -> la < 0 -> growth_solution c (pow10 la) u v ->
  forall eps, 0 < eps -> exists N, forall n, (N <= n)%nat -> forall q, (forall x, In x q -> pow10 la <= x <= 1) ->
  let r := growth_factor_ODE c (Array1 q) la n in
  (exists g, fst r = Ok g /\ length g = length q /\ forall k, (k < length q)%nat -> Rabs (el g k - u (el q k) / u 1) < eps) /\
  (exists f, fst (growth_rate_ODE (snd r) (Array1 q)) = Ok f /\ length f = length q /\ forall k, (k < length q)%nat -> Rabs (el f k - el q k * v (el q k) / u (el q k)) < eps).
Proof. intros HE Hm Hw Hla S. exact (growth_converges c la u v HE Hm Hla S Hw). Qed.

Theorem lambda_growth c la : expanding c -> 0 <= Omega_m c -> _w0 c = -1 -> _wa c = 0 -> ws_growth c = None -> la < 0 ->
  forall eps, 0 < eps -> exists N, forall n, (N <= n)%nat -> forall q, (forall x, In x q -> pow10 la <= x <= 1) ->
  exists g, fst (growth_factor_ODE c (Array1 q) la n) = Ok g /\ length g = length q /\
    forall k, (k < length q)%nat -> Rabs (el g k - heath c (pow10 la) (el q k) / heath c (pow10 la) 1) < eps.
Proof.
  intros HE Hm H0 Ha Hw Hla eps He. pose proof (pow10_pos la) as P.
  destruct (growth_tables_converge c la _ _ HE Hm Hw Hla (heath_solves c HE H0 Ha (pow10 la) P) eps He) as (N & HN). exists N. intros n Hn q Hq. exact (proj1 (HN n Hn q Hq)).
Qed.

(** y' = y on [0, 1], with two steps *)
Lemma ex_C106 : lipschitz (fun y _ => y) 1 0 1 /\ solves (fun y _ => y) exp 0 1 /\ grid [0; 1 / 2; 1] 0 1 (1 / 2) /\
  (forall s s', 0 <= s <= 1 -> 0 <= s' <= 1 -> Rabs (exp s - exp s') <= 3 * Rabs (s - s')) /\
  lipschitz2 (fun y _ => (snd y, - fst y)) 1 0 1 /\ solves2 (fun y _ => (snd y, - fst y)) sin cos 0 1.
Proof.
  split; [ | split; [ | split; [ | split; [ | split ]]]].
  - split; [ lra | ]. intros t u v _. lra.
  - intros t _. apply is_derive_exp.
  - split; [ discriminate | ]. split; [ reflexivity | ]. split; [ | unfold el; simpl; lra ]. intros i Hi. simpl in Hi. destruct i as [ | [ | i ]]; try lia; unfold el; simpl; lra.
  - assert (E1 : exp 1 <= 3) by apply exp_le_3.
    assert (G : forall s s', 0 <= s -> s <= s' <= 1 -> Rabs (exp s' - exp s) <= 3 * Rabs (s' - s)).
    { intros s s' Hs Hs'. destruct (Req_dec s s') as [-> | N]; [ rewrite !Rminus_eq_0, Rabs_R0; lra | ].
      destruct (MVT_cor2 exp exp s s' ltac:(lra)) as (x & E & Hx); [ intros; apply derivable_pt_lim_exp | ]. rewrite E. rewrite Rabs_mult. apply Rmult_le_compat_r; [ apply Rabs_pos | ].
      rewrite Rabs_pos_eq by (left; apply exp_pos). apply Rle_trans with (2 := E1). left. apply exp_increasing. lra. }
    intros s s' Hs Hs'. destruct (Rle_lt_dec s s'); [ rewrite (Rabs_minus_sym (exp s)), (Rabs_minus_sym s); apply G; lra | apply G; lra ].
  - split; [ lra | ]. intros t [a b] [a' b'] _. unfold dist2. simpl. replace (- a - - a') with (- (a - a')) by ring. rewrite Rabs_Ropp. lra.
  - intros t _. simpl. split; [ apply is_derive_Reals; apply derivable_pt_lim_sin | apply is_derive_Reals; apply derivable_pt_lim_cos ].
Qed.
Lemma ex_C107 : expanding Planck15 /\ 0 <= Omega_m Planck15 /\ ws_growth Planck15 = None /\ _w0 Planck15 = -1 /\ _wa Planck15 = 0 /\
  growth_solution Planck15 (pow10 (-3)) (heath Planck15 (pow10 (-3))) (Derive (heath Planck15 (pow10 (-3)))).
Proof.
  destruct planck_ok as (_ & P & _ & E & _). split; [ exact E | ]. split; [ left; apply P | ]. split; [ reflexivity | ]. assert (W : _w0 Planck15 = -1) by (simpl; lra). assert (W' : _wa Planck15 = 0) by (simpl; lra).
  split; [ exact W | ]. split; [ exact W' | ]. apply heath_solves; auto. apply pow10_pos.
Qed.
Lemma ex_C108 : expanding Planck15 /\ ws_chi Planck15 = None /\ expanding planck_gamma /\ 0 < Omega_m planck_gamma /\ ws_growth planck_gamma = None /\ gamma_of planck_gamma <> 0.
Proof.
  destruct planck_ok as (_ & _ & _ & E & _). destruct planck_gamma_ok as (_ & P & E' & _). split; [ exact E | ]. split; [ reflexivity | ]. split; [ exact E' | ]. split; [ apply P | ]. split; [ reflexivity | ].
  unfold gamma_of. simpl. lra.
Qed.
