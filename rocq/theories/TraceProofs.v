(** * Proofs about the caches under jit *)
From Verif Require Import Np Core CoreProofs Background BgSpec BgProofs Trace TraceSpec.
Opaque chi_table growth_table_ODE growth_table_gamma logspace.

(** ** workspace after a call *)
Ltac tabs := repeat match goal with
  | |- context [growth_table_gamma ?c ?x ?n] => destruct (growth_table_gamma c x n) as [? ?]; simpl
  | |- context [growth_table_ODE ?c ?x ?n] => destruct (growth_table_ODE c x n) as [[? ?] ?]; simpl
  | |- context [match ?z with Some _ => _ | None => _ end] => destruct z
  end; simpl; try reflexivity; try congruence; try discriminate.
Lemma ws_after_chi c k : uses_chi k = true -> ws_chi (snd (run1 k c)) <> None /\ ws_growth (snd (run1 k c)) = ws_growth c.
Proof.
  destruct k; try discriminate; intros _; simpl; unfold angular_diameter_distance, transverse_comoving_distance, a_of_chi, rcd_default, radial_comoving_distance, chi_cache;
    destruct (ws_chi c) as [[tx ty] | ] eqn:E; simpl; rewrite ?E; simpl; try (split; [ congruence | reflexivity ]).
  all: destruct (chi_table c (-3) 256) as [xt yt]; simpl; split; [ discriminate | reflexivity ].
Qed.
Lemma ws_same_chi c k : uses_chi k = false -> ws_chi (snd (run1 k c)) = ws_chi c.
Proof.
  destruct k; try discriminate; intros _; simpl; unfold growth_factor, growth_rate, growth_rate_ODE, growth_factor_ODE, growth_factor_gamma, growth_cache_ODE, growth_cache_gamma;
    destruct (_gamma_growth c); destruct (ws_growth c) as [[[x y] z] | ] eqn:E; simpl; rewrite ?E; simpl; try reflexivity.
  all: tabs.
Qed.
Lemma ws_after_growth c k : uses_growth c k = true -> ws_growth (snd (run1 k c)) <> None.
Proof.
  destruct k; try discriminate; simpl; unfold growth_factor, growth_rate, growth_rate_ODE, growth_factor_ODE, growth_factor_gamma, growth_cache_ODE, growth_cache_gamma;
    destruct (_gamma_growth c); try discriminate; intros _; destruct (ws_growth c) as [[[x y] z] | ] eqn:E; simpl; rewrite ?E; simpl; try congruence.
  all: tabs.
Qed.
Lemma ws_same_growth c k : uses_growth c k = false -> ws_growth (snd (run1 k c)) = ws_growth c.
Proof.
  destruct k; try discriminate; try (intros _; now apply ws_after_chi).
  simpl. unfold growth_rate. destruct (_gamma_growth c); [ reflexivity | discriminate ].
Qed.
Lemma inv_flag c0 c : inv_ws c0 c -> _gamma_growth c = _gamma_growth c0.
Proof. intros (x & y & -> & _). reflexivity. Qed.

(** ** the eager program depends on the parameters only *)
Lemma eager_inv p : forall c0 c d, inv_ws c0 c -> inv_ws c0 d -> fst (eager p c) = fst (eager p d) /\ inv_ws c0 (snd (eager p c)).
Proof.
  induction p as [ | k | p IHp q IHq | p IHp | p IHp ]; intros c0 c d Hc Hd; simpl.
  - now split.
  - pose proof (run1_value c0 c d k Hc Hd) as E. pose proof (run1_inv c0 c k Hc) as I.
    destruct (run1 k c), (run1 k d); simpl in *. now subst.
  - destruct (IHp c0 c d Hc Hd) as [E I]. destruct (IHp c0 d c Hd Hc) as [_ J].
    destruct (eager p c) as [[v | e | ] c1], (eager p d) as [r d1]; simpl in *; subst r; try now split.
    destruct (IHq c0 c1 d1 I J) as [E' I'].
    destruct (eager q c1) as [[v' | e' | ] c2], (eager q d1) as [r' d2]; simpl in *; subst r'; now split.
  - now apply IHp.
  - now apply IHp.
Qed.

(** ** disciplined programs *)
(** object in good state: tables, when there, belong to a trace still being built, and those of [w] are there *)
Definition good (c0 : cosmology) (ctx : context) (w : table -> Prop) (o : tobj) : Prop :=
  inv_ws c0 (obj o) /\ alive ctx (t_params o) = true /\
  (ws_chi (obj o) <> None -> alive ctx (t_chi o) = true) /\ (ws_growth (obj o) <> None -> alive ctx (t_growth o) = true) /\
  (w Distances -> ws_chi (obj o) <> None) /\ (w GrowthTable -> ws_growth (obj o) <> None).
(** what a program leaves alone *)
Definition keeps (p : prog) (o o' : tobj) : Prop :=
  t_params o' = t_params o /\
  ((~ touches p Distances \/ ws_chi (obj o) <> None) -> (ws_chi (obj o') = None -> ws_chi (obj o) = None) /\ (ws_chi (obj o) = None -> ws_chi (obj o') = None) /\ t_chi o' = t_chi o) /\
  ((~ touches p GrowthTable \/ ws_growth (obj o) <> None) -> (ws_growth (obj o') = None -> ws_growth (obj o) = None) /\ (ws_growth (obj o) = None -> ws_growth (obj o') = None) /\ t_growth o' = t_growth o).

Lemma alive_hd ctx : alive ctx (hd_error ctx) = true.
Proof. destruct ctx as [ | t l]; simpl; [ reflexivity | ]. now rewrite Nat.eqb_refl. Qed.
Lemma alive_weaken ctx t x : alive ctx x = true -> alive (t :: ctx) x = true.
Proof. destruct x as [x | ]; simpl; [ | reflexivity ]. intros ->. apply Bool.orb_true_r. Qed.

Lemma inv_some_chi c0 c : inv_ws c0 c -> ws_chi c <> None -> ws_chi c = Some (chi_table c0 (-3) 256).
Proof. intros (x & y & -> & [-> | ->] & _) N; simpl in *; [ congruence | reflexivity ]. Qed.

Lemma uses_chi_needs k : uses_chi k = true <-> needs k Distances.
Proof. destruct k; simpl; split; intros A; try exact I; try discriminate; try contradiction; reflexivity. Qed.
Lemma uses_growth_needs c k : _gamma_growth c = false -> uses_growth c k = true <-> needs k GrowthTable.
Proof. intros G. destruct k; simpl; rewrite ?G; split; intros A; try exact I; try discriminate; try contradiction; reflexivity. Qed.

Lemma step_good c0 ctx w o k : _gamma_growth c0 = false -> good c0 ctx w o ->
  let '(r, o') := step ctx k o in
  r = of_res (fst (run1 k (obj o))) /\ good c0 ctx (fun t => w t \/ needs k t) o' /\ keeps (Do k) o o'.
Proof.
  intros Gf (HI & HP & HC & HG & WC & WG). unfold step. cbv zeta.
  pose proof (inv_flag _ _ HI) as Fl. rewrite Gf in Fl.
  rewrite HP. simpl negb. rewrite Bool.andb_false_r.
  pose proof (run1_inv c0 (obj o) k HI) as HI'.
  pose proof (uses_chi_needs k) as Nx. pose proof (uses_growth_needs (obj o) k Fl) as Ng.
  pose proof (ws_after_chi (obj o) k) as Ac. pose proof (ws_same_chi (obj o) k) as Sc.
  pose proof (ws_after_growth (obj o) k) as Ag. pose proof (ws_same_growth (obj o) k) as Sg.
  destruct (run1 k (obj o)) as [r c'] eqn:ER. simpl in *.
  assert (X : alive ctx (if uses_chi k && missing (ws_chi (obj o)) then hd_error ctx else t_chi o) = true \/ uses_chi k = false /\ ws_chi (obj o) = None).
  { destruct (uses_chi k) eqn:U; simpl.
    - destruct (ws_chi (obj o)) eqn:E; simpl; left; [ apply HC; congruence | apply alive_hd ].
    - destruct (ws_chi (obj o)) eqn:E; [ left; apply HC; congruence | right; now split ]. }
  assert (Y : alive ctx (if uses_growth (obj o) k && missing (ws_growth (obj o)) then hd_error ctx else t_growth o) = true \/ uses_growth (obj o) k = false /\ ws_growth (obj o) = None).
  { destruct (uses_growth (obj o) k) eqn:U; simpl.
    - destruct (ws_growth (obj o)) eqn:E; simpl; left; [ apply HG; congruence | apply alive_hd ].
    - destruct (ws_growth (obj o)) eqn:E; [ left; apply HG; congruence | right; now split ]. }
  match goal with |- context [if ?b then _ else _] => replace b with false end.
  2: { symmetry. apply Bool.orb_false_iff. split; apply Bool.andb_false_iff.
       - destruct X as [X | [X _]]; [ right; rewrite X; reflexivity | now left ].
       - destruct Y as [Y | [Y _]]; [ right; rewrite Y; reflexivity | now left ]. }
  split; [ reflexivity | split ].
  - unfold good; simpl. split; [ exact HI' | split; [ exact HP | ]].
    split; [ intros Hx; destruct X as [X | [X1 X2]]; [ exact X | exfalso; apply Hx; rewrite (Sc X1); exact X2 ] | ].
    split; [ intros Hx; destruct Y as [Y | [Y1 Y2]]; [ exact Y | exfalso; apply Hx; rewrite (Sg Y1); exact Y2 ] | ].
    split.
    + intros [W | W].
      * destruct (uses_chi k) eqn:U; [ now apply Ac | rewrite Sc; auto ].
      * apply Nx in W. now apply Ac.
    + intros [W | W].
      * destruct (uses_growth (obj o) k) eqn:U; [ now apply Ag | rewrite Sg; auto ].
      * apply Ng in W. now apply Ag.
  - unfold keeps; simpl. split; [ reflexivity | split ].
    + intros Hx. destruct (uses_chi k) eqn:U; simpl.
      * assert (N : ws_chi (obj o) <> None) by (destruct Hx as [Hx | Hx]; [ exfalso; apply Hx; now apply Nx | exact Hx ]).
        destruct (Ac eq_refl) as [N' _]. destruct (ws_chi (obj o)); simpl; [ | congruence ]. repeat split; try congruence; intros; contradiction.
      * rewrite Sc by reflexivity. repeat split; auto.
    + intros Hx. destruct (uses_growth (obj o) k) eqn:U; simpl.
      * assert (N : ws_growth (obj o) <> None) by (destruct Hx as [Hx | Hx]; [ exfalso; apply Hx; now apply Ng | exact Hx ]).
        pose proof (Ag eq_refl) as N'. destruct (ws_growth (obj o)); simpl; [ | congruence ]. repeat split; try congruence; intros; contradiction.
      * rewrite Sg by reflexivity. repeat split; auto.
Qed.

Lemma good_mono c0 ctx (w w' : table -> Prop) o : (forall t, w' t -> w t) -> good c0 ctx w o -> good c0 ctx w' o.
Proof. intros Hw (A & B & C & E & F & G). unfold good. intuition. Qed.

Lemma touches_dec p t : touches p t \/ ~ touches p t.
Proof.
  induction p as [ | k | p IHp q IHq | p IHp | p IHp ]; simpl; try tauto.
Qed.

Lemma exec_good c0 (G0 : _gamma_growth c0 = false) (Gn : _gamma c0 = None) (F0 : fresh c0) p : forall ctx w o n,
  good c0 ctx w o -> disciplined w p ->
  let '(r, o', n') := exec p ctx o n in
  r = fst (eager p (obj o)) /\ (match r with Done _ => good c0 ctx (fun t => w t \/ computes p t) o' /\ keeps p o o' | _ => True end).
Proof.
  induction p as [ | k | p IHp q IHq | p IHp | p IHp ]; intros ctx w o n HG HD; simpl in HD |- *.
  - split; [ reflexivity | split ].
    + eapply good_mono; [ | exact HG ]. tauto.
    + unfold keeps. repeat split; auto.
  - pose proof (step_good c0 ctx w o k G0 HG) as ST. destruct (step ctx k o) as [r o'].
    destruct ST as (E & A & B). destruct (run1 k (obj o)) as [x c']; simpl in *. subst r.
    split; [ reflexivity | ]. destruct x; simpl; auto.
  - destruct HD as [HD1 HD2]. pose proof (IHp ctx w o n HG HD1) as H1.
    destruct (exec p ctx o n) as [[r o1] n1]. destruct H1 as [E1 H1].
    destruct (eager p (obj o)) as [r1 c1] eqn:EE. simpl in E1. subst r1.
    destruct r as [v | e | ]; simpl; auto.
    destruct H1 as [G1 K1]. pose proof (IHq ctx _ o1 n1 G1 HD2) as H2.
    destruct (exec q ctx o1 n1) as [[r2 o2] n2]. destruct H2 as [E2 H2].
    assert (EQ : fst (eager q (obj o1)) = fst (eager q c1)).
    { apply (eager_inv q c0); [ apply G1 | ]. pose proof (proj2 (eager_inv p c0 (obj o) c0 (proj1 HG) (inv_fresh c0 F0))) as Z. now rewrite EE in Z. }
    rewrite EQ in E2. destruct (eager q c1) as [r3 c2]; simpl in E2. subst r3.
    destruct r2 as [u | e | ]; simpl; auto. split; [ reflexivity | ].
    destruct H2 as [G2 K2]. split.
    + eapply good_mono; [ | exact G2 ]. simpl. tauto.
    + unfold keeps in *; simpl. destruct K1 as (a1 & b1 & c1'), K2 as (a2 & b2 & c2').
      split; [ congruence | split ]; intros Hx.
      * assert (T1 : ~ touches p Distances \/ ws_chi (obj o) <> None) by (destruct Hx as [Hx | Hx]; [ left; intros Z; apply Hx; left; exact Z | right; exact Hx ]).
        destruct (b1 T1) as (x1 & x2 & x3).
        assert (T2 : ~ touches q Distances \/ ws_chi (obj o1) <> None) by (destruct Hx as [Hx | Hx]; [ left; intros Z; apply Hx; right; exact Z | right; intros Z; apply Hx, x1, Z ]).
        destruct (b2 T2) as (y1 & y2 & y3). repeat split; auto; congruence.
      * assert (T1 : ~ touches p GrowthTable \/ ws_growth (obj o) <> None) by (destruct Hx as [Hx | Hx]; [ left; intros Z; apply Hx; left; exact Z | right; exact Hx ]).
        destruct (c1' T1) as (x1 & x2 & x3).
        assert (T2 : ~ touches q GrowthTable \/ ws_growth (obj o1) <> None) by (destruct Hx as [Hx | Hx]; [ left; intros Z; apply Hx; right; exact Z | right; intros Z; apply Hx, x1, Z ]).
        destruct (c2' T2) as (y1 & y2 & y3). repeat split; auto; congruence.
  - destruct HD as [HT HD].
    assert (HGi : good c0 (n :: ctx) w o).
    { destruct HG as (A & B & C & E & F & G). unfold good. repeat split; auto using alive_weaken. }
    pose proof (IHp (n :: ctx) w o (S n) HGi HD) as H1.
    destruct (exec p (n :: ctx) o (S n)) as [[r o1] n1]. destruct H1 as [E1 H1]. split; [ exact E1 | ].
    destruct r as [v | e | ]; auto. destruct H1 as [G1 K1]. split; [ | exact K1 ].
    destruct HG as (A & B & C & E & F & G). destruct G1 as (A1 & B1 & C1 & D1 & F1 & G1). destruct K1 as (k1 & k2 & k3).
    assert (T1 : ~ touches p Distances \/ ws_chi (obj o) <> None) by (destruct (touches_dec p Distances); auto).
    assert (T2 : ~ touches p GrowthTable \/ ws_growth (obj o) <> None) by (destruct (touches_dec p GrowthTable); auto).
    destruct (k2 T1) as (x1 & x2 & x3), (k3 T2) as (y1 & y2 & y3).
    unfold good. split; [ exact A1 | split; [ congruence | ]].
    split; [ intros Z; rewrite x3; apply C; intros Z'; apply Z, x2, Z' | ].
    split; [ intros Z; rewrite y3; apply E; intros Z'; apply Z, y2, Z' | ].
    split; intros [W | []]; [ intros Z; apply (F W), x1, Z | intros Z; apply (G W), y1, Z ].
  - destruct HG as (A & B & C & E & F & G). rewrite B. simpl negb. cbv iota.
    destruct A as (x & y & EO & Hx & Hy).
    assert (EJ : cosmo_jit (obj o) = Ok (with_ws c0 None None)).
    { rewrite EO. unfold cosmo_jit, cosmo_flatten, cosmo_unflatten, with_ws. simpl. rewrite G0, Gn. simpl. reflexivity. }
    rewrite EJ.
    assert (EW : with_ws c0 None None = c0) by (destruct F0 as [f1 f2]; destruct c0; unfold with_ws; simpl in *; now subst).
    rewrite EW.
    assert (HGi : good c0 (n :: ctx) (fun _ => False) (TObj c0 (Some n) None None)).
    { unfold good; simpl. split; [ now apply inv_fresh | ]. rewrite Nat.eqb_refl. simpl. repeat split; auto; contradiction. }
    pose proof (IHp (n :: ctx) _ _ (S n) HGi HD) as H1.
    destruct (exec p (n :: ctx) (TObj c0 (Some n) None None) (S n)) as [[r o1] n1]. destruct H1 as [E1 _]. simpl in E1.
    split.
    { rewrite E1. apply (eager_inv p c0); [ now apply inv_fresh | rewrite EO; exists x, y; auto ]. }
    destruct r as [v | e | ]; auto. split.
    + unfold good. rewrite EO in *. repeat split; auto; try (intros [W | []]; auto). exists x, y; auto.
    + unfold keeps. repeat split; auto.
Qed.

Theorem disciplined_transparent : forall c p, fresh c -> _gamma_growth c = false -> _gamma c = None ->
  disciplined (fun _ => False) p -> top p c = fst (eager p c).
Proof.
  intros c p F G Gn HD. unfold top.
  assert (HG : good c [] (fun _ => False) (TObj c None None None)).
  { unfold good; simpl. split; [ now apply inv_fresh | ]. destruct F as [f1 f2]. rewrite f1, f2. repeat split; auto; congruence. }
  pose proof (exec_good c G Gn F p [] _ _ 0%nat HG HD) as H1.
  destruct (exec p [] (TObj c None None None) 0) as [[r o1] n1]. now destruct H1 as [-> _].
Qed.
