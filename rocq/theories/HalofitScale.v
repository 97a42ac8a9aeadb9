(** * The non-linear scale of halofit as a function of sigma8 *)
From Coq Require Import Reals Lra Lia List.
From Coquelicot Require Import Coquelicot.
From Verif Require Import Np NpLemmas Core Ode OdeSpec OdeProofs Interp InterpProofs InterpCont Integrate IntegrateSpec SimpsProofs Background BgSpec
  BgAlgebra BgTables BgGrowth BgPositive BgProofs BgFinal BgFinal2 BgFinal3 BgCont Transfer Power PowerProofs PowerFinal RedshiftShape
  DependsSpec BgDepends AmpScale PowerArrProofs HalofitScaleSpec.
Import ListNotations.
Local Open Scope R_scope.
Opaque chi_table growth_table_ODE growth_table_gamma logspace.

(** ** scale invariance of the lookup *)
Lemma argmin_from_scale q l : 0 < q -> forall b bi i, argmin_from (q * b) bi i (map (Rmult q) l) = argmin_from b bi i l.
Proof.
  intros Hq. induction l as [ | x l IH]; intros b bi i; [ reflexivity | ]. simpl.
  destruct (Rlt_dec (q * x) (q * b)) as [H | H], (Rlt_dec x b) as [H' | H']; try apply IH; exfalso.
  - apply Rmult_lt_reg_l in H; lra.
  - apply H, Rmult_lt_compat_l; assumption.
Qed.
Lemma argmin_scale q l : 0 < q -> argmin (map (Rmult q) l) = argmin l.
Proof. intros Hq. destruct l as [ | x l]; [ reflexivity | ]. simpl. now apply argmin_from_scale. Qed.
Lemma nearest_scale q x xp : 0 < q -> nearest (q * x) (map (Rmult q) xp) = nearest x xp.
Proof.
  intros Hq. unfold nearest. rewrite map_map. rewrite <- (argmin_scale (q ^ 2) (map (fun p => (x - p) ^ 2) xp)) by (now apply pow_lt). rewrite map_map.
  f_equal. apply map_ext. intros p. ring.
Qed.
Lemma interp1_scale q x xp fp : 0 < q -> (4 <= length xp)%nat -> length fp = length xp -> decr xp ->
  interp1 (q * x) (map (Rmult q) xp) fp = interp1 x xp fp.
Proof.
  intros Hq Hn Hl Hd.
  assert (EL : forall i, (i < length xp)%nat -> el (map (Rmult q) xp) i = q * el xp i).
  { intros i Hi. unfold el. now rewrite (nth_map_lt _ _ _ 0 0). }
  assert (Hd' : decr (map (Rmult q) xp)).
  { intros i j. rewrite map_length. intros Hij. rewrite !EL by lia. apply Rmult_lt_compat_l; [ assumption | apply Hd; lia ]. }
  rewrite !interp1_decr_raw by (rewrite ?map_length; auto; lia). rewrite map_length.
  unfold near1. rewrite map_length, nearest_scale by assumption.
  set (r := Nat.min _ _). set (c := (if Nat.ltb r (length xp - 2) then r - 1 else length xp - 2)%nat).
  assert (Hc : (c + 1 < length xp)%nat) by (unfold c, r; destruct (Nat.ltb_spec (Nat.min (Nat.max (nearest x xp) 1) (length xp - 2)) (length xp - 2)); lia).
  unfold cell, line. rewrite !EL by lia. pose proof (decr_neq xp Hd c Hc). field. split; [ lra | ].
  replace (q * el xp (c + 1) - q * el xp c) with (q * (el xp (c + 1) - el xp c)) by ring. apply Rmult_integral_contrapositive_currified; lra.
Qed.

(** ** continuity through changes of variable *)
Lemma continuity_transport (F g phi psi : R -> R) s m d : 0 < d -> psi s = m -> continuity_pt psi s -> continuity_pt phi (g m) ->
  (forall y, Rabs (y - s) < d -> F y = phi (g (psi y))) -> continuity_pt g m -> continuity_pt F s.
Proof.
  intros D0 E Cp Cf H Cg. apply (continuity_pt_local F (fun y => phi (g (psi y))) s d D0 H). subst m.
  apply (continuity_pt_comp (fun y => g (psi y)) phi); [ | exact Cf ].
  now apply (continuity_pt_comp psi g).
Qed.
Lemma continuity_ball f x e : continuity_pt f x -> 0 < e -> exists d, 0 < d /\ forall y, Rabs (y - x) < d -> Rabs (f y - f x) < e.
Proof.
  intros C He. destruct (C e He) as (d & D0 & HD). exists d. split; [ exact D0 | ]. intros y Hy.
  destruct (Req_dec x y) as [<- | N]; [ replace (f x - f x) with 0 by ring; now rewrite Rabs_R0 | ].
  apply HD. split; [ split; [ exact I | exact N ] | exact Hy ].
Qed.
Lemma cont_invsq s : 0 < s -> continuity_pt (fun y => / y ^ 2) s.
Proof.
  intros Hs. apply continuity_pt_inv; [ reg | ]. apply pow_nonzero. lra.
Qed.
Lemma cont_invsqrt x : 0 < x -> continuity_pt (fun y => / sqrt y) x.
Proof.
  intros Hx. apply continuity_pt_inv; [ apply continuity_pt_sqrt; lra | ]. assert (0 < sqrt x) by (now apply sqrt_lt_R0). lra.
Qed.

(** ** the lookup of the halofit scale in a decreasing table t of variances *)
Lemma lookup_low t lr i x : (4 <= length t)%nat -> length lr = length t -> decr t -> incr lr ->
  (1 <= i)%nat -> (i + 1 < length t - 2)%nat -> el t (i + 1) <= x <= el t i -> el lr 0 <= interp1 x t lr.
Proof.
  intros Hn Hl Hd Hi H1 H2 Hx. rewrite interp1_decr_raw by (auto; lia).
  destruct (nearest_decr x t i Hd ltac:(lia) Hx) as [Hnear _].
  assert (HC : exists c, (if Nat.ltb (near1 x t) (length t - 2) then near1 x t - 1 else length t - 2)%nat = c /\ (c <= i)%nat).
  { eexists. split; [ reflexivity | ]. unfold near1.
    destruct Hnear as [-> | ->].
    - destruct (Nat.ltb_spec (Nat.min (Nat.max i 1) (length t - 2)) (length t - 2)); lia.
    - destruct (Nat.ltb_spec (Nat.min (Nat.max (i + 1) 1) (length t - 2)) (length t - 2)); lia. }
  destruct HC as (c & -> & Hc).
  assert (T1 : el t (c + 1) < el t c) by (apply Hd; lia). assert (T2 : el lr c < el lr (c + 1)) by (apply Hi; lia).
  assert (T3 : el lr 0 <= el lr c) by (apply incr_le; [ assumption | lia ]).
  assert (T4 : el t i <= el t c) by (apply decr_le; [ assumption | lia ]).
  unfold cell, line. assert (0 <= (el lr (c + 1) - el lr c) / (el t (c + 1) - el t c) * (x - el t c)); [ | lra ].
  replace ((el lr (c + 1) - el lr c) / (el t (c + 1) - el t c) * (x - el t c)) with ((el lr (c + 1) - el lr c) * / (el t c - el t (c + 1)) * (el t c - x)) by (field; lra).
  apply Rmult_le_pos; [ apply Rmult_le_pos; [ lra | left; apply Rinv_0_lt_compat; lra ] | lra ].
Qed.

Section Jump.
Variables (t lr : list R) (F : R -> R) (i : nat).
Hypotheses (Hn : (4 <= length t)%nat) (Hl : length lr = length t) (Hd : decr t) (Hi : incr lr) (Hlow : ln 1e-6 <= el lr 0).
Hypotheses (H1 : (1 <= i)%nat) (H2 : (i + 1 < length t - 2)%nat) (Hpos : 0 < el t (i + 1)).
Hypothesis HF : forall s, 0 < s -> F s = 1.0 / clip_lo (exp (interp1 1.0 (map (Rmult (s ^ 2)) t) lr)) 1e-6.
Let m := (el t i + el t (i + 1)) / 2.
Let s0 := / sqrt m.
Let g := fun x => interp1 x t lr.

Lemma m_range : el t (i + 1) < m < el t i.
Proof. assert (el t (i + 1) < el t i) by (apply Hd; lia). unfold m. lra. Qed.
Lemma s0_pos : 0 < s0.
Proof. apply Rinv_0_lt_compat, sqrt_lt_R0. pose proof m_range. lra. Qed.
Lemma s0_sq : / s0 ^ 2 = m.
Proof.
  pose proof m_range. unfold s0. rewrite pow_inv, Rinv_inv. rewrite <- Rsqr_pow2. apply Rsqr_sqrt. lra.
Qed.
Lemma F_value s : 0 < s -> el t (i + 1) <= / s ^ 2 <= el t i -> F s = / exp (g (/ s ^ 2)).
Proof.
  intros Hs Hr. rewrite HF by assumption. assert (Hq : 0 < s ^ 2) by (now apply pow_lt).
  replace (interp1 1.0 (map (Rmult (s ^ 2)) t) lr) with (g (/ s ^ 2)).
  - unfold clip_lo. rewrite Rmax_left; [ replace 1.0 with 1 by lra; unfold Rdiv; ring | ].
    pose proof (lookup_low t lr i (/ s ^ 2) Hn Hl Hd Hi H1 H2 Hr) as L. unfold g.
    rewrite <- (exp_ln 1e-6) by lra. destruct (Rle_lt_or_eq_dec (ln 1e-6) (interp1 (/ s ^ 2) t lr) ltac:(lra)) as [Q | Q]; [ left; now apply exp_increasing | right; now rewrite Q ].
  - unfold g. replace 1.0 with (s ^ 2 * / s ^ 2) by (rewrite Rinv_r; lra). symmetry. apply interp1_scale; auto.
Qed.
Lemma jump_iff : continuity_pt F s0 <-> el t i - el t (i + 1) = (el t (i - 1) - el t i) * ((el lr (i + 1) - el lr i) / (el lr i - el lr (i - 1))).
Proof.
  pose proof m_range as Hm. pose proof s0_pos as Hs. pose proof s0_sq as Es.
  transitivity (continuity_pt g m).
  - split; intros C.
    + destruct (continuity_ball (fun x => x) m (Rmin (m - el t (i + 1)) (el t i - m)) ltac:(reg) ltac:(apply Rmin_glb_lt; lra)) as (d & D0 & HD).
      apply (continuity_transport g F (fun u => - ln u) (fun x => / sqrt x) m s0 d D0 eq_refl).
      * apply cont_invsqrt. lra.
      * apply continuity_pt_opp. apply derivable_continuous_pt. exists (/ F s0). apply derivable_pt_lim_ln.
        rewrite F_value by (rewrite ?Es; lra). apply Rinv_0_lt_compat, exp_pos.
      * intros x Hx. specialize (HD x Hx). apply Rabs_def2 in HD.
        pose proof (Rmin_l (m - el t (i + 1)) (el t i - m)). pose proof (Rmin_r (m - el t (i + 1)) (el t i - m)).
        assert (Hx0 : 0 < x) by lra. assert (Hsx : 0 < sqrt x) by (now apply sqrt_lt_R0).
        assert (Ex : / (/ sqrt x) ^ 2 = x) by (rewrite pow_inv, Rinv_inv, <- Rsqr_pow2; apply Rsqr_sqrt; lra).
        rewrite F_value; rewrite ?Ex; [ | now apply Rinv_0_lt_compat | lra ].
        rewrite <- exp_Ropp, ln_exp. ring.
      * exact C.
    + destruct (continuity_ball (fun y => / y ^ 2) s0 (Rmin (m - el t (i + 1)) (el t i - m)) (cont_invsq s0 Hs) ltac:(apply Rmin_glb_lt; lra)) as (d & D0 & HD).
      apply (continuity_transport F g (fun u => / exp u) (fun y => / y ^ 2) s0 m (Rmin d s0)); auto.
      * now apply Rmin_glb_lt.
      * now apply cont_invsq.
      * apply continuity_pt_inv; [ apply derivable_continuous_pt, derivable_pt_exp | ]. pose proof (exp_pos (g m)). lra.
      * intros y Hy. pose proof (Rmin_l d s0). pose proof (Rmin_r d s0). specialize (HD y ltac:(lra)). cbv beta in HD. rewrite Es in HD.
        apply Rabs_def2 in HD. pose proof (Rmin_l (m - el t (i + 1)) (el t i - m)). pose proof (Rmin_r (m - el t (i + 1)) (el t i - m)).
        apply F_value; [ | lra ]. apply Rabs_def2 in Hy. lra.
  - unfold g, m. rewrite (interp1_decr_jump t lr i Hn Hl Hd H1 H2).
    assert (T1 : el t (i + 1) < el t i) by (apply Hd; lia). assert (T2 : el t i < el t (i - 1)) by (apply Hd; lia).
    assert (T3 : el lr i < el lr (i + 1)) by (apply Hi; lia). assert (T4 : el lr (i - 1) < el lr i) by (apply Hi; lia).
    unfold slope. replace (i - 1 + 1)%nat with i by lia.
    split; intros E.
    + assert (Q : (el lr (i + 1) - el lr i) * (el t i - el t (i - 1)) = (el lr i - el lr (i - 1)) * (el t (i + 1) - el t i)).
      { replace (el lr (i + 1) - el lr i) with ((el lr (i + 1) - el lr i) / (el t (i + 1) - el t i) * (el t (i + 1) - el t i)) by (field; lra).
        rewrite E. field. lra. }
      apply Rmult_eq_reg_l with (el lr i - el lr (i - 1)); [ | lra ].
      replace ((el lr i - el lr (i - 1)) * ((el t (i - 1) - el t i) * ((el lr (i + 1) - el lr i) / (el lr i - el lr (i - 1))))) with ((el t (i - 1) - el t i) * (el lr (i + 1) - el lr i)) by (field; lra). lra.
    + assert (Q : (el lr (i + 1) - el lr i) * (el t i - el t (i - 1)) = (el lr i - el lr (i - 1)) * (el t (i + 1) - el t i)).
      { replace (el t (i + 1) - el t i) with (- (el t i - el t (i + 1))) by ring. rewrite E. field. lra. }
      replace (el lr (i + 1) - el lr i) with ((el lr i - el lr (i - 1)) * (el t (i + 1) - el t i) / (el t i - el t (i - 1))) by (rewrite <- Q; field; lra).
      field. lra.
Qed.
End Jump.
