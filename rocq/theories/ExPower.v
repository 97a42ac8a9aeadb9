(** * Concrete cases for PropsPower *)
From Coquelicot Require Import Coquelicot.
From Verif Require Import Np IntegrateSpec Core Background BgSpec BgPositive BgGrowth BgFinal2 BgFinal4 Transfer Power PowerSpec PowerProofs TransferProofs PowerFinal.
Opaque chi_table growth_table_ODE growth_table_gamma logspace.

Lemma ex_power_planck : reachable Planck15 /\ physical Planck15 /\ moderate Planck15 /\ sigmasqr_default Planck15 8.0 eisenhu <> 0.
Proof. destruct planck_ok as (A & B & C & _). exact (conj A (conj B (conj C planck_sigma))). Qed.
Lemma ex_planck_alpha : dense Planck15 /\ 0 <= eh_alpha_gamma Planck15.
Proof. destruct planck_dense as (P1 & P2 & P3 & P4). split; [ exact P1 | now apply alpha_gamma_realistic ]. Qed.
Lemma ex_outside : exists T T' : transfer, T Planck15 (1/1000) <> T' Planck15 (1/1000) /\ (forall k, exp (-4) <= k <= exp 3 -> T Planck15 k = T' Planck15 k).
Proof.
  exists (fun _ k => if Rlt_dec k (1/500) then 0 else 1), (fun _ _ => 1). split.
  - destruct (Rlt_dec _ _); lra.
  - intros k Hk. destruct (Rlt_dec _ _) as [H | _]; [ exfalso | reflexivity ].
    assert (1 / 500 < exp (-4)); [ | lra ]. replace (-4) with (- (4)) by lra. rewrite exp_Ropp.
    replace (1/500) with (/ 500) by lra. apply Rinv_lt_contravar; [ pose proof (exp_pos 4); lra | ].
    replace 4 with (1 + 1 + 1 + 1) by lra. rewrite !exp_plus. pose proof exp_le_3. pose proof (exp_pos 1).
    assert (exp 1 * exp 1 <= 9) by nra. nra.
Qed.
Lemma ex_planck_linear k : 0 < k -> 0 < linear_matter_power Planck15 k 1 eisenhu.
Proof.
  intros Hk. destruct planck_ok as (A & B & C & _). destruct ex_planck_alpha as [P Q].
  apply no_wiggle_power; try assumption; [ right; now split | | ].
  - unfold Planck15, make_cosmology; simpl; lra.
  - rewrite growth_one; [ lra | exact A | right; now split ].
Qed.
Lemma ex_planck_halofit k : 0 < k -> exists p, halofit Planck15 k 1 eisenhu "takahashi2012" = Ok p /\ 0 < p.
Proof. intros Hk. apply takahashi_pos; [ exact Hk | left; now apply ex_planck_linear ]. Qed.
