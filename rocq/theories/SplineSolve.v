(** * Existence of a solver meeting [solve_ok], and unique solvability of the spline systems *)
From Verif Require Import Np NpLemmas Interp OdeSpec Sparse SparseSpec SparseProofs Likelihood MxBridge Spline SplineSpec SplineLists SplineEval SplineSystem SplineQuad SplineLinear.

Lemma solve_mx_ok : solve_ok solve_mx.
Proof.
  intros n A s W HA Hs. pose proof (linv_mx_ok W HA) as (W' & H1 & H2). unfold solve_mx.
  assert (L : wf1 n (mv (linv_mx n A) s)) by (unfold wf1, mv; rewrite map_length; apply W').
  assert (E : forall i, (i < n)%nat -> el (mv (linv_mx n A) s) i = Rsum n (fun j => el2 (linv_mx n A) i j * el s j)).
  { intros i Hi. unfold el at 1, mv. rewrite nth_map_lt with (d := []) by (destruct W' as [-> _]; exact Hi). rewrite (vdot_Rsum n) by (exact Hs || (apply (wf2_row n n); assumption)). reflexivity. }
  split; [ exact L | ]. split; [ exact Hs | ]. intros i Hi.
  rewrite (Rsum_ext n _ (fun l => Rsum n (fun j => el2 A i l * el2 (linv_mx n A) l j * el s j))).
  2: { intros l Hl. rewrite E by exact Hl. rewrite <- Rsum_scal. apply Rsum_ext. intros; ring. }
  rewrite Rsum_swap. rewrite (Rsum_ext n _ (fun j => if Nat.eqb i j then el s j else 0)).
  - symmetry. now apply Rsum_delta_r.
  - intros j Hj. rewrite Rsum_scal_r, H1 by assumption. destruct (Nat.eqb i j); ring.
Qed.
Lemma wf1_el_ext n u v : wf1 n u -> wf1 n v -> (forall i, (i < n)%nat -> el u i = el v i) -> u = v.
Proof. intros Hu Hv H. apply nth_ext with (d := 0) (d' := 0); [ congruence | ]. intros i Hi. apply H. rewrite <- Hu. exact Hi. Qed.

Lemma cubic_invertible natural x : (3 < length x)%nat -> incr x -> invertible (length x) (cubic_matrix natural x).
Proof.
  intros HN Hx. destruct (cubic_matrix_rows x HN natural) as [W R]. apply kernel_invertible; [ exact W | ]. intros z Lz Hz.
  apply (cubic_kernel x natural (el z) HN Hx).
  - pose proof (Hz 0%nat ltac:(lia)) as K. rewrite R in K by lia. exact K.
  - pose proof (Hz (length x - 1)%nat ltac:(lia)) as K. rewrite R in K by lia. rewrite Nat.eqb_refl in K. destruct (Nat.eqb_spec (length x - 1) 0); [ lia | exact K ].
  - intros i Hi. pose proof (Hz (S i) ltac:(lia)) as K. rewrite R in K by lia. destruct (Nat.eqb_spec (S i) 0); [ lia | ]. destruct (Nat.eqb_spec (S i) (length x - 1)); [ lia | ].
    replace (S i - 1)%nat with i in K by lia. exact K.
Qed.
Lemma quad_invertible x : (2 < length x)%nat -> incr x -> invertible (S (length x)) (quad_matrix x).
Proof.
  intros HN Hx. destruct (quad_matrix_rows x HN) as [W R]. apply kernel_invertible; [ exact W | ]. intros z Lz Hz i Hi.
  apply (quad_kernel x (el z) HN Hx); [ | | | lia ].
  - pose proof (Hz 0%nat ltac:(lia)) as K. rewrite R in K by lia. exact K.
  - pose proof (Hz (length x)%nat ltac:(lia)) as K. rewrite R in K by lia. rewrite Nat.eqb_refl in K. destruct (Nat.eqb_spec (length x) 0); [ lia | exact K ].
  - intros j Hj. pose proof (Hz (S j) ltac:(lia)) as K. rewrite R in K by lia. destruct (Nat.eqb_spec (S j) 0); [ lia | ]. destruct (Nat.eqb_spec (S j) (length x)); [ lia | ].
    replace (S j - 1)%nat with j in K by lia. exact K.
Qed.
(** two solutions of the same system agree *)
Lemma cubic_unique x y natural z z' : (3 < length x)%nat -> incr x -> cubic_system x y natural z -> cubic_system x y natural z' -> forall i, (i < length x)%nat -> z i = z' i.
Proof.
  intros HN Hx (A1 & A2 & A3) (B1 & B2 & B3) i Hi. apply Rminus_diag_uniq. apply (cubic_kernel x natural (fun j => z j - z' j) HN Hx); [ | | | exact Hi ].
  - unfold first_row in *. destruct natural; lra.
  - unfold last_row in *. destruct natural; lra.
  - intros j Hj. pose proof (A3 j Hj). pose proof (B3 j Hj). unfold mid_row in *. lra.
Qed.
Lemma quad_unique x y z z' : (2 < length x)%nat -> incr x -> quad_system x y z -> quad_system x y z' -> forall i, (i <= length x)%nat -> z i = z' i.
Proof.
  intros HN Hx (A1 & A2 & A3) (B1 & B2 & B3) i Hi. apply Rminus_diag_uniq. apply (quad_kernel x (fun j => z j - z' j) HN Hx); [ | | | exact Hi ].
  - unfold qfirst in *. lra.
  - unfold qlast in *. lra.
  - intros j Hj. pose proof (A3 j Hj). pose proof (B3 j Hj). unfold qmid in *. lra.
Qed.
