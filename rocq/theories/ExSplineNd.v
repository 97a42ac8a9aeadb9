(** * Examples for C154 *)
From Coq Require Import Reals Lra Lia ZArith String List.
From Coquelicot Require Import Coquelicot.
From Verif Require Import Np NpLemmas Interp OdeSpec SparseSpec Spline SplineSpec SplineLinear SplineSolve SplineProofs SplineFinal ExSpline Nd NdSpec NdProofs SplineNd SplineNdProofs.
Import ListNotations.
Local Open Scope R_scope.

(** a 2 x 2 grid of query points *)
Definition grid22 : nd := Nd [2%nat; 2%nat] (fun i => match i with [0%nat; 0%nat] => 1 / 4 | [0%nat; _] => 3 / 4 | [_; 0%nat] => 5 / 4 | _ => 7 / 4 end).
Lemma grid22_free : forall i, inside (shp grid22) i -> ~ breakpoint 3 sx (get grid22 i).
Proof.
  intros i Hi (m & Hm & E). cbn [shp grid22] in Hi. inversion Hi as [ | ? u ? i' Hu Hi' ]; subst. inversion Hi' as [ | ? v ? i'' Hv Hi'' ]; subst. inversion Hi''; subst.
  assert (m < 2)%nat as Hm' by (unfold n_pieces, sx in Hm; simpl in Hm; lia). clear Hm Hi Hi' Hi''.
  destruct u as [ | [ | u]]; try lia; destruct v as [ | [ | v]]; try lia; destruct m as [ | [ | m]]; try lia; unfold knot, sx, el in E; simpl in E; lra.
Qed.
Lemma one_entry_refuted : exists solve x y s a b, solve_ok solve /\ incr x /\ spline_init solve (Array1 x) (Array1 y) (Z.of_nat 3) "not-a-knot" None = Ok s /\
  exists r, spline_integral_nd s (vec [a]) (vec [b]) = Ok r /\ flat r <> [RInt (spline_call s) a b].
Proof.
  destruct ex_cubic as [s Es]. exists solve_mx, sx, sy, s, 0, 1. split; [ exact ex_solver | split; [ exact sx_incr | split; [ exact Es | ] ] ].
  destruct (integral_one s (vec [0]) (vec [1]) 0 eq_refl eq_refl) as (r & E & N). exists r. split; [ exact E | ]. unfold flat. rewrite N. discriminate.
Qed.
