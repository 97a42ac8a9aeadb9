(** * Derivatives of real functions, in a form that can be used beside MathComp *)
From Coq Require Import Reals Lra.
From Coquelicot Require Import Coquelicot.
Local Open Scope R_scope.
Set Implicit Arguments.

Definition dv (f : R -> R) (t d : R) : Prop := is_derive f t d.
Definition near (t : R) (P : R -> Prop) : Prop := exists e, 0 < e /\ forall s, Rabs (s - t) < e -> P s.

Lemma dv_is f t d : dv f t d <-> is_derive f t d.
Proof. unfold dv. tauto. Qed.
Lemma near_locally t P : near t P <-> locally t P.
Proof.
  split.
  - intros (e & He & H). exists (mkposreal e He). intros s Hs. apply H. exact Hs.
  - intros (e & H). exists e. split; [ apply cond_pos | ]. intros s Hs. apply H. exact Hs.
Qed.
Lemma near_self t P : near t P -> P t.
Proof. intros (e & He & H). apply H. unfold Rminus. rewrite Rplus_opp_r, Rabs_R0. exact He. Qed.
Lemma near_and t P Q : near t P -> near t Q -> near t (fun s => P s /\ Q s).
Proof. rewrite !near_locally. intros; now apply filter_and. Qed.
Lemma near_all t (P : R -> Prop) : (forall s, P s) -> near t P.
Proof. intros H. exists 1. split; [ lra | auto ]. Qed.
Lemma near_imp t (P Q : R -> Prop) : (forall s, P s -> Q s) -> near t P -> near t Q.
Proof. intros H (e & He & K). exists e. auto. Qed.
Lemma dv_const x t : dv (fun _ => x) t 0.
Proof. unfold dv. auto_derive; [ exact I | ring ]. Qed.
Lemma dv_plus f g t a b : dv f t a -> dv g t b -> dv (fun s => f s + g s) t (a + b).
Proof. intros. now apply (is_derive_plus (V := R_NormedModule)). Qed.
Lemma dv_opp f t a : dv f t a -> dv (fun s => - f s) t (- a).
Proof. intros. now apply (is_derive_opp (V := R_NormedModule)). Qed.
Lemma dv_mult f g t a b : dv f t a -> dv g t b -> dv (fun s => f s * g s) t (a * g t + f t * b).
Proof. intros. now apply is_derive_mult with (f := f) (g := g); [ | | intros; apply Rmult_comm ]. Qed.
Lemma dv_inv f t a : dv f t a -> f t <> 0 -> dv (fun s => / f s) t (- a / f t ^ 2).
Proof. intros. now apply is_derive_inv. Qed.
Lemma dv_ext f g t d : (forall s, f s = g s) -> dv f t d -> dv g t d.
Proof. intros E H. unfold dv in *. now apply (is_derive_ext f). Qed.
Lemma dv_near f g t d : near t (fun s => f s = g s) -> dv f t d -> dv g t d.
Proof. intros E H. unfold dv in *. apply (is_derive_ext_loc f); [ now apply near_locally | exact H ]. Qed.
Lemma dv_eq f t d d' : d = d' -> dv f t d -> dv f t d'.
Proof. now intros ->. Qed.
Lemma dv_unique f t a b : dv f t a -> dv f t b -> a = b.
Proof. intros Ha Hb. apply is_derive_unique in Ha, Hb. now rewrite <- Ha, <- Hb. Qed.
Lemma dv_nonzero f t d : dv f t d -> f t <> 0 -> near t (fun s => f s <> 0).
Proof.
  intros H N. apply near_locally. assert (K : continuous f t) by (apply (ex_derive_continuous (V := R_NormedModule)); now exists d).
  apply (K (fun y => y <> 0)). exists (mkposreal (Rabs (f t)) (Rabs_pos_lt _ N)). intros y Hy E. unfold ball in Hy; cbn in Hy; unfold AbsRing_ball, abs, minus, plus, opp in Hy; cbn in Hy.
  rewrite E in Hy. rewrite Rplus_0_l, Rabs_Ropp in Hy. lra.
Qed.
Lemma dv_pos f t d : dv f t d -> 0 < f t -> near t (fun s => 0 < f s).
Proof.
  intros H N. apply near_locally. assert (K : continuous f t) by (apply (ex_derive_continuous (V := R_NormedModule)); now exists d).
  apply (K (fun y => 0 < y)). exists (mkposreal (f t) N). intros y Hy. unfold ball in Hy; cbn in Hy; unfold AbsRing_ball, abs, minus, plus, opp in Hy; cbn in Hy.
  apply Rabs_def2 in Hy. lra.
Qed.
Lemma dv_small f t d e : dv f t d -> 0 < e -> near t (fun s => Rabs (f s - f t) < e).
Proof.
  intros H N. apply near_locally. assert (K : continuous f t) by (apply (ex_derive_continuous (V := R_NormedModule)); now exists d).
  apply (K (fun y => Rabs (y - f t) < e)). exists (mkposreal e N). intros y Hy. exact Hy.
Qed.
Lemma dv_ln f t d : dv f t d -> 0 < f t -> dv (fun s => ln (f s)) t (d / f t).
Proof.
  intros H P. unfold dv. replace (d / f t) with (scal d (/ f t)) by reflexivity. apply (is_derive_comp ln f); [ now apply is_derive_ln | exact H ].
Qed.
