(** * The arithmetic of jax.jvp in floating point, on finite numbers *)
From Coquelicot Require Import Coquelicot.
From Verif Require Import Np NpLemmas Core Background BgSpec SparseX HalofitX GradSpec Ad AdSpec AdProofs AdNan AdNanSpec AdNanProofs FinRules.

Local Notation N := num_x.
Local Notation M := num_dual.
Lemma xpow_nat_fin a n : xpow_nat (Fin a) n = Fin (a ^ n).
Proof. induction n as [ | n IH]; [ reflexivity | ]. cbn [xpow_nat]. rewrite IH. reflexivity. Qed.
Lemma xipow_fin a z : a <> 0 \/ (0 <= z)%Z -> xipow (Fin a) z = Fin (ipow a z).
Proof.
  intros H. destruct z as [ | p | p]; cbn [xipow ipow]; [ reflexivity | apply xpow_nat_fin | ].
  destruct H as [H | H]; [ | lia ]. rewrite xpow_nat_fin, xdiv_fin by (now apply pow_nonzero). f_equal. field. now apply pow_nonzero.
Qed.
Ltac fins := match goal with |- finite _ => split; [ eexists; reflexivity | first [ left; reflexivity | right; eexists; reflexivity ] ] end.
Ltac rds := unfold rd, x_val, x_tan; cbn [fst snd].
Lemma rd_ipow x z : finite x -> x_val x <> 0 \/ (0 < z)%Z -> finite (nipow N x z) /\ rd (nipow N x z) = nipow M (rd x) z.
Proof.
  intros HX HN. fin; unfold x_val in HN; cbn [fst] in HN; cbn [nipow num_x fst snd ttimes option_map]; rewrite xipow_fin by (destruct HN; [ now left | right; lia ]); (split; [ | rds; cbn [nipow num_dual fst snd] ]).
  - fins.
  - f_equal. ring.
  - rewrite xipow_fin by (destruct HN; [ now left | right; lia ]). cbn [xmul]. fins.
  - rewrite xipow_fin by (destruct HN; [ now left | right; lia ]). cbn [xmul]. reflexivity.
Qed.
Lemma xlog_pos a : 0 < a -> xlog (Fin a) = Fin (ln a).
Proof. intros H. cbn [xlog]. destruct (Rlt_dec 0 a); [ reflexivity | lra ]. Qed.
Lemma xsqrt_pos a : 0 < a -> xsqrt (Fin a) = Fin (sqrt a).
Proof. intros H. cbn [xsqrt]. destruct (Rlt_dec a 0); [ lra | reflexivity ]. Qed.
Lemma rd_ln x : finite x -> 0 < x_val x -> finite (nln N x) /\ rd (nln N x) = nln M (rd x).
Proof.
  intros HX HN. fin; unfold x_val in HN; cbn [fst] in HN; cbn [nln num_x fst snd option_map]; rewrite xlog_pos by exact HN; rewrite ?xdiv_fin by lra; (split; [ fins | rds; cbn [nln num_dual fst snd]; f_equal; try (unfold Rdiv; ring) ]).
Qed.
Lemma rd_sqrt x : finite x -> 0 < x_val x -> finite (nsqrt N x) /\ rd (nsqrt N x) = nsqrt M (rd x).
Proof.
  intros HX HN. fin; unfold x_val in HN; cbn [fst] in HN; cbn [nsqrt num_x fst snd ttimes option_map]; rewrite xsqrt_pos by exact HN; rewrite ?xdiv_fin by (apply Rgt_not_eq, sqrt_lt_R0, HN); cbn [xmul]; (split; [ fins | rds; cbn [nsqrt num_dual fst snd]; f_equal; try ring ]).
Qed.
Lemma rd_sin x : finite x -> finite (nsin N x) /\ rd (nsin N x) = nsin M (rd x). Proof. intros HX. fin; done_fin. Qed.
Lemma rd_cos x : finite x -> finite (ncos N x) /\ rd (ncos N x) = ncos M (rd x). Proof. intros HX. fin; done_fin. Qed.
Lemma rd_sinh x : finite x -> finite (nsinh N x) /\ rd (nsinh N x) = nsinh M (rd x). Proof. intros HX. fin; done_fin. Qed.
Lemma rd_abs x : finite x -> finite (nabs N x) /\ rd (nabs N x) = nabs M (rd x).
Proof. intros HX. fin; cbn [nabs num_x fst snd ttimes option_map xabs]; unfold xsign; cbn [xsgR xmul]; (split; [ fins | rds; cbn [nabs num_dual fst snd]; f_equal; ring ]). Qed.
Lemma rd_max x y : finite x -> finite y -> finite (nmax N x y) /\ rd (nmax N x y) = nmax M (rd x) (rd y).
Proof.
  intros HX HY. fin; cbn [nmax num_x fst snd ttimes option_map]; unfold xmax, xlt, balanced, xeqb;
  repeat match goal with |- context[Rlt_dec ?u ?v] => destruct (Rlt_dec u v) end; repeat match goal with |- context[Req_EM_T ?u ?v] => destruct (Req_EM_T u v) end; try lra; rewrite ?xdiv_fin by lra; cbn [xmul tplus xadd];
  (split; [ fins | rds; cbn [nmax num_dual fst snd]; unfold sel3;
    first [ rewrite Rmax_left by lra | rewrite Rmax_right by lra ]; f_equal; repeat destruct (Rlt_dec _ _); try lra; field ]).
Qed.
Lemma rd_min x y : finite x -> finite y -> finite (nmin N x y) /\ rd (nmin N x y) = nmin M (rd x) (rd y).
Proof.
  intros HX HY. fin; cbn [nmin num_x fst snd ttimes option_map]; unfold xmin, xlt, balanced, xeqb;
  repeat match goal with |- context[Rlt_dec ?u ?v] => destruct (Rlt_dec u v) end; repeat match goal with |- context[Req_EM_T ?u ?v] => destruct (Req_EM_T u v) end; try lra; rewrite ?xdiv_fin by lra; cbn [xmul tplus xadd];
  (split; [ fins | rds; cbn [nmin num_dual fst snd]; unfold sel3;
    first [ rewrite Rmin_left by lra | rewrite Rmin_right by lra ]; f_equal; repeat destruct (Rlt_dec _ _); try lra; field ]).
Qed.

Global Instance floats_x : floats num_x :=
  Floats xdual num_x finite rd (fun x _ => eq_refl) rd_cst rd_add rd_sub rd_mul rd_div rd_neg rd_exp rd_ln rd_sqrt rd_sin rd_cos rd_sinh rd_abs rd_ipow rd_pow rd_max rd_min.
