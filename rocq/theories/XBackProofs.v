(** * The arithmetic of jax.grad in floating point, on finite numbers *)
From Coquelicot Require Import Coquelicot.
From Verif Require Import Np NpLemmas Core Background BgSpec SparseX HalofitX GradSpec Ad AdSpec AdProofs AdRel AdNan AdNanSpec AdNanProofs AdNuis AdNuisSpec AdNuisBack AdNuisBackSpec FinRules FinOps FinNz FinSurvey
  XBack XBackSpec.

Local Notation N := num_xb.
Local Notation M := num_dual.
(** an ordinary value and ordinary partial derivatives *)
Definition xb_v (x : xback) : R := match fst x with Fin a => a | _ => 0 end.
Definition xb_p (x : xback) (q : nat) : R := match partial x q with Fin r => r | _ => 0 end.
Definition xb_ok (x : xback) : Prop := (exists a, fst x = Fin a) /\ match snd x with None => True | Some B => forall u q, B (Fin u) q = Fin (u * xb_p x q) end.
Section Along.
Variables (K : nat) (w : nat -> R).
Definition xb_rd (x : xback) : dual := (xb_v x, Rsum K (fun q => xb_p x q * w q)).

(** one argument: the cotangent u becomes u * d *)
Lemma xb_one x z c d k : xb_ok x -> fst z = Fin c -> snd z = pby k (snd x) -> (forall u, k (Fin u) = Fin (u * d)) -> xb_ok z /\ xb_rd z = (c, d * snd (xb_rd x)).
Proof.
  intros [_ HB] EV EP HK.
  assert (EQ : forall q, xb_p z q = d * xb_p x q).
  { intros q. unfold xb_p, partial in *. rewrite EP. destruct (snd x) as [B | ]; cbn [pby option_map]; [ | ring ]. rewrite HK, HB. cbn. ring_simplify. rewrite HB. ring. }
  split.
  - split; [ now exists c | ]. rewrite EP. destruct (snd x) as [B | ]; cbn [pby option_map]; [ | exact I ]. intros u q. rewrite HK, HB, EQ. f_equal. ring.
  - unfold xb_rd. cbn [snd]. f_equal; [ unfold xb_v; now rewrite EV | ]. rewrite <- Rsum_scal. apply Rsum_ext. intros q _. rewrite EQ. ring.
Qed.
(** two arguments *)
Lemma xb_two x y z c d e k l : xb_ok x -> xb_ok y -> fst z = Fin c -> snd z = pplus (pby k (snd x)) (pby l (snd y)) ->
  (forall u, k (Fin u) = Fin (u * d)) -> (forall u, l (Fin u) = Fin (u * e)) -> xb_ok z /\ xb_rd z = (c, d * snd (xb_rd x) + e * snd (xb_rd y)).
Proof.
  intros [_ HB] [_ HC] EV EP HK HL.
  assert (EU : match snd z with None => forall q, d * xb_p x q + e * xb_p y q = 0 | Some B => forall u q, B (Fin u) q = Fin (u * (d * xb_p x q + e * xb_p y q)) end).
  { rewrite EP. unfold xb_p, partial in *. destruct (snd x) as [B | ], (snd y) as [C | ]; cbn [pby option_map pplus].
    - intros u q. rewrite HK, HL, HB, HC. cbn [xadd]. f_equal. ring.
    - intros u q. rewrite HK, HB. f_equal. ring.
    - intros u q. rewrite HL, HC. f_equal. ring.
    - intros q. ring. }
  assert (EQ : forall q, xb_p z q = d * xb_p x q + e * xb_p y q).
  { intros q. unfold xb_p at 1, partial. destruct (snd z) as [B | ]; [ rewrite EU; ring | now rewrite EU ]. }
  split.
  - split; [ now exists c | ]. destruct (snd z) as [B | ]; [ | exact I ]. intros u q. now rewrite EU, EQ.
  - unfold xb_rd. cbn [snd]. f_equal; [ unfold xb_v; now rewrite EV | ]. rewrite <- !Rsum_scal, <- Rsum_plus. apply Rsum_ext. intros q _. rewrite EQ. ring.
Qed.
Lemma pby_id f : pby (fun u => u) f = f. Proof. now destruct f. Qed.
Lemma xid u : (fun u : XR => u) (Fin u) = Fin (u * 1). Proof. cbv beta. now rewrite Rmult_1_r. Qed.
Lemma xfin x : xb_ok x -> fst x = Fin (xb_v x). Proof. intros [[a E] _]. unfold xb_v. now rewrite E. Qed.
Lemma xb_val x : xb_ok x -> val N x = fst (xb_rd x). Proof. reflexivity. Qed.
Lemma xb_cst a : xb_ok (cst N a) /\ xb_rd (cst N a) = cst M a.
Proof. split; [ split; [ now exists a | exact I ] | ]. unfold xb_rd. cbn. f_equal. apply Rsum_0_ext. intros. unfold xb_p. cbn. ring. Qed.
Lemma xb_two_r x y z c d e k l r : xb_ok x -> xb_ok y -> fst z = Fin c -> snd z = pplus (pby k (snd x)) (pby l (snd y)) ->
  (forall u, k (Fin u) = Fin (u * d)) -> (forall u, l (Fin u) = Fin (u * e)) -> (c, d * snd (xb_rd x) + e * snd (xb_rd y)) = r -> xb_ok z /\ xb_rd z = r.
Proof. intros. subst r. now apply xb_two with (k := k) (l := l). Qed.
Lemma xb_one_r x z c d k r : xb_ok x -> fst z = Fin c -> snd z = pby k (snd x) -> (forall u, k (Fin u) = Fin (u * d)) -> (c, d * snd (xb_rd x)) = r -> xb_ok z /\ xb_rd z = r.
Proof. intros. subst r. now apply xb_one with (k := k). Qed.
Ltac two HX HY d0 e0 := eapply (xb_two_r _ _ _ _ d0 e0 _ _ _ HX HY).
Ltac one HX d0 := eapply (xb_one_r _ _ _ d0 _ _ HX).
Lemma xb_add x y : xb_ok x -> xb_ok y -> xb_ok (nadd N x y) /\ xb_rd (nadd N x y) = nadd M (xb_rd x) (xb_rd y).
Proof.
  intros HX HY. two HX HY 1 1.
  - cbn [nadd num_xb fst]. rewrite (xfin _ HX), (xfin _ HY). reflexivity.
  - cbn [nadd num_xb snd]. rewrite <- (pby_id (snd x)) at 1. rewrite <- (pby_id (snd y)) at 1. reflexivity.
  - exact xid.
  - exact xid.
  - cbn [nadd num_dual fst snd xb_rd]. f_equal. ring.
Qed.
Lemma xb_sub x y : xb_ok x -> xb_ok y -> xb_ok (nsub N x y) /\ xb_rd (nsub N x y) = nsub M (xb_rd x) (xb_rd y).
Proof.
  intros HX HY. two HX HY 1 (- (1)).
  - cbn [nsub num_xb fst]. rewrite (xfin _ HX), (xfin _ HY). reflexivity.
  - cbn [nsub num_xb snd]. rewrite <- (pby_id (snd x)) at 1. reflexivity.
  - exact xid.
  - intros u. cbn [xneg]. f_equal. ring.
  - cbn [nsub num_dual fst snd xb_rd]. f_equal; ring.
Qed.
Lemma xb_mul x y : xb_ok x -> xb_ok y -> xb_ok (nmul N x y) /\ xb_rd (nmul N x y) = nmul M (xb_rd x) (xb_rd y).
Proof.
  intros HX HY. two HX HY (xb_v y) (xb_v x).
  - cbn [nmul num_xb fst]. rewrite (xfin _ HX), (xfin _ HY). reflexivity.
  - reflexivity.
  - intros u. now rewrite (xfin _ HY).
  - intros u. rewrite (xfin _ HX). cbn [xmul]. f_equal. ring.
  - cbn [nmul num_dual fst snd xb_rd]. f_equal. ring.
Qed.
Lemma xb_div x y : xb_ok x -> xb_ok y -> fst (xb_rd y) <> 0 -> xb_ok (ndiv N x y) /\ xb_rd (ndiv N x y) = ndiv M (xb_rd x) (xb_rd y).
Proof.
  intros HX HY HN. cbn [xb_rd fst] in HN. two HX HY (/ xb_v y) (- (/ xb_v y ^ 2 * xb_v x)).
  - cbn [ndiv num_xb fst]. rewrite (xfin _ HX), (xfin _ HY), xdiv_fin by exact HN. reflexivity.
  - reflexivity.
  - intros u. rewrite (xfin _ HY), xdiv_fin by exact HN. reflexivity.
  - intros u. rewrite (xfin _ HY), (xfin _ HX), xinv2 by exact HN. cbn [xmul xneg]. f_equal. ring.
  - cbn [ndiv num_dual fst snd xb_rd]. f_equal. field. exact HN.
Qed.
Lemma xb_neg x : xb_ok x -> xb_ok (nneg N x) /\ xb_rd (nneg N x) = nneg M (xb_rd x).
Proof.
  intros HX. one HX (- (1)).
  - cbn [nneg num_xb fst]. rewrite (xfin _ HX). reflexivity.
  - reflexivity.
  - intros u. cbn [xneg]. f_equal. ring.
  - cbn [nneg num_dual fst snd xb_rd]. f_equal. ring.
Qed.
Lemma xb_exp x : xb_ok x -> xb_ok (nexp N x) /\ xb_rd (nexp N x) = nexp M (xb_rd x).
Proof.
  intros HX. one HX (exp (xb_v x)).
  - cbn [nexp num_xb fst]. rewrite (xfin _ HX). reflexivity.
  - reflexivity.
  - intros u. rewrite (xfin _ HX). reflexivity.
  - cbn [nexp num_dual fst snd xb_rd]. f_equal; ring.
Qed.
Lemma xb_ln x : xb_ok x -> 0 < fst (xb_rd x) -> xb_ok (nln N x) /\ xb_rd (nln N x) = nln M (xb_rd x).
Proof.
  intros HX HP. cbn [xb_rd fst] in HP. one HX (/ xb_v x).
  - cbn [nln num_xb fst]. rewrite (xfin _ HX), xlog_pos by exact HP. reflexivity.
  - reflexivity.
  - intros u. rewrite (xfin _ HX), xdiv_fin by lra. reflexivity.
  - cbn [nln num_dual fst snd xb_rd]. f_equal. unfold Rdiv. ring.
Qed.
Lemma xb_sqrt x : xb_ok x -> 0 < fst (xb_rd x) -> xb_ok (nsqrt N x) /\ xb_rd (nsqrt N x) = nsqrt M (xb_rd x).
Proof.
  intros HX HP. cbn [xb_rd fst] in HP. assert (NS : sqrt (xb_v x) <> 0) by (apply Rgt_not_eq, sqrt_lt_R0, HP). one HX (0.5 / sqrt (xb_v x)).
  - cbn [nsqrt num_xb fst]. rewrite (xfin _ HX), xsqrt_pos by exact HP. reflexivity.
  - reflexivity.
  - intros u. rewrite (xfin _ HX), xsqrt_pos, xdiv_fin by assumption. reflexivity.
  - cbn [nsqrt num_dual fst snd xb_rd]. f_equal. ring.
Qed.
Lemma xb_sin x : xb_ok x -> xb_ok (nsin N x) /\ xb_rd (nsin N x) = nsin M (xb_rd x).
Proof.
  intros HX. one HX (cos (xb_v x)).
  - cbn [nsin num_xb fst]. rewrite (xfin _ HX). reflexivity.
  - reflexivity.
  - intros u. rewrite (xfin _ HX). reflexivity.
  - cbn [nsin num_dual fst snd xb_rd]. f_equal; ring.
Qed.
Lemma xb_cos x : xb_ok x -> xb_ok (ncos N x) /\ xb_rd (ncos N x) = ncos M (xb_rd x).
Proof.
  intros HX. one HX (- sin (xb_v x)).
  - cbn [ncos num_xb fst]. rewrite (xfin _ HX). reflexivity.
  - reflexivity.
  - intros u. rewrite (xfin _ HX). cbn [xneg xfun xmul]. f_equal. ring.
  - cbn [ncos num_dual fst snd xb_rd]. f_equal; ring.
Qed.
Lemma xb_sinh x : xb_ok x -> xb_ok (nsinh N x) /\ xb_rd (nsinh N x) = nsinh M (xb_rd x).
Proof.
  intros HX. one HX (cosh (xb_v x)).
  - cbn [nsinh num_xb fst]. rewrite (xfin _ HX). reflexivity.
  - reflexivity.
  - intros u. rewrite (xfin _ HX). reflexivity.
  - cbn [nsinh num_dual fst snd xb_rd]. f_equal; ring.
Qed.
Lemma xb_abs x : xb_ok x -> xb_ok (nabs N x) /\ xb_rd (nabs N x) = nabs M (xb_rd x).
Proof.
  intros HX. one HX (Rsgn (xb_v x)).
  - cbn [nabs num_xb fst]. rewrite (xfin _ HX). reflexivity.
  - reflexivity.
  - intros u. rewrite (xfin _ HX). reflexivity.
  - cbn [nabs num_dual fst snd xb_rd]. f_equal; ring.
Qed.
Lemma xb_ipow x z : xb_ok x -> fst (xb_rd x) <> 0 \/ (0 < z)%Z -> xb_ok (nipow N x z) /\ xb_rd (nipow N x z) = nipow M (xb_rd x) z.
Proof.
  intros HX HN. cbn [xb_rd fst] in HN. one HX (IZR z * ipow (xb_v x) (z - 1)).
  - cbn [nipow num_xb fst]. rewrite (xfin _ HX), xipow_fin by (destruct HN; [ now left | right; lia ]). reflexivity.
  - reflexivity.
  - intros u. rewrite (xfin _ HX), xipow_fin by (destruct HN; [ now left | right; lia ]). reflexivity.
  - cbn [nipow num_dual fst snd xb_rd]. f_equal; ring.
Qed.
Lemma xb_pow x y : xb_ok x -> xb_ok y -> 0 < fst (xb_rd x) \/ fst (xb_rd x) = 0 /\ 1 <= fst (xb_rd y) -> xb_ok (npow N x y) /\ xb_rd (npow N x y) = npow M (xb_rd x) (xb_rd y).
Proof.
  intros HX HY HN. cbn [xb_rd fst] in HN. two HX HY (xb_v y * rpow (xb_v x) (xb_v y - 1)) (ln (xb_v x) * rpow (xb_v x) (xb_v y)).
  - cbn [npow num_xb fst]. rewrite (xfin _ HX), (xfin _ HY), xpow_fin by lra. reflexivity.
  - reflexivity.
  - intros u. rewrite (xfin _ HX), (xfin _ HY), xpow_jac by lra. reflexivity.
  - intros u. rewrite (xfin _ HX), (xfin _ HY), xlog_fin, xpow_fin by lra. reflexivity.
  - cbn [npow num_dual fst snd xb_rd]. f_equal; ring.
Qed.
Lemma balanced_fin a b c : balanced (Fin a) (Fin b) (Fin c) = Fin ((if Req_EM_T a b then 1 else 0) / (if Req_EM_T c b then 2 else 1)).
Proof. unfold balanced. cbn [xeqb]. destruct (Req_EM_T a b), (Req_EM_T c b); rewrite xdiv_fin by lra; reflexivity. Qed.
Lemma xmax_fin a b : xmax (Fin a) (Fin b) = Fin (Rmax a b).
Proof. unfold xmax, xlt. destruct (Rlt_dec a b); f_equal; [ rewrite Rmax_right by lra | rewrite Rmax_left by lra ]; reflexivity. Qed.
Lemma xmin_fin a b : xmin (Fin a) (Fin b) = Fin (Rmin a b).
Proof. unfold xmin, xlt. destruct (Rlt_dec b a); f_equal; [ rewrite Rmin_right by lra | rewrite Rmin_left by lra ]; reflexivity. Qed.
Lemma xb_max x y : xb_ok x -> xb_ok y -> xb_ok (nmax N x y) /\ xb_rd (nmax N x y) = nmax M (xb_rd x) (xb_rd y).
Proof.
  intros HX HY. set (m := Rmax (xb_v x) (xb_v y)).
  two HX HY ((if Req_EM_T (xb_v x) m then 1 else 0) / (if Req_EM_T (xb_v y) m then 2 else 1)) ((if Req_EM_T (xb_v y) m then 1 else 0) / (if Req_EM_T (xb_v x) m then 2 else 1)).
  - cbn [nmax num_xb fst]. rewrite (xfin _ HX), (xfin _ HY), xmax_fin. reflexivity.
  - reflexivity.
  - intros u. rewrite (xfin _ HX), (xfin _ HY), xmax_fin, balanced_fin. reflexivity.
  - intros u. rewrite (xfin _ HX), (xfin _ HY), xmax_fin, balanced_fin. reflexivity.
  - cbn [nmax num_dual fst snd xb_rd]. fold m. f_equal. unfold sel3. destruct (Rlt_dec (xb_v y) (xb_v x)) as [L | L].
    + assert (Em : m = xb_v x) by (unfold m; apply Rmax_left; lra). rewrite Em. destruct (Req_EM_T (xb_v x) (xb_v x)); [ | lra ]. destruct (Req_EM_T (xb_v y) (xb_v x)); [ lra | field ].
    + destruct (Rlt_dec (xb_v x) (xb_v y)) as [L' | L'].
      * assert (Em : m = xb_v y) by (unfold m; apply Rmax_right; lra). rewrite Em. destruct (Req_EM_T (xb_v y) (xb_v y)); [ | lra ]. destruct (Req_EM_T (xb_v x) (xb_v y)); [ lra | field ].
      * assert (Em : m = xb_v y) by (unfold m; apply Rmax_right; lra). rewrite Em. destruct (Req_EM_T (xb_v y) (xb_v y)); [ | lra ]. destruct (Req_EM_T (xb_v x) (xb_v y)); [ field | lra ].
Qed.
Lemma xb_min x y : xb_ok x -> xb_ok y -> xb_ok (nmin N x y) /\ xb_rd (nmin N x y) = nmin M (xb_rd x) (xb_rd y).
Proof.
  intros HX HY. set (m := Rmin (xb_v x) (xb_v y)).
  two HX HY ((if Req_EM_T (xb_v x) m then 1 else 0) / (if Req_EM_T (xb_v y) m then 2 else 1)) ((if Req_EM_T (xb_v y) m then 1 else 0) / (if Req_EM_T (xb_v x) m then 2 else 1)).
  - cbn [nmin num_xb fst]. rewrite (xfin _ HX), (xfin _ HY), xmin_fin. reflexivity.
  - reflexivity.
  - intros u. rewrite (xfin _ HX), (xfin _ HY), xmin_fin, balanced_fin. reflexivity.
  - intros u. rewrite (xfin _ HX), (xfin _ HY), xmin_fin, balanced_fin. reflexivity.
  - cbn [nmin num_dual fst snd xb_rd]. fold m. f_equal. unfold sel3. destruct (Rlt_dec (- xb_v y) (- xb_v x)) as [L | L].
    + assert (Em : m = xb_v x) by (unfold m; apply Rmin_left; lra). rewrite Em. destruct (Req_EM_T (xb_v x) (xb_v x)); [ | lra ]. destruct (Req_EM_T (xb_v y) (xb_v x)); [ lra | field ].
    + destruct (Rlt_dec (- xb_v x) (- xb_v y)) as [L' | L'].
      * assert (Em : m = xb_v y) by (unfold m; apply Rmin_right; lra). rewrite Em. destruct (Req_EM_T (xb_v y) (xb_v y)); [ | lra ]. destruct (Req_EM_T (xb_v x) (xb_v y)); [ lra | field ].
      * assert (Em : m = xb_v y) by (unfold m; apply Rmin_right; lra). rewrite Em. destruct (Req_EM_T (xb_v y) (xb_v y)); [ | lra ]. destruct (Req_EM_T (xb_v x) (xb_v y)); [ field | lra ].
Qed.
Definition floats_xb : floats num_xb :=
  Floats xback num_xb xb_ok xb_rd xb_val xb_cst xb_add xb_sub xb_mul xb_div xb_neg xb_exp xb_ln xb_sqrt xb_sin xb_cos xb_sinh xb_abs xb_ipow xb_pow xb_max xb_min.
End Along.
