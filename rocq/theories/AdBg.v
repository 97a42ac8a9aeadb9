(** * Forward-mode differentiation of the background functions *)
From Coquelicot Require Import Coquelicot.
From Verif Require Import Np NpLemmas Core Ode OdeSpec OdeProofs Interp InterpProofs Integrate Background BgSpec BgAlgebra BgTables
  BgGrowth BgPositive BgProofs BgFinal BgFinal2 BgGrad GradSpec Ad AdSpec AdProofs.

Section Lists.
Variable t : R.
Local Notation T f d := (tangent_of f t d).

(** a list of curves and a list of dual numbers *)
Definition list_moves (F : R -> list R) (FD : list dual) : Prop :=
  (forall s, length (F s) = length FD) /\ forall i, (i < length FD)%nat -> T (fun s => el (F s) i) (nth i FD (0, 0)).

Lemma lm_map (op : R -> R -> R) (opd : dual -> dual) F FD : list_moves F FD ->
  (forall i, (i < length FD)%nat -> T (fun s => el (F s) i) (nth i FD (0, 0)) -> T (fun s => op s (el (F s) i)) (opd (nth i FD (0, 0)))) ->
  list_moves (fun s => map (op s) (F s)) (map opd FD).
Proof.
  intros [L M] HO. split; [ intros s; now rewrite !map_length | ]. intros i Hi. rewrite map_length in Hi.
  rewrite (nth_map_lt opd FD i (0, 0)) by exact Hi. apply (t_ext t (fun s => op s (el (F s) i))); [ | now apply HO, M ].
  intros s. unfold el. now rewrite (nth_map_lt (op s) (F s) i 0) by (rewrite L; exact Hi).
Qed.
Lemma lm_map2 (op : R -> R -> R) (opd : dual -> dual -> dual) F FD G GD : list_moves F FD -> list_moves G GD -> length FD = length GD ->
  (forall i, (i < length FD)%nat -> T (fun s => el (F s) i) (nth i FD (0, 0)) -> T (fun s => el (G s) i) (nth i GD (0, 0)) ->
     T (fun s => op (el (F s) i) (el (G s) i)) (opd (nth i FD (0, 0)) (nth i GD (0, 0)))) ->
  list_moves (fun s => map2 op (F s) (G s)) (map2 opd FD GD).
Proof.
  intros [L M] [L' M'] E HO. split; [ intros s; rewrite !length_map2, L, L'; lia | ]. intros i Hi. rewrite length_map2 in Hi.
  rewrite (nth_map2 opd FD GD i (0, 0) (0, 0)) by lia.
  apply (t_ext t (fun s => op (el (F s) i) (el (G s) i))); [ | apply HO; [ lia | apply M; lia | apply M'; lia ]].
  intros s. unfold el. rewrite (nth_map2 op (F s) (G s) i 0 0) by (rewrite ?L, ?L'; lia). reflexivity.
Qed.
Lemma lm_cst xs : list_moves (fun _ => xs) (map (cst num_dual) xs).
Proof.
  split; [ intros s; now rewrite map_length | ]. intros i Hi. rewrite map_length in Hi.
  rewrite (nth_map_lt (cst num_dual) xs i 0) by exact Hi. apply t_cst.
Qed.
Lemma glast_el (v : list dual) : (1 <= length v)%nat -> glast num_dual v = nth (length v - 1) v (0, 0).
Proof.
  intros H. unfold glast, getZ, clipZ. change (-1 <? 0)%Z with true. cbv iota zeta.
  replace (Z.to_nat (Z.min (Z.max (-1 + Z.of_nat (length v)) 0) (Z.of_nat (length v) - 1))) with (length v - 1)%nat by lia.
  apply nth_indep. lia.
Qed.
Lemma lm_last F FD : list_moves F FD -> (1 <= length FD)%nat -> T (fun s => lastR (F s)) (glast num_dual FD).
Proof.
  intros [L M] H. rewrite glast_el by exact H. apply (t_ext t (fun s => el (F s) (length FD - 1))); [ | apply M; lia ].
  intros s. rewrite lastR_el by (rewrite L; exact H). now rewrite L.
Qed.

Lemma scan_rk4 {V} (add : V -> V -> V) scl fn y x0 x xs : snd (scan (rk4 add scl fn) (y, x0) (x :: xs)) =
  snd (rk4 add scl fn (y, x0) x) :: snd (scan (rk4 add scl fn) (snd (rk4 add scl fn (y, x0) x), x) xs).
Proof.
  assert (E : rk4 add scl fn (y, x0) x = ((snd (rk4 add scl fn (y, x0) x), x), snd (rk4 add scl fn (y, x0) x))) by reflexivity.
  cbn [scan]. rewrite E. cbn [snd]. generalize (snd (rk4 add scl fn (y, x0) x)). intros v. destruct (scan _ _ xs) as [w l]. reflexivity.
Qed.
(** ** integration: any relation preserved by the right-hand side, the sum and the scaling is preserved *)
Section OdeRel.
  Context {V W : Type} (Rel : (R -> V) -> W -> Prop) (P : R -> Prop).
  Variables (add : V -> V -> V) (scl : R -> V -> V) (addd : W -> W -> W) (scld : R -> W -> W)
    (fn : R -> V -> R -> V) (fnd : W -> R -> W).
  Hypothesis Pext : forall f g x, (forall s, f s = g s) -> Rel f x -> Rel g x.
  Hypothesis Padd : forall f x g y, Rel f x -> Rel g y -> Rel (fun s => add (f s) (g s)) (addd x y).
  Hypothesis Pscl : forall h f x, Rel f x -> Rel (fun s => scl h (f s)) (scld h x).
  Hypothesis Pfn : forall x f y, P x -> Rel f y -> Rel (fun s => fn s (f s) x) (fnd y x).
  Hypothesis Pmid : forall x y, P x -> P y -> P (x + (y - x) / 2).
  Lemma rk4_rel y yd x0 x : P x0 -> P x -> Rel y yd ->
    Rel (fun s => snd (rk4 add scl (fn s) (y s, x0) x)) (snd (rk4 addd scld fnd (yd, x0) x)).
  Proof.
    intros P0 P1 Hy. unfold rk4. cbn [snd]. pose proof (Pmid _ _ P0 P1) as Pm.
    assert (K1 := Pfn _ _ _ P0 Hy). assert (K2 := Pfn _ _ _ Pm (Padd _ _ _ _ Hy (Pscl ((x - x0) / 2) _ _ K1))).
    assert (K3 := Pfn _ _ _ Pm (Padd _ _ _ _ Hy (Pscl ((x - x0) / 2) _ _ K2))).
    assert (K4 := Pfn _ _ _ P1 (Padd _ _ _ _ Hy (Pscl (x - x0) _ _ K3))).
    apply (Padd _ _ _ _ Hy). apply (Pscl (1.0 / 6.0 * (x - x0))).
    exact (Padd _ _ _ _ (Padd _ _ _ _ (Padd _ _ _ _ K1 (Pscl 2 _ _ K2)) (Pscl 2 _ _ K3)) K4).
  Qed.
  Lemma scan_rel xs : forall y yd x0 dv dw, P x0 -> (forall x, In x xs -> P x) -> Rel y yd ->
    (forall s, length (snd (scan (rk4 add scl (fn s)) (y s, x0) xs)) = length xs) /\
    length (snd (scan (rk4 addd scld fnd) (yd, x0) xs)) = length xs /\
    forall i, (i < length xs)%nat -> Rel (fun s => nth i (snd (scan (rk4 add scl (fn s)) (y s, x0) xs)) dv) (nth i (snd (scan (rk4 addd scld fnd) (yd, x0) xs)) dw).
  Proof.
    induction xs as [ | x xs IH]; intros y yd x0 dv dw P0 PX Hy; [ split; [ reflexivity | split; [ reflexivity | simpl; intros; lia ]] | ].
    assert (HS := rk4_rel y yd x0 x P0 (PX x (or_introl eq_refl)) Hy).
    destruct (IH _ _ x dv dw (PX x (or_introl eq_refl)) (fun z Hz => PX z (or_intror Hz)) HS) as (L1 & L2 & HI).
    assert (EN : forall i s, nth i (snd (scan (rk4 add scl (fn s)) (y s, x0) (x :: xs))) dv =
      match i with O => snd (rk4 add scl (fn s) (y s, x0) x) | S i => nth i (snd (scan (rk4 add scl (fn s)) (snd (rk4 add scl (fn s) (y s, x0) x), x) xs)) dv end)
      by (intros i s; rewrite scan_rk4; destruct i; reflexivity).
    split; [ intros s; rewrite scan_rk4; cbn [length]; f_equal; apply L1 | split; [ rewrite scan_rk4; cbn [length]; f_equal; exact L2 | ]].
    intros i Hi. rewrite (scan_rk4 addd scld fnd). destruct i as [ | i]; cbn [nth].
    - apply (Pext _ _ _ (fun s => eq_sym (EN 0%nat s))). exact HS.
    - apply (Pext _ _ _ (fun s => eq_sym (EN (S i) s))). apply HI. simpl in Hi. lia.
  Qed.
End OdeRel.
Lemma odeint_rel {V W} (Rel : (R -> V) -> W -> Prop) (P : R -> Prop) add scl addd scld (fn : R -> V -> R -> V) (fnd : W -> R -> W) y0 y0d ts dv dw :
  (forall f g x, (forall s, f s = g s) -> Rel f x -> Rel g x) ->
  (forall f x g y, Rel f x -> Rel g y -> Rel (fun s => add (f s) (g s)) (addd x y)) ->
  (forall h f x, Rel f x -> Rel (fun s => scl h (f s)) (scld h x)) ->
  (forall x f y, P x -> Rel f y -> Rel (fun s => fn s (f s) x) (fnd y x)) ->
  (forall x y, P x -> P y -> P (x + (y - x) / 2)) ->
  (1 <= length ts)%nat -> (forall i, (i < length ts)%nat -> P (el ts i)) -> Rel y0 y0d ->
  (forall s, length (odeint add scl (fn s) (y0 s) ts) = length ts) /\ length (odeint addd scld fnd y0d ts) = length ts /\
  forall i, (i < length ts)%nat -> Rel (fun s => nth i (odeint add scl (fn s) (y0 s) ts) dv) (nth i (odeint addd scld fnd y0d ts) dw).
Proof.
  intros H1 H2 H3 H4 H5 HL HP HY. unfold odeint. apply (scan_rel Rel P); auto.
  intros x Hx. destruct (In_nth ts x 0 Hx) as (i & Hi & <-). now apply HP.
Qed.

(** float states *)
Lemma odeint1_moves (P : R -> Prop) (fn : R -> R -> R -> R) (fnd : dual -> R -> dual) y0 y0d ts :
  (forall x f y, P x -> T f y -> T (fun s => fn s (f s) x) (fnd y x)) -> (forall x y, P x -> P y -> P (x + (y - x) / 2)) ->
  (1 <= length ts)%nat -> (forall i, (i < length ts)%nat -> P (el ts i)) -> T y0 y0d ->
  length (odeint (nadd num_dual) (fun h y => nmul num_dual (cst num_dual h) y) fnd y0d ts) = length ts /\
  list_moves (fun s => odeint Rplus Rmult (fn s) (y0 s) ts) (odeint (nadd num_dual) (fun h y => nmul num_dual (cst num_dual h) y) fnd y0d ts).
Proof.
  intros H4 H5 HL HP HY.
  destruct (odeint_rel (fun f x => T f x) P Rplus Rmult (nadd num_dual) (fun h y => nmul num_dual (cst num_dual h) y) fn fnd y0 y0d ts 0 (0, 0)) as (L1 & L2 & M); auto.
  - intros f g x E. apply t_ext, E.
  - intros f x g y. apply t_add.
  - intros h f x Hf. apply t_mul; [ apply t_cst | exact Hf ].
  - split; [ exact L2 | ]. split; [ intros s; rewrite L1, L2; reflexivity | ]. rewrite L2. exact M.
Qed.

(** ** interpolation on a fixed increasing grid *)
(** the two nodes of the line that answers a query *)
Lemma two_nodes q xp : (3 <= length xp)%nat -> incr xp ->
  exists i j k, (i < length xp)%nat /\ (j < length xp)%nat /\ (1 <= k <= length xp - 2)%nat /\ ((i = k /\ j = k + 1) \/ (i = k + 1 /\ j = k))%nat /\
    (el xp k <= q \/ k = 1%nat) /\ (q <= el xp (k + 1) \/ k = (length xp - 2)%nat) /\
    forall A (N : num A), (forall x, val N (cst N x) = x) -> forall X fp, val N X = q -> length fp = length xp ->
      ginterp1 N X (map (cst N) xp) fp =
      (let a := ndiv N (nsub N (nth j fp (cst N 0)) (nth i fp (cst N 0))) (nsub N (cst N (el xp j)) (cst N (el xp i))) in
       nadd N (nmul N a X) (nsub N (nth i fp (cst N 0)) (nmul N a (cst N (el xp i))))).
Proof.
  intros Hn Hi. set (n := length xp) in *. pose proof (near1_range q xp Hn) as Hr. fold n in Hr.
  set (r := near1 q xp) in *.
  set (j := if Rlt_dec (clip q (el xp 1) (el xp (n - 2))) (el xp r) then (r - 1)%nat else (r + 1)%nat).
  assert (HJ : forall A (N : num A), (forall x, val N (cst N x) = x) -> forall X fp, val N X = q -> length fp = length xp ->
      ginterp1 N X (map (cst N) xp) fp =
      (let a := ndiv N (nsub N (nth j fp (cst N 0)) (nth r fp (cst N 0))) (nsub N (cst N (el xp j)) (cst N (el xp r))) in
       nadd N (nmul N a X) (nsub N (nth r fp (cst N 0)) (nmul N a (cst N (el xp r)))))).
  { intros A N VC X fp HX Hl. unfold ginterp1. rewrite HX.
    assert (EM : map (fun p => (q - val N p) ^ 2) (map (cst N) xp) = map (fun p => (q - p) ^ 2) xp).
    { rewrite map_map. apply map_ext. intros p. now rewrite VC. }
    rewrite EM, map_length. fold n. fold (nearest q xp).
    replace (clipZ (Z.of_nat (nearest q xp)) 1 (Z.of_nat n - 2)) with (Z.of_nat r) by (unfold clipZ, r, near1; fold n; lia).
    assert (GN : forall l : list A, length l = n -> forall i, (i < n)%nat -> getZ (cst N 0) l (Z.of_nat i) = nth i l (cst N 0)).
    { intros l Ll i Hin. unfold getZ, clipZ. rewrite Ll. destruct (Z.ltb_spec (Z.of_nat i) 0); [ lia | ].
      replace (Z.to_nat (Z.min (Z.max (Z.of_nat i) 0) (Z.of_nat n - 1))) with i by lia. reflexivity. }
    assert (LM : length (map (cst N) xp) = n) by (now rewrite map_length).
    assert (GX : forall i, (i < n)%nat -> getZ (cst N 0) (map (cst N) xp) (Z.of_nat i) = cst N (el xp i)).
    { intros i Hin. rewrite GN by assumption. unfold el. now rewrite (nth_map_lt (cst N) xp i 0) by exact Hin. }
    assert (G2 : getZ (cst N 0) (map (cst N) xp) (-2) = cst N (el xp (n - 2))).
    { rewrite <- GX by lia. unfold getZ, clipZ. rewrite LM. change (-2 <? 0)%Z with true. cbv iota zeta.
      destruct (Z.ltb_spec (Z.of_nat (n - 2)) 0); [ lia | ]. f_equal. lia. }
    assert (G1 : getZ (cst N 0) (map (cst N) xp) 1 = cst N (el xp 1)) by (apply (GX 1%nat); lia).
    rewrite G1, G2, !GX by lia. rewrite !VC. cbv zeta.
    assert (EJ : (Z.of_nat r + copysign1 (isign (clip q (el xp 1) (el xp (n - 2)) - el xp r)))%Z = Z.of_nat j).
    { unfold j, isign. destruct (Rlt_dec (clip q (el xp 1) (el xp (n - 2))) (el xp r)) as [L | L].
      - destruct (Rlt_dec _ 0); [ change (copysign1 (-1)) with (-1)%Z; lia | lra ].
      - destruct (Rlt_dec _ 0); [ lra | ]. destruct (Rlt_dec 0 _); [ change (copysign1 1) with 1%Z | change (copysign1 0) with 1%Z ]; lia. }
    rewrite EJ. assert (Hj : (j < n)%nat) by (unfold j; destruct (Rlt_dec _ _); lia).
    rewrite !GX, !GN by (assumption || lia). reflexivity. }
  assert (Hne : xp <> []) by (intros ->; unfold n in Hn; simpl in Hn; lia).
  destruct (nearest_spec q xp Hne) as [Hnr Hmin]. fold n in Hnr, Hmin.
  unfold j in HJ. clear j. destruct (Rlt_dec (clip q (el xp 1) (el xp (n - 2))) (el xp r)) as [Hc | Hc]; [ | apply Rnot_lt_le in Hc ].
  - (* below node r *)
    unfold clip in Hc.
    assert (Hx1 : r <> 1%nat).
    { intros E. rewrite E in Hc.
      assert (el xp 1 <= el xp (n - 2)) by (apply incr_le; [ assumption | fold n; lia ]).
      destruct (Rle_dec (Rmax q (el xp 1)) (el xp (n - 2))).
      - rewrite Rmin_left in Hc by assumption. pose proof (Rmax_r q (el xp 1)). lra.
      - rewrite Rmin_right in Hc by lra. lra. }
    assert (Hxr : q < el xp r).
    { assert (el xp r <= el xp (n - 2)) by (apply incr_le; [ assumption | fold n; lia ]).
      pose proof (Rmax_l q (el xp 1)).
      destruct (Rle_dec (Rmax q (el xp 1)) (el xp (n - 2))); [ rewrite Rmin_left in Hc by assumption | rewrite Rmin_right in Hc by lra ]; lra. }
    exists r, (r - 1)%nat, (r - 1)%nat. split; [ lia | split; [ lia | split; [ lia | split; [ right; lia | ]]]]. rewrite <- and_assoc. split; [ | exact HJ ]. split.
    + left. (* r-1 is not nearer than r *)
      destruct (Rle_dec (el xp (r - 1)) q) as [ | Hlt]; [ assumption | exfalso ].
      apply Rnot_le_lt in Hlt.
      (* then the nearest index is at most r-1 *)
      assert (Hq : (nearest q xp <= r - 1)%nat).
      { destruct (Nat.le_gt_cases (nearest q xp) (r - 1)) as [ | Hgt]; [ assumption | exfalso ].
        specialize (Hmin (r - 1)%nat ltac:(lia)).
        assert (el xp (r - 1) < el xp (nearest q xp)) by (apply Hi; fold n; lia).
        rewrite Rabs_left1, Rabs_left1 in Hmin by lra. lra. }
      unfold r, near1 in Hq, Hx1. fold n in Hq, Hx1. fold r in Hq. unfold r, near1 in Hq. fold n in Hq. lia.
    + left. replace (r - 1 + 1)%nat with r by lia. lra.
  - exists r, (r + 1)%nat, r. split; [ lia | split; [ lia | split; [ lia | split; [ left; lia | ]]]]. rewrite <- and_assoc. split; [ | exact HJ ]. split.
    + destruct (Nat.eq_dec r 1) as [ | H1]; [ now right | left ].
      destruct (Rle_dec (el xp r) q) as [ | Hlt]; [ assumption | exfalso ]. apply Rnot_le_lt in Hlt.
      assert (Hmx : Rmax q (el xp 1) < el xp r) by (apply Rmax_lub_lt; [ assumption | apply Hi; fold n; lia ]).
      unfold clip in Hc. pose proof (Rmin_l (Rmax q (el xp 1)) (el xp (n - 2))). lra.
    + destruct (Nat.eq_dec r (n - 2)) as [ | H1]; [ now right | left ].
      destruct (Rle_dec q (el xp (r + 1))) as [ | Hlt]; [ assumption | exfalso ]. apply Rnot_le_lt in Hlt.
      assert (Hq : (r + 1 <= nearest q xp)%nat).
      { destruct (Nat.le_gt_cases (r + 1) (nearest q xp)) as [ | Hgt]; [ assumption | exfalso ].
        specialize (Hmin (r + 1)%nat ltac:(lia)).
        assert (el xp (nearest q xp) < el xp (r + 1)) by (apply Hi; fold n; lia).
        rewrite Rabs_right, Rabs_right in Hmin by lra. lra. }
      unfold r, near1 in Hq, H1. fold n in Hq, H1. fold r in H1. unfold r, near1 in H1. fold n in H1. lia.
Qed.

(** the query does not move, or is not at one of the nodes where two lines meet *)
Definition query_ok (x : R -> R) (xp : list R) : Prop :=
  (forall s, x s = x t) \/ (forall i, (2 <= i <= length xp - 2)%nat -> x t <> el xp i).
Lemma t_continuous f x : T f x -> continuous f t.
Proof. intros [_ D]. apply (ex_derive_continuous (V := R_NormedModule)). now exists (snd x). Qed.
Lemma t_gt f x b : T f x -> b < f t -> locally t (fun s => b < f s).
Proof. intros Hf Hb. exact (t_continuous f x Hf (fun y => b < y) (open_gt b _ Hb)). Qed.
Lemma t_lt f x b : T f x -> f t < b -> locally t (fun s => f s < b).
Proof. intros Hf Hb. exact (t_continuous f x Hf (fun y => y < b) (open_lt b _ Hb)). Qed.

Lemma t_interp x X xp F FD : (3 <= length xp)%nat -> incr xp -> length FD = length xp -> query_ok x xp -> T x X -> list_moves F FD ->
  T (fun s => interp1 (x s) xp (F s)) (ginterp1 num_dual X (map (cst num_dual) xp) FD).
Proof.
  intros Hn Hi Hl HQ HX [L M]. destruct (two_nodes (x t) xp Hn Hi) as (i & j & k & Li & Lj & Hk & Hij & Hlo & Hhi & HN).
  assert (NE : el xp j - el xp i <> 0).
  { assert (el xp k < el xp (k + 1)) by (apply Hi; lia). destruct Hij as [[-> ->] | [-> ->]]; lra. }
  rewrite (HN dual num_dual (fun x => eq_refl) X FD (proj1 HX) Hl). cbv zeta.
  set (Ls := fun s => let a := (el (F s) j - el (F s) i) / (el xp j - el xp i) in a * x s + (el (F s) i - a * el xp i)).
  assert (TL : T Ls (let a := ndiv num_dual (nsub num_dual (nth j FD (cst num_dual 0)) (nth i FD (cst num_dual 0))) (nsub num_dual (cst num_dual (el xp j)) (cst num_dual (el xp i))) in
       nadd num_dual (nmul num_dual a X) (nsub num_dual (nth i FD (cst num_dual 0)) (nmul num_dual a (cst num_dual (el xp i)))))).
  { assert (Mi := M i ltac:(lia)). assert (Mj := M j ltac:(lia)). unfold Ls. cbv zeta. change (cst num_dual 0) with ((0, 0) : dual).
    assert (TA := t_div t _ _ _ _ NE (t_sub t _ _ _ _ Mj Mi) (t_sub t _ _ _ _ (t_cst t (el xp j)) (t_cst t (el xp i)))).
    exact (t_add t _ _ _ _ (t_mul t _ _ _ _ TA HX) (t_sub t _ _ _ _ Mi (t_mul t _ _ _ _ TA (t_cst t (el xp i))))). }
  refine (t_loc t Ls _ _ _ TL).
  assert (LF : forall s, length (F s) = length xp) by (intros s; now rewrite L).
  destruct HQ as [HC | HC].
  - apply filter_forall. intros s. rewrite HC. unfold Ls. rewrite HC.
    pose proof (HN R num_R (fun x => eq_refl) (x t) (F s) eq_refl (LF s)) as E. rewrite R_interp in E.
    replace (map (cst num_R) xp) with xp in E by (symmetry; apply map_id). symmetry. exact E.
  - assert (CE : forall s, cell xp (F s) k (x s) = Ls s).
    { intros s. unfold cell, line, Ls. destruct Hij as [[-> ->] | [-> ->]]; field; lra. }
    assert (LO : locally t (fun s => el xp k <= x s \/ k = 1%nat)).
    { destruct (Nat.eq_dec k 1) as [K | K]; [ apply filter_forall; auto | ]. destruct Hlo as [Hlo | E]; [ | lia ].
      apply (filter_imp (fun s => el xp k < x s)); [ intros s Hs; left; lra | ]. apply (t_gt x X); [ exact HX | ].
      pose proof (HC k ltac:(lia)). lra. }
    assert (HI : locally t (fun s => x s <= el xp (k + 1) \/ k = (length xp - 2)%nat)).
    { destruct (Nat.eq_dec k (length xp - 2)) as [K | K]; [ apply filter_forall; auto | ]. destruct Hhi as [Hhi | E]; [ | lia ].
      apply (filter_imp (fun s => x s < el xp (k + 1))); [ intros s Hs; left; lra | ]. apply (t_lt x X); [ exact HX | ].
      pose proof (HC (k + 1)%nat ltac:(lia)). lra. }
    apply (filter_imp (fun s => (el xp k <= x s \/ k = 1%nat) /\ (x s <= el xp (k + 1) \/ k = (length xp - 2)%nat))); [ | now apply filter_and ].
    intros s [A B]. rewrite <- CE. symmetry.
    destruct (Rle_dec (el xp k) (x s)) as [Q1 | Q1].
    + destruct (Rle_dec (x s) (el xp (k + 1))) as [Q2 | Q2]; [ apply interp1_incr; auto; lia | ].
      destruct B as [B | ->]; [ lra | ]. apply interp1_above; auto.
    + destruct A as [A | ->]; [ lra | ]. apply interp1_below; auto. lra.
Qed.
End Lists.

Section Moves.
Variables (c : R -> cosmology) (t : R) (g : gcosmo dual).
Hypothesis HM : moves c t g.
Local Notation T f d := (tangent_of f t d).
Local Notation N := num_dual.

Lemma m_Omega_m : T (fun s => Omega_m (c s)) (gOmega_m N g).
Proof. destruct HM as (_ & Hc & Hb & _). exact (t_add t _ _ _ _ Hb Hc). Qed.
Lemma m_Omega_k : T (fun s => Omega_k (c s)) (gOmega_k g).
Proof. destruct HM as (_ & _ & _ & _ & _ & _ & Hk & _). exact Hk. Qed.
Lemma m_Omega_de : T (fun s => Omega_de (c s)) (gOmega_de N g).
Proof. exact (t_sub t _ _ _ _ (t_sub t _ _ _ _ (t_cst t 1.0) m_Omega_k) m_Omega_m). Qed.
Lemma m_w0 : T (fun s => _w0 (c s)) (gw0 g). Proof. now destruct HM as (_ & _ & _ & _ & _ & _ & _ & W & _). Qed.
Lemma m_wa : T (fun s => _wa (c s)) (gwa g). Proof. now destruct HM as (_ & _ & _ & _ & _ & _ & _ & _ & W & _). Qed.
Lemma m_h : T (fun s => _h (c s)) (gh g). Proof. now destruct HM as (_ & _ & _ & W & _). Qed.
Lemma m_n_s : T (fun s => _n_s (c s)) (gn_s g). Proof. now destruct HM as (_ & _ & _ & _ & W & _). Qed.
Lemma m_sigma8 : T (fun s => _sigma8 (c s)) (gsigma8 g). Proof. now destruct HM as (_ & _ & _ & _ & _ & W & _). Qed.
Lemma m_Omega_b : T (fun s => _Omega_b (c s)) (gOmega_b g). Proof. now destruct HM as (_ & _ & W & _). Qed.
Lemma m_Omega_c : T (fun s => _Omega_c (c s)) (gOmega_c g). Proof. now destruct HM as (_ & W & _). Qed.
Lemma m_fresh s : ws_chi (c s) = None /\ ws_growth (c s) = None. Proof. now destruct HM as (W & _); apply W. Qed.
Lemma m_flag s : _gamma_growth (c s) = match _gamma (c s) with Some _ => true | None => false end. Proof. now destruct HM as (W & _); apply W. Qed.

Section At.
Variables (a : R -> R) (ad : dual).
Hypothesis Ha : T a ad.
Hypothesis Pa : 0 < a t.
Lemma m_w : T (fun s => w (c s) (a s)) (gw N g ad).
Proof. exact (t_add t _ _ _ _ m_w0 (t_mul t _ _ _ _ (t_sub t _ _ _ _ (t_cst t 1.0) Ha) m_wa)). Qed.
Lemma m_f_de : T (fun s => f_de (c s) (a s)) (gf_de N g ad).
Proof.
  exact (t_add t _ _ _ _ (t_mul t _ _ _ _ (t_mul t _ _ _ _ (t_cst t (-3.0)) (t_add t _ _ _ _ (t_add t _ _ _ _ (t_cst t 1.0) m_w0) m_wa)) (t_ln t _ _ Pa Ha))
    (t_mul t _ _ _ _ (t_mul t _ _ _ _ (t_cst t 3.0) m_wa) (t_sub t _ _ _ _ Ha (t_cst t 1.0)))).
Qed.
Lemma m_Esqr : T (fun s => Esqr (c s) (a s)) (gEsqr N g ad).
Proof.
  assert (NZ : forall z, a t <> 0 \/ (0 < z)%Z) by (intros; left; lra).
  exact (t_add t _ _ _ _ (t_add t _ _ _ _ (t_mul t _ _ _ _ m_Omega_m (t_ipow t (-3) _ _ (NZ (-3)%Z) Ha)) (t_mul t _ _ _ _ m_Omega_k (t_ipow t (-2) _ _ (NZ (-2)%Z) Ha)))
    (t_mul t _ _ _ _ m_Omega_de (t_exp t _ _ m_f_de))).
Qed.
Hypothesis PE : 0 < Esqr (c t) (a t).
Lemma m_H : T (fun s => H (c s) (a s)) (gH N g ad).
Proof. exact (t_mul t _ _ _ _ (t_cst t const_H0) (t_sqrt t _ _ PE m_Esqr)). Qed.
Lemma m_Omega_m_a : T (fun s => Omega_m_a (c s) (a s)) (gOmega_m_a N g ad).
Proof.
  refine (t_div t _ _ _ _ _ (t_mul t _ _ _ _ m_Omega_m (t_ipow t (-3) _ _ _ Ha)) m_Esqr); [ lra | left; lra ].
Qed.
Lemma m_Omega_de_a : T (fun s => Omega_de_a (c s) (a s)) (gOmega_de_a N g ad).
Proof. refine (t_div t _ _ _ _ _ (t_mul t _ _ _ _ m_Omega_de (t_exp t _ _ m_f_de)) m_Esqr). lra. Qed.
Lemma m_dchioverda : T (fun s => dchioverda (c s) (a s)) (gdchioverda N g ad).
Proof.
  refine (t_div t _ _ _ _ _ (t_cst t const_rh) (t_mul t _ _ _ _ (t_ipow t 2 _ _ _ Ha) (t_sqrt t _ _ PE m_Esqr))); [ | left; lra ].
  apply Rmult_integral_contrapositive_currified; [ apply pow_nonzero; lra | apply Rgt_not_eq, sqrt_lt_R0, PE ].
Qed.
End At.

Hypothesis HE : expanding (c t).
Lemma m_chi_table la n : (1 <= n)%nat -> length (snd (gchi_table N g la n)) = n /\ list_moves t (fun s => snd (chi_table (c s) la n)) (snd (gchi_table N g la n)).
Proof.
  intros Hn. unfold gchi_table, chi_table. cbv zeta. cbn [snd]. set (ts := map ln (logspace la 0.0 n)).
  assert (Lt : length ts = n) by (unfold ts; now rewrite map_length, length_logspace).
  destruct (odeint1_moves t (fun _ => True) (fun s => dchioverdlna (c s)) (fun y x => let xa := nexp N (cst N x) in nmul N (gdchioverda N g xa) xa) (fun _ => 0.0) (cst N 0.0) ts) as [L M].
  - intros x f y _ _. assert (TX := t_exp t _ _ (t_cst t x)). cbv zeta. refine (t_mul t _ _ _ _ (m_dchioverda (fun _ => exp x) _ TX _ _) TX); [ apply exp_pos | apply HE, exp_pos ].
  - auto.
  - lia.
  - auto.
  - apply t_cst.
  - rewrite Lt in L. split; [ rewrite map_length; exact L | ].
    assert (TL := lm_last t _ _ M ltac:(rewrite L; lia)).
    apply (lm_map t (fun s x => lastR (odeint1 (dchioverdlna (c s)) 0.0 ts) - x)); [ exact M | ].
    intros i Hi Ti. exact (t_sub t _ _ _ _ TL Ti).
Qed.

Lemma gchi_table_fst la n : fst (gchi_table N g la n) = map (cst N) (logspace la 0.0 n). Proof. reflexivity. Qed.

Section Query.
Variables (a : R -> R) (ad : dual).
Hypothesis Ha : T a ad.
Lemma m_chi_raw : query_ok t a (logspace (-3) 0.0 256) ->
  T (fun s => interp1 (a s) (logspace (-3) 0.0 256) (snd (chi_table (c s) (-3) 256))) (ginterp1 N ad (fst (gchi_table N g (-3) 256)) (snd (gchi_table N g (-3) 256))).
Proof.
  intros HQ. destruct (m_chi_table (-3) 256 ltac:(lia)) as [L M]. rewrite gchi_table_fst.
  apply t_interp; [ rewrite length_logspace; lia | apply logspace_incr; [ lra | lia ] | now rewrite L, length_logspace | exact HQ | exact Ha | exact M ].
Qed.
Lemma chi_raw s : chi (c s) (a s) = Rmax (interp1 (a s) (logspace (-3) 0.0 256) (snd (chi_table (c s) (-3) 256))) 0.0.
Proof.
  rewrite (chi_value (c s)) by (apply inv_fresh; split; apply m_fresh). unfold chi_of, clip_lo. now rewrite chi_table_fst.
Qed.
Lemma gchi_raw : gchi N g ad = nmax N (ginterp1 N ad (fst (gchi_table N g (-3) 256)) (snd (gchi_table N g (-3) 256))) (cst N 0.0).
Proof. unfold gchi. destruct (gchi_table N g (-3) 256). reflexivity. Qed.
Lemma m_chi : query_ok t a (logspace (-3) 0.0 256) -> 0 < chi (c t) (a t) -> T (fun s => chi (c s) (a s)) (gchi N g ad).
Proof.
  intros HQ Hp. assert (TR := m_chi_raw HQ). rewrite gchi_raw. rewrite chi_raw in Hp.
  apply (t_ext t (fun s => Rmax (interp1 (a s) (logspace (-3) 0.0 256) (snd (chi_table (c s) (-3) 256))) 0.0)); [ intros s; symmetry; apply chi_raw | ].
  apply (t_max t _ (fun _ => 0.0)); [ | exact TR | apply t_cst ]. intros E. rewrite E in Hp. rewrite Rmax_left in Hp by lra. lra.
Qed.
(** the kink at chi = 0 *)
Lemma m_chi_tie : query_ok t a (logspace (-3) 0.0 256) -> interp1 (a t) (logspace (-3) 0.0 256) (snd (chi_table (c t) (-3) 256)) = 0 ->
  fst (gchi N g ad) = 0 /\ snd (gchi N g ad) = Derive (fun s => interp1 (a s) (logspace (-3) 0.0 256) (snd (chi_table (c s) (-3) 256))) t / 2.
Proof.
  intros HQ E0. destruct (m_chi_raw HQ) as [A B]. rewrite gchi_raw. cbn [nmax num_dual fst snd cst]. rewrite A, E0.
  rewrite (is_derive_unique _ _ _ B). unfold sel3. split; [ rewrite Rmax_left; lra | ].
  destruct (Rlt_dec 0.0 0); [ lra | ]. destruct (Rlt_dec 0 0.0); [ lra | ]. lra.
Qed.
(** the branches of lax.switch *)
Lemma m_f_k : query_ok t a (logspace (-3) 0.0 256) -> 0 < chi (c t) (a t) -> _Omega_k (c t) <> 0 \/ (forall s, _Omega_k (c s) = 0) -> T (fun s => f_k (c s) (a s)) (gf_k N g ad).
Proof.
  intros HQ Hp HK. assert (TX := m_chi HQ Hp). assert (TK := m_Omega_k). unfold gf_k, gcurv. cbv zeta.
  assert (EF : forall s, f_k (c s) (a s) = f_k_branch (c s) (chi (c s) (a s))) by (intros s; apply trans_value, inv_fresh; split; apply m_fresh).
  change (val N (gOmega_k g)) with (fst (gOmega_k g)). rewrite (proj1 TK). cbv beta. unfold Omega_k.
  assert (Rh : const_rh <> 0) by (unfold const_rh; lra).
  apply (t_ext t (fun s => f_k_branch (c s) (chi (c s) (a s)))); [ intros s; symmetry; apply EF | ].
  destruct HK as [HK | HK].
  - assert (TS : T (fun s => sqrtk (c s)) (gsqrtk N g)) by (refine (t_sqrt t _ _ _ (t_abs t _ _ HK TK)); now apply Rabs_pos_lt).
    assert (NS : sqrtk (c t) <> 0) by (apply Rgt_not_eq, sqrt_lt_R0, Rabs_pos_lt, HK).
    assert (TA := t_div t _ _ _ _ Rh (t_mul t _ _ _ _ TS TX) (t_cst t const_rh)).
    assert (TR := t_div t _ _ _ _ NS (t_cst t const_rh) TS).
    unfold f_k_branch, curv. cbv zeta. destruct (Rlt_dec (_Omega_k (c t)) 0) as [L | L].
    + unfold isign at 2. destruct (Rlt_dec (_Omega_k (c t)) 0); [ | lra ].
      change (clipZ (- -1 + 1) 0 2) with 2%Z. cbv iota.
      refine (t_loc t _ _ _ _ (t_mul t _ _ _ _ TR (t_sin t _ _ TA))).
      apply (filter_imp (fun s => _Omega_k (c s) < 0)); [ | exact (t_lt t _ _ 0 TK L) ].
      intros s Hs. unfold isign. destruct (Rlt_dec (_Omega_k (c s)) 0); [ reflexivity | lra ].
    + assert (L' : 0 < _Omega_k (c t)) by lra. unfold isign at 2. destruct (Rlt_dec (_Omega_k (c t)) 0); [ lra | ]. destruct (Rlt_dec 0 (_Omega_k (c t))); [ | lra ].
      change (clipZ (- (1) + 1) 0 2) with 0%Z. cbv iota.
      refine (t_loc t _ _ _ _ (t_mul t _ _ _ _ TR (t_sinh t _ _ TA))).
      apply (filter_imp (fun s => 0 < _Omega_k (c s))); [ | exact (t_gt t _ _ 0 TK L') ].
      intros s Hs. unfold isign. destruct (Rlt_dec (_Omega_k (c s)) 0); [ lra | ]. destruct (Rlt_dec 0 (_Omega_k (c s))); [ reflexivity | lra ].
  - rewrite HK. assert (E0 : isign 0 = 0%Z) by (unfold isign; destruct (Rlt_dec 0 0); [ lra | reflexivity ]). rewrite E0.
    change (clipZ (- 0 + 1) 0 2) with 1%Z. cbv iota. refine (t_ext t _ _ _ _ TX).
    intros s. unfold f_k_branch, curv. rewrite HK, E0. reflexivity.
Qed.
End Query.
End Moves.
