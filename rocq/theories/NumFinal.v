(** * Final forms of the interp, simps and odeint results, and concrete cases *)
From Coquelicot Require Import Coquelicot.
From Verif Require Import Np NpLemmas Interp Ode OdeSpec OdeProofs InterpProofs Integrate IntegrateSpec SimpsProofs SimpsError.

(** ** interp *)
Lemma interp_arr v xp fp : interp (Array1 v) xp fp = Ok (map (fun q => interp1 q xp fp) v).
Proof. reflexivity. Qed.
Lemma el_map_interp v xp fp k : (k < length v)%nat -> el (map (fun q => interp1 q xp fp) v) k = interp1 (el v k) xp fp.
Proof. intros Hk. unfold el. now rewrite (nth_map_lt _ v k 0). Qed.

Lemma interp_increasing v xp fp : (3 <= length xp)%nat -> length fp = length xp -> incr xp ->
  exists w, interp (Array1 v) xp fp = Ok w /\ length w = length v /\
  (forall k i, (k < length v)%nat -> (1 <= i)%nat -> (i + 1 < length xp)%nat -> el xp i <= el v k <= el xp (i + 1) ->
     el w k = cell xp fp i (el v k)) /\
  (forall k, (k < length v)%nat -> el v k <= el xp 1 -> el w k = cell xp fp 1 (el v k)) /\
  (forall k, (k < length v)%nat -> el xp (length xp - 1) <= el v k -> el w k = cell xp fp (length xp - 2) (el v k)).
Proof.
  intros Hn Hl Hi. eexists; split; [ reflexivity | ]. split; [ apply map_length | ].
  split; [ | split ].
  - intros k i Hk H1 H2 Hx. rewrite el_map_interp by assumption. now apply interp1_incr.
  - intros k Hk Hx. rewrite el_map_interp by assumption. now apply interp1_below.
  - intros k Hk Hx. rewrite el_map_interp by assumption. apply interp1_above; auto.
    apply Rle_trans with (el xp (length xp - 1)); [ apply incr_le; [ assumption | lia ] | assumption ].
Qed.

Definition xp_inc : list R := [0; 1; 2].
Definition fp_inc : list R := [0; 1; 4].
Ltac idx := repeat match goal with
  | i : nat |- _ => destruct i as [ | i]; simpl in *; try lia; try lra end.
Lemma xp_inc_incr : incr xp_inc.
Proof. intros i j Hij. unfold xp_inc, el in *. simpl in Hij. destruct i as [ | [ | [ | i]]]; destruct j as [ | [ | [ | j]]]; simpl; try lia; lra. Qed.
Lemma interp_first_cell_wrong : exists xp fp x, (3 <= length xp)%nat /\ length fp = length xp /\ incr xp /\
  el xp 0 <= x <= el xp 1 /\ interp (Array1 [x]) xp fp <> Ok [cell xp fp 0 x].
Proof.
  exists xp_inc, fp_inc, (1 / 2). split; [ simpl; lia | split; [ reflexivity | split; [ apply xp_inc_incr | split; [ unfold el; simpl; lra | ]]]].
  rewrite interp_arr. simpl map. rewrite interp1_below; try apply xp_inc_incr; try reflexivity; [ | unfold el; simpl; lra ].
  intros E. injection E as E. unfold cell, line, el in E. simpl in E. lra.
Qed.
Lemma interp_inc_case : (3 <= length xp_inc)%nat /\ length fp_inc = length xp_inc /\ incr xp_inc /\
  el xp_inc 1 <= 3 / 2 <= el xp_inc 2 /\ cell xp_inc fp_inc 1 (3 / 2) = 5 / 2.
Proof.
  split; [ simpl; lia | split; [ reflexivity | split; [ apply xp_inc_incr | ]]]. unfold cell, line, el; simpl. split; [ lra | field ].
Qed.

Definition xp_dec : list R := [3; 2; 1; 0].
Definition fp_dec : list R := [9; 4; 1; 0].
Lemma xp_dec_decr : decr xp_dec.
Proof. intros i j Hij. unfold xp_dec, el in *. simpl in Hij. destruct i as [ | [ | [ | [ | i]]]]; destruct j as [ | [ | [ | [ | j]]]]; simpl; try lia; lra. Qed.

Lemma interp_decreasing v xp fp : (4 <= length xp)%nat -> length fp = length xp -> decr xp ->
  exists w, interp (Array1 v) xp fp = Ok w /\ length w = length v /\
  (forall k i, (k < length v)%nat -> (i < length xp)%nat -> el v k = el xp i -> el w k = el fp i) /\
  (forall k i, (k < length v)%nat -> (i + 1 < length xp)%nat -> el xp (i + 1) <= el v k <= el xp i ->
     exists c, (c + 1 < length xp)%nat /\ (i - 1 <= c <= i + 1)%nat /\ el w k = cell xp fp c (el v k) /\
       Rabs (el w k - cell xp fp i (el v k)) <=
       Rabs ((el fp (c + 1) - el fp c) / (el xp (c + 1) - el xp c) - (el fp (i + 1) - el fp i) / (el xp (i + 1) - el xp i))
         * ((el xp i - el xp (i + 1)) / 2)).
Proof.
  intros Hn Hl Hi. eexists; split; [ reflexivity | ]. split; [ apply map_length | split ].
  - intros k i Hk Hir E. rewrite el_map_interp by assumption. rewrite E. now apply interp1_decr_node.
  - intros k i Hk Hir Hx. rewrite el_map_interp by assumption.
    destruct (interp1_decr (el v k) xp fp i Hn Hl Hi Hir Hx) as (c & C1 & C2 & C3 & C4 & C5).
    exists c. split; [ assumption | split; [ lia | split; [ assumption | exact C5 ]]].
Qed.
Lemma interp_decr_wrong : exists xp fp x i, (4 <= length xp)%nat /\ length fp = length xp /\ decr xp /\
  (i + 1 < length xp)%nat /\ el xp (i + 1) <= x <= el xp i /\ interp (Array1 [x]) xp fp <> Ok [cell xp fp i x].
Proof.
  exists xp_dec, fp_dec, (7 / 4), 1%nat.
  split; [ simpl; lia | split; [ reflexivity | split; [ apply xp_dec_decr | split; [ simpl; lia | split; [ unfold el; simpl; lra | ]]]]].
  rewrite interp_arr. simpl map. rewrite interp1_decr_raw; try apply xp_dec_decr; try reflexivity; [ | simpl; lia ].
  assert (NR : nearest (7 / 4) xp_dec = 1%nat).
  { unfold nearest, xp_dec, argmin. simpl map. unfold argmin_from.
    repeat match goal with |- context [Rlt_dec ?a ?b] => destruct (Rlt_dec a b); try lra end; reflexivity. }
  unfold near1. rewrite NR. simpl. intros E. injection E as E. unfold cell, line, el in E. simpl in E. lra.
Qed.
Lemma interp_dec_case : (4 <= length xp_dec)%nat /\ length fp_dec = length xp_dec /\ decr xp_dec /\
  (1 + 1 < length xp_dec)%nat /\ el xp_dec 2 <= 7 / 4 <= el xp_dec 1.
Proof. split; [ simpl; lia | split; [ reflexivity | split; [ apply xp_dec_decr | split; [ simpl; lia | unfold el; simpl; lra ]]]]. Qed.

Lemma interp_affine v xp fp al be : (3 <= length xp)%nat -> length fp = length xp ->
  (forall i, (i + 1 < length xp)%nat -> el xp i <> el xp (i + 1)) ->
  (forall i, (i < length xp)%nat -> el fp i = al * el xp i + be) ->
  interp (Array1 v) xp fp = Ok (map (fun x => al * x + be) v).
Proof. intros Hn Hl Hd Ha. rewrite interp_arr. f_equal. apply map_ext. intros x. now apply interp1_affine. Qed.
Lemma affine_case : (3 <= length xp_dec)%nat /\ length [7; 5; 3; 1] = length xp_dec /\
  (forall i, (i + 1 < length xp_dec)%nat -> el xp_dec i <> el xp_dec (i + 1)) /\
  (forall i, (i < length xp_dec)%nat -> el [7; 5; 3; 1] i = 2 * el xp_dec i + 1).
Proof.
  split; [ simpl; lia | split; [ reflexivity | split; [ apply decr_neq, xp_dec_decr | ]]].
  intros i Hi. unfold xp_dec, el in *. simpl in Hi. destruct i as [ | [ | [ | [ | i]]]]; simpl; try lia; lra.
Qed.

(** ** simps *)
Lemma simps_exact c a b N : Nat.even N = true -> (2 <= N)%nat ->
  simps (poly c 3) a b N = Ok (RInt (poly c 3) a b).
Proof. intros He HN. rewrite simps_eq by assumption. f_equal. rewrite simpson_cubic, poly_int_RInt by assumption. reflexivity. Qed.

Lemma simps_algebra f g al be a b N : Nat.even N = true -> (2 <= N)%nat ->
  (exists x y, simps f a b N = Ok x /\ simps g a b N = Ok y /\
     simps (fun t => al * f t + be * g t) a b N = Ok (al * x + be * y) /\ simps f b a N = Ok (- x)) /\
  (a <= b -> (forall t, a <= t <= b -> 0 <= f t) -> exists x, simps f a b N = Ok x /\ 0 <= x).
Proof.
  intros He HN. split.
  - exists (simpson f a b N), (simpson g a b N). rewrite !simps_eq by assumption. repeat split; f_equal.
    + now rewrite (simpson_plus (fun t => al * f t)), !simpson_scal.
    + now apply simpson_reverse.
  - intros Hab Hf. exists (simpson f a b N). rewrite simps_eq by assumption. split; [ reflexivity | ].
    apply simpson_nonneg; [ assumption | lia | ]. intros i Hi. apply Hf. unfold node.
    assert (0 < INR N) by (apply lt_0_INR; lia). apply le_INR in Hi. pose proof (pos_INR i).
    assert (0 <= INR i / INR N <= 1).
    { split; [ apply Rmult_le_pos; [ lra | left; now apply Rinv_0_lt_compat ] | ].
      apply Rmult_le_reg_r with (INR N); [ assumption | ]. unfold Rdiv. rewrite Rmult_assoc, Rinv_l; lra. }
    replace (a + INR i * ((b - a) / INR N)) with (a + (INR i / INR N) * (b - a)) by (unfold Rdiv; ring). nra.
Qed.
Lemma simps_error f f1 f2 f3 f4 a b M N : a <= b -> Nat.even N = true -> (2 <= N)%nat ->
  (forall x, a <= x <= b -> is_derive f x (f1 x) /\ is_derive f1 x (f2 x) /\ is_derive f2 x (f3 x) /\ is_derive f3 x (f4 x) /\ Rabs (f4 x) <= M) ->
  exists s, simps f a b N = Ok s /\ Rabs (s - RInt f a b) <= M * (b - a) ^ 5 / (180 * INR N ^ 4).
Proof.
  intros Hab He HN HD. exists (simpson f a b N). split; [ now apply simps_eq | ].
  apply (simpson_error f f1 f2 f3 f4); auto. now apply Nat.even_spec.
Qed.
Lemma simps_error_case : forall x, 0 <= x <= 1 ->
  is_derive exp x (exp x) /\ is_derive exp x (exp x) /\ is_derive exp x (exp x) /\ is_derive exp x (exp x) /\ Rabs (exp x) <= 3.
Proof.
  intros x Hx. assert (D : is_derive exp x (exp x)) by (apply is_derive_exp). do 4 (split; [ exact D | ]).
  rewrite Rabs_right by (left; apply exp_pos). apply Rle_trans with (exp 1); [ | apply exp_le_3 ].
  destruct (Req_dec x 1) as [-> | ]; [ lra | left; apply exp_increasing; lra ].
Qed.

(** ** odeint *)
Lemma odeint_quadrature g y0 t i : t <> [] -> (i + 1 < length t)%nat ->
  let w := odeint1 (fun _ => g) y0 t in
  el w (i + 1) - el w i = simpson g (el t i) (el t (i + 1)) 2.
Proof.
  intros Ht Hi w. destruct (odeint1_spec (fun _ => g) y0 t Ht) as (_ & _ & HS). unfold w. rewrite HS by assumption.
  rewrite rk4_quadrature. unfold simpson. change (2 / 2)%nat with 1%nat. simpl Rsum. unfold node. simpl INR.
  set (s := el t i). set (u := el t (i + 1)).
  replace (s + 0 * ((u - s) / (1 + 1))) with s by ring.
  replace (s + 1 * ((u - s) / (1 + 1))) with ((s + u) / 2) by field.
  replace (s + (1 + 1) * ((u - s) / (1 + 1))) with u by field. field.
Qed.
Lemma odeint_cubic c y0 t i : t <> [] -> (i < length t)%nat ->
  el (odeint1 (fun _ => poly c 3) y0 t) i = y0 + RInt (poly c 3) (el t 0) (el t i).
Proof.
  intros Ht. destruct (odeint1_spec (fun _ => poly c 3) y0 t Ht) as (_ & H0 & _). rewrite poly_int_RInt.
  induction i as [ | i IH]; intros Hi.
  - rewrite H0. unfold poly_int. rewrite Rsum_0_ext; [ ring | ]. intros k _. unfold Rdiv. ring.
  - pose proof (odeint_quadrature (poly c 3) y0 t i Ht ltac:(lia)) as Q. cbv zeta in Q.
    rewrite simpson_cubic in Q by (reflexivity || lia). rewrite Nat.add_1_r in Q.
    specialize (IH ltac:(lia)).
    replace (poly_int c 3 (el t 0) (el t (S i))) with (poly_int c 3 (el t 0) (el t i) + poly_int c 3 (el t i) (el t (S i))).
    2: { unfold poly_int. rewrite <- Rsum_plus. apply Rsum_ext. intros k _. unfold Rdiv. ring. }
    lra.
Qed.
Lemma odeint_linear lam y0 t i : t <> [] -> (i + 1 < length t)%nat ->
  let w := odeint1 (fun y _ => lam * y) y0 t in let z := lam * (el t (i + 1) - el t i) in
  el w (i + 1) = (1 + z + z ^ 2 / 2 + z ^ 3 / 6 + z ^ 4 / 24) * el w i.
Proof.
  intros Ht Hi w z. destruct (odeint1_spec (fun y _ => lam * y) y0 t Ht) as (_ & _ & HS). unfold w. rewrite HS by assumption.
  apply rk4_linear.
Qed.
Lemma odeint2_rk4 fn y0 t : t <> [] ->
  let w := odeint2 fn y0 t in let comp := fun (p : R * R) (k : nat) => match k with O => fst p | _ => snd p end in
  length w = length t /\ nth 0 w (0, 0) = y0 /\
  forall i, (i + 1 < length t)%nat -> forall k,
    comp (nth (i + 1) w (0, 0)) k =
    rk4_vec (fun y s => comp (fn (y 0%nat, y 1%nat) s)) (comp (nth i w (0, 0))) (el t i) (el t (i + 1)) k.
Proof.
  intros Ht w comp. destruct (odeint2_spec fn y0 t Ht) as (L & H0 & HS). split; [ exact L | split; [ exact H0 | ]].
  intros i Hi k. specialize (HS i Hi k). destruct k as [ | k]; exact HS.
Qed.
