(** * slogdet / det of sparse matrices (C09) *)
From Verif Require Import Np NpLemmas Sparse SparseSpec SparseProofs.
From mathcomp Require Import all_ssreflect all_algebra.
From Verif Require Import Rfield DetSpec MxBridge.
Set Implicit Arguments.
Unset Strict Implicit.
Delimit Scope R_scope with Re.
Import GRing.Theory.
Local Open Scope ring_scope.
Local Notation "a +c b" := (Nat.add a b) (at level 50, left associativity).
Local Notation "a -c b" := (Nat.sub a b) (at level 50, left associativity).
Local Notation "a *c b" := (Nat.mul a b) (at level 40, left associativity).
Local Notation "a <c b" := (lt a b) (at level 70).
Local Notation "a <=c b" := (le a b) (at level 70).

(** ** python slices of sparse arrays *)
Lemma sub3_spec a b n s r0 r1 c0 c1 : wf3 a b n s -> (r0 <=c r1) -> (r1 <=c a) ->
  (c0 <=c c1) -> (c1 <=c b) ->
  wf3 (r1 -c r0) (c1 -c c0) n (sub3 r0 r1 c0 c1 s) /\
  forall i j k, (i <c r1 -c r0) -> (j <c c1 -c c0) ->
     el3 (sub3 r0 r1 c0 c1 s) i j k = el3 s (r0 +c i) (c0 +c j) k.
Proof.
move=> [L H] H01 Hra Hc01 Hcb.
have L1 : length (firstn (Nat.sub r1 r0) (skipn r0 s)) = Nat.sub r1 r0.
  by rewrite firstn_length skipn_length L; lia.
have E1 i : (i <c r1 -c r0) -> List.nth i (firstn (Nat.sub r1 r0) (skipn r0 s)) [] = List.nth (Nat.add r0 i) s [].
  by move=> Hi; rewrite nth_firstn_lt // nth_skipn'.
split.
- split; first by rewrite /sub3 map_length.
  move=> row /in_map_iff [row0 [<- Hin]].
  have Hin' : List.In row0 s.
    have := List.In_nth _ _ [] Hin => -[i []]; rewrite L1 => Hi <-; rewrite E1 //.
    by apply: nth_In; rewrite L; lia.
  have [L2 H2] := H _ Hin'; split.
    by rewrite firstn_length skipn_length L2; lia.
  move=> v Hv; apply: H2.
  have := List.In_nth _ _ [] Hv => -[i [Hi <-]].
  have Hi' := Hi. rewrite firstn_length in Hi'.
  rewrite nth_firstn_lt; last lia. rewrite nth_skipn'; apply: nth_In.
  rewrite skipn_length in Hi'. lia.
- move=> i j k Hi Hj; rewrite /el3 /sub3 (nth_map_lt _ _ _ [] _) ?L1 // E1 //.
  by rewrite nth_firstn_lt // nth_skipn'.
Qed.

Lemma sub3_spec' a b n s r0 r1 c0 c1 r c : wf3 a b n s -> (r1 = r0 +c r) -> (r1 <=c a) ->
  (c1 = c0 +c c) -> (c1 <=c b) ->
  wf3 r c n (sub3 r0 r1 c0 c1 s) /\
  forall i j k, (i <c r) -> (j <c c) ->
     el3 (sub3 r0 r1 c0 c1 s) i j k = el3 s (r0 +c i) (c0 +c j) k.
Proof.
move=> H E1 H1 E2 H2; have -> : r = Nat.sub r1 r0 by lia.
have -> : c = Nat.sub c1 c0 by lia.
by apply: (sub3_spec H); lia.
Qed.

(** ** determinant of a diagonal matrix *)
Lemma vprod_big v : vprod v = \prod_(i < length v) el v i.
Proof.
elim: v => [|x v IH]; first by rewrite big_ord0.
by rewrite /= big_ord_recl /= IH.
Qed.

Lemma det_diag_fun n (M : 'M[R]_n) v : length v = n ->
  (forall i j, M i j = if (i == j :> nat) then el v i else R0) -> \det M = vprod v.
Proof.
move=> L E; have -> : M = diag_mx (\row_i el v i).
  by apply/matrixP => i j; rewrite E !mxE -val_eqE; case: eqP => //= ->.
by rewrite det_diag vprod_big L; apply: eq_bigr => i _; rewrite mxE.
Qed.

Lemma dense_mxE a b n s (i : 'I_(a *c n)) (j : 'I_(b *c n)) : wf3 a b n s ->
  mx (a *c n) (b *c n) (dense_of n s) i j = dense_entry n s i j.
Proof. by move=> H; rewrite mxE; apply (dense_of_denotes _ _ _ _ H). Qed.

Lemma dense_entry_ext n s t r c r' c' : Nat.modulo r n = Nat.modulo r' n -> Nat.modulo c n = Nat.modulo c' n ->
  el3 s (Nat.div r n) (Nat.div c n) (Nat.modulo r n) = el3 t (Nat.div r' n) (Nat.div c' n) (Nat.modulo r n) ->
  dense_entry n s r c = dense_entry n t r' c'.
Proof. by rewrite /dense_entry => <- <- ->. Qed.

Lemma shift_mod P i : (0 <c P) -> Nat.modulo (P +c i) P = Nat.modulo i P.
Proof. by move=> H; rewrite -{1}(Nat.mul_1_l P) Nat.add_comm Nat.mod_add; lia. Qed.
Lemma shift_div P i : (0 <c P) -> Nat.div (P +c i) P = S (Nat.div i P).
Proof. by move=> H; rewrite -{1}(Nat.mul_1_l P) Nat.add_comm Nat.div_add; lia. Qed.

(** the vector M of _block_det (sparse.py 330) *)
Definition Mk (linv : linv_t) (s : list (list (list R))) (k N P : nat) : list R :=
  let r := (N -c (k +c 1)) in
  vsub (List.nth k (List.nth k s []) [])
       (List.nth 0 (List.nth 0 (sds 1 r P 1 (sub3 k (k +c 1) (k +c 1) N s)
          (sds r r P 1 (inv_data linv r P (sub3 (k +c 1) N (k +c 1) N s))
                       (sub3 (k +c 1) N k (k +c 1) s))) []) []).

Lemma block_detE linv s k N P : block_det linv s k N P =
  (vprod (List.map Rsgn (Mk linv s k N P)), vsum (List.map (fun x => ln (Rabs x)) (Mk linv s k N P))).
Proof. by []. Qed.

Definition trail (s : list (list (list R))) (N k : nat) := sub3 k N k N s.
Definition dmx (a n : nat) (s : list (list (list R))) := mx (Nat.mul a n) (Nat.mul a n) (dense_of n s).

Lemma el_vsub (u v : list R) i : length u = length v -> el (vsub u v) i = (el u i - el v i)%Re.
Proof.
elim: u v i => [|x u IH] [|y v] [|i] //= H; rewrite /el /=; try by ring.
by apply: IH; case: H.
Qed.

Lemma wf3_elem a b n s i j : wf3 a b n s -> (i <c a) -> (j <c b) ->
  length (List.nth j (List.nth i s []) []) = n.
Proof. by move=> H Hi Hj; apply: (wf2_row b) => //; apply: (wf3_row a). Qed.

Section Step.
Variables (linv : linv_t) (N P : nat) (s : list (list (list R))).
Hypothesis Hlinv : linv_ok linv.
Hypothesis HW : wf3 N N P s.
Hypothesis HP : (0 <c P).

Lemma trail_wf k : (k <=c N) -> wf3 (N -c k) (N -c k) P (trail s N k).
Proof. by move=> H; apply: (proj1 (sub3_spec HW _ _ _ _)); lia. Qed.

Lemma trail_el k i j q : (k <=c N) -> (i <c N -c k) -> (j <c N -c k) ->
  el3 (trail s N k) i j q = el3 s (k +c i) (k +c j) q.
Proof. by move=> H Hi Hj; apply: (proj2 (sub3_spec HW _ _ _ _)); lia. Qed.

Hypothesis Hinv : forall k q, (k <c N) -> (q <c P) ->
  exists m, is_slice (N -c k) (N -c k) q (trail s N k) m /\ invertible (N -c k) m.

Lemma trail_inverse k : (k <c N) ->
  is_inverse ((N -c k) *c P) (dense_of P (trail s N k))
             (dense_of P (inv_data linv (N -c k) P (trail s N k))).
Proof.
move=> Hk; have W : wf3 (N -c k) (N -c k) P (trail s N k) by apply: trail_wf; lia.
have [|t [E [Wt H]]] := inv_correct linv _ _ _ Hlinv W.
  by move=> q Hq; apply: Hinv.
have Et : t = inv_data linv (N -c k) P (trail s N k).
  by move: E; rewrite /inv /check_sparse Nat.eqb_refl /= => -[].
by subst t; apply: H; apply: dense_of_denotes => //; exact: wf3_inv_data.
Qed.

Lemma length_Mk k : (k +c 1 <c N) -> length (Mk linv s k N P) = P.
Proof.
move=> Hk; rewrite /Mk /vsub length_map2 (wf3_elem HW); try lia.
rewrite (@wf3_elem 1 1 P); try lia.
set r := Nat.sub _ _; apply: (proj1 (sds_correct 1 r P 1 _ _ _ _)).
- by apply: (proj1 (sub3_spec' HW _ _ _ _)); rewrite /r; lia.
- apply: (proj1 (sds_correct r r P 1 _ _ _ _)); first exact: wf3_inv_data.
  by apply: (proj1 (sub3_spec' HW _ _ _ _)); rewrite /r; lia.
Qed.

(** one Schur step *)
Lemma det_step k : (k +c 1 <c N) ->
  \det (dmx (N -c k) P (trail s N k))
  = \det (dmx (N -c (k +c 1)) P (trail s N (k +c 1))) * vprod (Mk linv s k N P).
Proof.
move=> Hk; set r := (N -c (k +c 1)).
have -> : (N -c k) = S r by rewrite /r; lia.
set T := trail s N k.
have WT : wf3 r.+1 r.+1 P T.
  have -> : r.+1 = (N -c k) by rewrite /r; lia.
  by apply: trail_wf; lia.
have [M [-> ME]] : exists M : 'M[R]_(P + (r *c P)), \det (dmx r.+1 P T) = \det M /\ forall i j, M i j = dense_entry P T i j.
  by exists (dmx r.+1 P T); split=> // i j; apply: (@dense_mxE r.+1 r.+1 P T i j WT).
rewrite -[M]submxK.
set D := drsubmx M.
have DE : D = dmx r P (trail s N (k +c 1)).
  apply/matrixP => i j; rewrite dense_mxE; last by apply: trail_wf; lia.
  rewrite !mxE ME /=; have [Hi Hj] := (ord_lt i, ord_lt j).
  have [[Hi1 Hi2] [Hj1 Hj2]] := (mod_div_lt _ _ _ Hi, mod_div_lt _ _ _ Hj).
  apply: dense_entry_ext; rewrite ?shift_mod ?shift_div //.
  rewrite /T !trail_el; try (rewrite -/r; lia). by congr (el3 _ _ _ _); lia.
have Hk1 : (k +c 1 <c N) by [].
have IT := trail_inverse Hk1.
have UD : D \in unitmx by rewrite DE; exact: (is_inverse_unit IT).
rewrite det_schur // DE; congr (_ * _).
set Si := inv_data linv r P (trail s N (k +c 1)).
have WSi : wf3 r r P Si by exact: wf3_inv_data.
have DiE : invmx D = dmx r P Si by rewrite DE -(is_inverse_inv IT).
set v := sub3 (k +c 1) N k (k +c 1) s.
set u := sub3 k (k +c 1) (k +c 1) N s.
have [Wv Ev] : wf3 r 1 P v /\ forall i j q, (i <c r) -> (j <c 1) ->
     el3 v i j q = el3 s (k +c 1 +c i) (k +c j) q.
  by apply: (sub3_spec' HW); rewrite /r; lia.
have [Wu Eu] : wf3 1 r P u /\ forall i j q, (i <c 1) -> (j <c r) ->
     el3 u i j q = el3 s (k +c i) (k +c 1 +c j) q.
  by apply: (sub3_spec' HW); rewrite /r; lia.
have [W1 E1] := sds_correct r r P 1 Si v WSi Wv.
set Sv := sds r r P 1 Si v in W1 E1 *.
have [W2 E2] := sds_correct 1 r P 1 u Sv Wu W1.
set uSv := sds 1 r P 1 u Sv in W2 E2 *.
have SvE (i : 'I_(r *c P)) (j : 'I_P) : (invmx D *m dlsubmx M) i j = dense_entry P Sv i j.
  have [Hi Hj] := (ord_lt i, ord_lt j); have [Hi1 Hi2] := mod_div_lt _ _ _ Hi.
  rewrite DiE mxE.
  transitivity (Rsum (r *c P) (fun l => (dense_entry P Si i l * dense_entry P v l j)%Re)).
    rewrite Rsum_big; apply: eq_bigr => l _; rewrite dense_mxE //; congr (_ * _).
    rewrite !mxE ME /=; have Hl := ord_lt l; have [Hl1 Hl2] := mod_div_lt _ _ _ Hl.
    apply: dense_entry_ext; rewrite ?shift_mod ?shift_div //.
    rewrite (Nat.div_small j P) // /T trail_el; try lia. by rewrite Ev; [congr (el3 _ _ _ _); lia|lia|lia].
  rewrite dense_entry_prod // /dense_entry (Nat.div_small j P) //.
  by case: (Nat.eqb _ _) => //; rewrite E1.
apply: det_diag_fun; first exact: length_Mk.
move=> i j.
have [Hi Hj] := (ord_lt i, ord_lt j).
have uE : (ursubmx M *m (invmx D *m dlsubmx M)) i j = dense_entry P uSv i j.
  rewrite mxE.
  transitivity (Rsum (r *c P) (fun l => (dense_entry P u i l * dense_entry P Sv l j)%Re)).
    rewrite Rsum_big; apply: eq_bigr => l _; rewrite SvE; congr (_ * _).
    rewrite !mxE ME /=; have Hl := ord_lt l; have [Hl1 Hl2] := mod_div_lt _ _ _ Hl.
    apply: dense_entry_ext; rewrite ?shift_mod ?shift_div //.
    rewrite (Nat.div_small i P) // /T trail_el; try lia. by rewrite Eu; [congr (el3 _ _ _ _); lia|lia|lia].
  rewrite dense_entry_prod // /dense_entry (Nat.div_small j P) // (Nat.div_small i P) // (Nat.mod_small i P) //.
  by case: (Nat.eqb _ _) => //; rewrite E2.
rewrite DE in uE; rewrite mxE [in X in _ + X]mxE uE mxE mxE ME /=.
rewrite /dense_entry (Nat.mod_small i P) // (Nat.mod_small j P) // (Nat.div_small i P) // (Nat.div_small j P) //.
have -> : Nat.eqb i j = (i == j :> nat).
  by apply/idP/idP => [/Nat.eqb_spec ->|/eqP ->]; rewrite ?eqxx ?Nat.eqb_refl.
case: eqP => [Eij|_]; last by rewrite subr0.
rewrite /Mk -/r -/u -/v -/Si -/Sv -/uSv el_vsub.
  rewrite /T trail_el; try lia. by rewrite Nat.add_0_r.
by rewrite (wf3_elem HW) ?(wf3_elem W2); lia.
Qed.

Lemma det_steps m : (m +c 1 <=c N) ->
  \det (dmx N P (trail s N 0)) = \det (dmx (N -c m) P (trail s N m)) * \prod_(k < m) vprod (Mk linv s k N P).
Proof.
elim: m => [|m IH] Hm; first by rewrite big_ord0 mulr1 Nat.sub_0_r.
rewrite IH; last lia. rewrite det_step; last lia.
by rewrite big_ord_recr /= Nat.add_1_r -!mulrA; congr (_ * _); rewrite mulrC.
Qed.

Lemma trail0 : trail s N 0 = s.
Proof.
rewrite /trail /sub3 !Nat.sub_0_r /=; case: HW => L H.
have -> : firstn N s = s by rewrite -L firstn_all.
rewrite -[RHS]map_id; apply: map_ext_in => row Hrow.
by have [<- _] := H _ Hrow; rewrite firstn_all.
Qed.

Lemma det_last : (0 <c N) ->
  \det (dmx 1 P (trail s N (N -c 1))) = vprod (List.nth (N -c 1) (List.nth (N -c 1) s []) []).
Proof.
move=> HN; have E1 : N -c (N -c 1) = 1%N by lia.
have W : wf3 1 1 P (trail s N (N -c 1)) by rewrite -{1 2}E1; apply: trail_wf; lia.
apply: det_diag_fun; first by rewrite (wf3_elem HW) /=; lia.
move=> i j; rewrite dense_mxE //; have [Hi Hj] := (ord_lt i, ord_lt j).
rewrite /dense_entry (Nat.mod_small i P) ?(Nat.mod_small j P) ?(Nat.div_small i P) ?(Nat.div_small j P) //; try lia.
have -> : Nat.eqb i j = (i == j :> nat).
  by apply/idP/idP => [/Nat.eqb_spec ->|/eqP ->]; rewrite ?eqxx ?Nat.eqb_refl.
by case: eqP => // _; rewrite trail_el; try lia; rewrite !Nat.add_0_r.
Qed.

Lemma det_trail_nz k : (k <c N) -> \det (dmx (N -c k) P (trail s N k)) != 0.
Proof. by move=> /trail_inverse /is_inverse_unit; rewrite unitmxE unitfE. Qed.

Lemma Mk_nz k : (k +c 1 <c N) -> vprod (Mk linv s k N P) != 0.
Proof.
move=> Hk; have := @det_trail_nz k; rewrite det_step //; move=> H.
by have := H ltac:(lia); rewrite mulf_eq0 negb_or => /andP [].
Qed.

End Step.

(** ** signs and logarithms *)
Lemma vprod_sgn_log v : vprod v <> R0 ->
  (vprod (List.map Rsgn v) = 1%Re \/ vprod (List.map Rsgn v) = (-1)%Re) /\
  (vprod (List.map Rsgn v) * exp (vsum (List.map (fun x => ln (Rabs x)) v)) = vprod v)%Re.
Proof.
elim: v => [|x v IH] /= H; first by split; [left|rewrite exp_0; ring].
have Hx : x <> R0 by move=> E; apply: H; rewrite E; ring.
have Hv : vprod v <> R0 by move=> E; apply: H; rewrite E; ring.
have [IH1 IH2] := IH Hv.
have Sx : (Rsgn x = 1 \/ Rsgn x = -1)%Re /\ (Rsgn x * Rabs x = x)%Re.
  rewrite /Rsgn; case: Rlt_dec => H1; first by rewrite Rabs_left //; split; [right|lra].
  case: Rlt_dec => H2; first by rewrite Rabs_right; [split; [left|lra]|lra].
  by exfalso; apply: Hx; lra.
split; first by case: IH1 => ->; case: (proj1 Sx) => ->; [left|right|right|left]; ring.
rewrite exp_plus exp_ln; last by apply: Rabs_pos_lt.
by rewrite -[RHS](f_equal2 Rmult (proj2 Sx) IH2); ring.
Qed.

Lemma slog_fold (f : nat -> R * R) (g : nat -> R) m acc :
  (forall k, (k <c m) -> (fst (f k) = 1 \/ fst (f k) = -1)%Re /\ (fst (f k) * exp (snd (f k)) = g k)%Re) ->
  (fst acc = 1 \/ fst acc = -1)%Re ->
  let r := fold_left (fun acc i => let (sg, ld) := f i in (Rmult (fst acc) sg, Rplus (snd acc) ld)) (seq.iota 0 m) acc in
  (fst r = 1 \/ fst r = -1)%Re /\ (fst r * exp (snd r))%Re = (fst acc * exp (snd acc))%Re * \prod_(k < m) g k.
Proof.
elim: m => [|m IH] H Hacc; first by rewrite big_ord0 mulr1.
rewrite (_ : seq.iota 0 m.+1 = List.app (seq.iota 0 m) [m]); last by rewrite -addn1 iotaD.
rewrite fold_left_app big_ord_recr /=.
have [|IH1 IH2] := IH _ Hacc; first by move=> k Hk; apply: H; lia.
set r := fold_left _ _ _ in IH1 IH2 *.
have [H1 H2] : (fst (f m) = 1 \/ fst (f m) = -1)%Re /\ (fst (f m) * exp (snd (f m)) = g m)%Re by apply: H; lia.
case: (f m) H1 H2 => sg ld /= H1 H2; split.
  by case: IH1 => ->; case: H1 => ->; [left|right|right|left]; ring.
by rewrite mulrA -IH2 exp_plus -H2 /GRing.mul /=; ring.
Qed.

Lemma iota_seq m n : seq.iota m n = List.seq m n.
Proof. by elim: n m => //= n IH m; rewrite IH. Qed.

Theorem slogdet_correct linv N P s : linv_ok linv -> wf3 N N P s -> (0 <c N) -> (0 <c P) ->
  (forall k q, k <c N -> q <c P ->
     exists m, is_slice (N -c k) (N -c k) q (sub3 k N k N s) m /\ invertible (N -c k) m) ->
  exists sg ld, slogdet linv (A3 N N P s) = Ok (sg, ld) /\ (sg = 1 \/ sg = -1)%Re /\
     (sg * exp ld)%Re = det_of (N *c P) (dense_of P s) /\
     det linv (A3 N N P s) = Ok (det_of (N *c P) (dense_of P s)).
Proof.
move=> HL HW HN HP Hinv.
rewrite /det /slogdet /check_sparse Nat.eqb_refl /= -iota_seq.
have Hd := @det_steps linv N P s HL HW HP Hinv (N -c 1) ltac:(lia).
have E1 : N -c (N -c 1) = 1%N by lia.
rewrite E1 det_last // (trail0 HW) in Hd.
set last := List.nth (N -c 1) _ _ in Hd *.
have Hlast : vprod last <> R0.
  rewrite -(det_last HW HP HN); apply/eqP.
  by have := @det_trail_nz linv N P s HL HW HP Hinv (N -c 1) ltac:(lia); rewrite E1.
have [S1 S2] := vprod_sgn_log Hlast.
have Hb k : k <c (N -c 1) -> let f := block_det linv s k N P in
   (fst f = 1 \/ fst f = -1)%Re /\ (fst f * exp (snd f))%Re = vprod (Mk linv s k N P).
  move=> Hk; apply: vprod_sgn_log.
  by apply/eqP; apply: (Mk_nz HL HW HP Hinv); lia.
have [F1 F2] := @slog_fold (fun i => block_det linv s i N P) (fun i => vprod (Mk linv s i N P)) (N -c 1)
   (vprod (List.map Rsgn last), vsum (List.map (fun x => ln (Rabs x)) last)) Hb S1.
move: F1 F2; case: (fold_left _ _ _) => sg ld /= F1 F2.
have Hfin : (sg * exp ld)%Re = det_of (N *c P) (dense_of P s).
  by rewrite F2 S2 /det_of -/(dmx N P s) Hd.
by exists sg, ld; split=> //; split=> //; split=> //; rewrite Hfin.
Qed.
