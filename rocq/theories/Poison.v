(** * Numbers that spoil every result computed from them: normalisations, kernels and clustering spectra *)
From Coq Require Import Reals Lra Lia List.
From Verif Require Import Np NpLemmas Core Interp Integrate Background Transfer Power Redshift Bias Probes AngularCl CovProofs Ad AdPower AdProbes AdNuis.
Import ListNotations.
Local Open Scope R_scope.

(** sums, products and quotients with a bad argument are bad *)
Class poison {A} (N : num A) (bad : A -> Prop) : Prop := {
  po_add_l : forall x y, bad x -> bad (nadd N x y);
  po_add_r : forall x y, bad y -> bad (nadd N x y);
  po_sub_l : forall x y, bad x -> bad (nsub N x y);
  po_mul_l : forall x y, bad x -> bad (nmul N x y);
  po_mul_r : forall x y, bad y -> bad (nmul N x y);
  po_div_l : forall x y, bad x -> bad (ndiv N x y);
  po_div_r : forall x y, bad y -> bad (ndiv N x y) }.
Section Poison.
Context {Nm : Type} {N : num Nm} {bad : Nm -> Prop} {PO : poison N bad}.
Lemma bad_sum l : (exists x, In x l /\ bad x) -> bad (gsum N l).
Proof.
  induction l as [ | y l IH]; intros (x & Hx & B); [ destruct Hx | ]. unfold gsum. cbn [fold_right]. destruct Hx as [-> | Hx]; [ now apply po_add_l | apply po_add_r, IH; now exists x ].
Qed.
Lemma simps_first f a b n : Nat.eqb (S (S n) mod 2) 1 = false -> bad (f a) -> exists v, gsimps N f a b (S (S n)) = Ok v /\ bad v.
Proof.
  intros EV HB. unfold gsimps. rewrite EV. cbv zeta. eexists. split; [ reflexivity | ]. apply po_mul_r, bad_sum.
  replace (S (S n) + 1)%nat with (S (S (S n))) by lia.
  assert (EL : exists x1 x2 L, linspace a b (S (S (S n))) = a :: x1 :: x2 :: L) by (unfold linspace, tab; cbn [seq map]; do 3 eexists; f_equal; cbn [INR]; ring). destruct EL as (x1 & x2 & L & ->).
  cbn [map]. generalize (map f L) as rest. generalize (f x1) as f1, (f x2) as f2. intros f1 f2 rest. set (q := removelast (f2 :: rest)).
  change (removelast (f a :: f1 :: f2 :: rest)) with (f a :: f1 :: q).
  assert (EO : exists o1 o, odds (f a :: f1 :: f2 :: rest) = o1 :: o) by (now exists f1, (evens rest)). destruct EO as (o1 & o & ->).
  assert (EE : exists e1 e, evens (skipn 2 (f a :: f1 :: f2 :: rest)) = e1 :: e) by (cbn [skipn]; destruct rest as [ | r0 r1]; [ now exists f2, [] | now exists f2, (evens r1) ]). destruct EE as (e1 & e & ->).
  cbn [evens gvscale map gvadd map2]. unfold gvscale, gvadd. cbn [map map2]. eexists. split; [ left; reflexivity | ]. now apply po_add_l, po_add_l.
Qed.
Lemma norm_nan d q : gis_delta d = false -> bad (hpz_fn N d (cst N 0)) -> bad (hpz N d q).
Proof.
  intros ND HB. unfold hpz. apply po_div_r. unfold hnz_norm. rewrite ND.
  assert (H0 : bad (hpz_fn N d (cst N 0.0))) by (replace 0.0 with 0 by lra; exact HB).
  assert (EV : Nat.eqb (S (S 254) mod 2) 1 = false) by reflexivity.
  destruct (simps_first (fun q => hpz_fn N d (cst N q)) 0.0 (gnz_zmax d) 254 EV H0) as (v & E & B). change (gsimps N (fun q0 => hpz_fn N d (cst N q0)) 0.0 (gnz_zmax d) 256 = Ok v) in E. now rewrite E.
Qed.
Definition dead (d : gnz Nm) : Prop := gis_delta d = false /\ bad (hpz_fn N d (cst N 0)).
Lemma dead_pz d q : dead d -> bad (hpz N d q). Proof. intros [H1 H2]. now apply norm_nan. Qed.
(** ** density kernels *)
Lemma bad_vmul u v : (forall x, In x u -> bad x) -> forall x, In x (gvmul N u v) -> bad x.
Proof.
  revert v. induction u as [ | y u IH]; intros [ | w v] HU x; try easy. unfold gvmul. cbn [map2]. intros [<- | Hx]; [ apply po_mul_l, HU; now left | ]. apply (IH v); [ intros q Hq; apply HU; now right | exact Hx ].
Qed.
Lemma bad_vscale k u : (forall x, In x u -> bad x) -> forall x, In x (gvscale N k u) -> bad x.
Proof. intros HU x Hx. apply in_map_iff in Hx. destruct Hx as (y & <- & Hy). now apply po_mul_r, HU. Qed.
Definition all_bad (m : list (list Nm)) : Prop := forall row x, In row m -> In x row -> bad x.
Lemma in_map2 {X Y Z} (f : X -> Y -> Z) u : forall v z, In z (map2 f u v) -> exists x y, In x u /\ z = f x y.
Proof. induction u as [ | x u IH]; intros [ | y v] z; try easy. cbn [map2]. intros [<- | H]; [ exists x, y; split; [ now left | reflexivity ] | ]. destruct (IH v z H) as (x' & y' & H1 & H2). exists x', y'. split; [ now right | exact H2 ]. Qed.
Lemma bcast_in {X Y Z} (f : X -> Y -> Z) u v r : bcast f u v = Ok r -> forall z, In z r -> exists x y, In x u /\ z = f x y.
Proof.
  unfold bcast. destruct (Nat.eqb (length u) (length v)); [ intros E; injection E as <-; apply in_map2 | ].
  assert (G1 : forall y z, In z (map (fun x => f x y) u) -> exists x y, In x u /\ z = f x y) by (intros y z Hz; apply in_map_iff in Hz; destruct Hz as (q & <- & Hq); now exists q, y).
  assert (G2 : forall x l z, In x u -> In z (map (fun y => f x y) l) -> exists x y, In x u /\ z = f x y) by (intros x l z Hu Hz; apply in_map_iff in Hz; destruct Hz as (q & <- & Hq); now exists x, q).
  destruct v as [ | y [ | y2 v]].
  - destruct u as [ | x [ | x2 u]]; intros E; try discriminate. injection E as <-. easy.
  - intros E. assert (E' : Ok (map (fun x => f x y) u) = Ok r) by (destruct u as [ | x [ | x2 u]]; exact E). injection E' as <-. apply G1.
  - destruct u as [ | x [ | x2 u]]; intros E; try discriminate. injection E as <-. intros z Hz. apply (G2 x (y :: y2 :: v) z); [ now left | exact Hz ].
Qed.
Lemma density_kernel_nan c (ds : list (gnz Nm)) ba z ell rows : (forall d, In d ds -> dead d) -> hdensity_kernel N c ds ba z ell = Ok rows -> all_bad rows.
Proof.
  intros HD. unfold hdensity_kernel. destruct (gcosmo_jit c) as [c' | e]; [ cbn [bind] | discriminate ]. unfold hclustering_rows. destruct (existsb gis_delta ds); [ discriminate | ]. destruct ds as [ | d0 ds']; [ discriminate | ].
  set (dndz := map (fun d => map (hpz N d) z) (d0 :: ds')). assert (B0 : all_bad dndz).
  { intros row x Hr Hx. apply in_map_iff in Hr. destruct Hr as (d & <- & Hd). apply in_map_iff in Hx. destruct Hx as (q & <- & _). now apply dead_pz, HD. }
  clearbody dndz.
  destruct (htimes_bias N c' ba z dndz) as [m | e] eqn:EB; [ cbn [bind] | discriminate ]. intros E. injection E as <-.
  assert (B1 : all_bad m).
  { intros row x Hr. unfold htimes_bias in EB. destruct ba as [b | bs].
    - injection EB as <-. apply in_map_iff in Hr. destruct Hr as (r0 & <- & H0). apply bad_vmul. intros y. now apply B0.
    - destruct bs as [ | b0 bs]; [ discriminate | ]. destruct (bcast_in _ _ _ _ EB row Hr) as (r0 & y & H0 & ->). apply bad_vmul. intros y'. now apply B0. }
  intros row x Hr. apply in_map_iff in Hr. destruct Hr as (r0 & <- & H0). apply bad_vscale. intros y Hy. apply in_map_iff in H0. destruct H0 as (r1 & <- & H1). revert Hy. apply bad_vmul. intros q. now apply B1.
Qed.

(** at least m rows, of length n, of numbers with a NaN tangent *)
Definition block (m n : nat) (rows : list (list Nm)) : Prop := (m <= length rows)%nat /\ (forall row, In row rows -> length row = n) /\ all_bad rows.
Definition row_bad (n : nat) (row : list Nm) : Prop := length row = n /\ forall x, In x row -> bad x.
Lemma vmul_bad n u v : row_bad n u -> length v = n -> row_bad n (gvmul N u v).
Proof. intros [L B] LV. split; [ unfold gvmul; rewrite length_map2, L, LV; apply Nat.min_id | now apply bad_vmul ]. Qed.
Lemma vmul_bad_r n u v : row_bad n v -> length u = n -> row_bad n (gvmul N u v).
Proof.
  intros [L B] LU. split; [ unfold gvmul; rewrite length_map2, L, LU; apply Nat.min_id | ]. intros x Hx. clear L LU.
  revert u Hx. induction v as [ | y v IH]; intros [ | w u] Hx; try easy. unfold gvmul in Hx. cbn [map2] in Hx. destruct Hx as [<- | Hx]; [ apply po_mul_r, B; now left | ]. apply (IH (fun q Hq => B q (or_intror Hq)) u Hx).
Qed.
Lemma vdiv_bad n u v : row_bad n u -> length v = n -> row_bad n (gvdiv N u v).
Proof.
  intros [L B] LV. split; [ unfold gvdiv; rewrite length_map2, L, LV; apply Nat.min_id | ]. intros x Hx. clear L LV.
  revert v Hx. induction u as [ | y u IH]; intros [ | w v] Hx; try easy. unfold gvdiv in Hx. cbn [map2] in Hx. destruct Hx as [<- | Hx]; [ apply po_div_l, B; now left | ]. apply (IH (fun q Hq => B q (or_intror Hq)) v Hx).
Qed.
Lemma vadd_bad_l n u v : row_bad n u -> length v = n -> row_bad n (gvadd N u v).
Proof.
  intros [L B] LV. split; [ unfold gvadd; rewrite length_map2, L, LV; apply Nat.min_id | ]. intros x Hx. clear L LV.
  revert v Hx. induction u as [ | y u IH]; intros [ | w v] Hx; try easy. unfold gvadd in Hx. cbn [map2] in Hx. destruct Hx as [<- | Hx]; [ apply po_add_l, B; now left | ]. apply (IH (fun q Hq => B q (or_intror Hq)) v Hx).
Qed.
Lemma vscale_bad n k u : row_bad n u -> row_bad n (gvscale N k u).
Proof. intros [L B]. split; [ unfold gvscale; now rewrite map_length | now apply bad_vscale ]. Qed.
Lemma bcast_len {X Y Z} (f : X -> Y -> Z) u v r : v <> [] -> bcast f u v = Ok r -> (length u <= length r)%nat.
Proof.
  intros HV. unfold bcast. destruct (Nat.eqb (length u) (length v)) eqn:EL; [ apply Nat.eqb_eq in EL; intros E; injection E as <-; rewrite length_map2; lia | ].
  destruct v as [ | y [ | y2 v]]; [ easy | | ].
  - intros E. assert (E' : Ok (map (fun x => f x y) u) = Ok r) by (destruct u as [ | x [ | x2 u]]; exact E). injection E' as <-. now rewrite map_length.
  - destruct u as [ | x [ | x2 u]]; intros E; try discriminate. injection E as <-. cbn [length map]. lia.
Qed.
Lemma bcast_in2 {X Y Z} (f : X -> Y -> Z) u v r : bcast f u v = Ok r -> forall z, In z r -> exists x y, In x u /\ In y v /\ z = f x y.
Proof.
  assert (M2 : forall u v z, In z (map2 f u v) -> exists x y, In x u /\ In y v /\ z = f x y).
  { clear. induction u as [ | x u IH]; intros [ | y v] z; try easy. cbn [map2]. intros [<- | H]; [ exists x, y; split; [ now left | split; [ now left | reflexivity ] ] | ]. destruct (IH v z H) as (x' & y' & H1 & H2 & H3). exists x', y'. split; [ now right | split; [ now right | exact H3 ] ]. }
  unfold bcast. destruct (Nat.eqb (length u) (length v)); [ intros E; injection E as <-; apply M2 | ].
  destruct v as [ | y [ | y2 v]].
  - destruct u as [ | x [ | x2 u]]; intros E; try discriminate. injection E as <-. easy.
  - intros E. assert (E' : Ok (map (fun x => f x y) u) = Ok r) by (destruct u as [ | x [ | x2 u]]; exact E). injection E' as <-. intros z Hz. apply in_map_iff in Hz. destruct Hz as (q & <- & Hq). exists q, y. repeat split; [ exact Hq | now left ].
  - destruct u as [ | x [ | x2 u]]; intros E; try discriminate. injection E as <-. intros z Hz. change (In z (map (fun y => f x y) (y :: y2 :: v))) in Hz. apply in_map_iff in Hz. destruct Hz as (q & <- & Hq). exists x, q. split; [ now left | split; [ exact Hq | reflexivity ] ].
Qed.
Lemma kernel_block c (ds : list (gnz Nm)) ba z ell rows : (forall d, In d ds -> dead d) -> hdensity_kernel N c ds ba z ell = Ok rows ->
  (length ds <= length rows)%nat /\ forall row, In row rows -> row_bad (length z) row.
Proof.
  intros HD E0. assert (AB := density_kernel_nan c ds ba z ell rows HD E0). revert E0. unfold hdensity_kernel. destruct (gcosmo_jit c) as [c' | e]; [ cbn [bind] | discriminate ]. unfold hclustering_rows. destruct (existsb gis_delta ds); [ discriminate | ].
  set (dndz := map (fun d => map (hpz N d) z) ds). assert (LD : length dndz = length ds) by (unfold dndz; apply map_length). assert (RD : forall row, In row dndz -> length row = length z) by (intros row Hr; apply in_map_iff in Hr; destruct Hr as (d & <- & _); apply map_length).
  clearbody dndz. destruct ds as [ | d0 ds']; [ discriminate | ]. destruct (htimes_bias N c' ba z dndz) as [m | e] eqn:EB; [ cbn [bind] | discriminate ]. intros E. injection E as <-.
  assert (LV : forall u v : list Nm, length u = length z -> length v = length z -> length (gvmul N u v) = length z) by (intros u v LU LW; unfold gvmul; rewrite length_map2, LU, LW; apply Nat.min_id).
  assert (BM : (length dndz <= length m)%nat /\ forall row, In row m -> length row = length z).
  { unfold htimes_bias in EB. destruct ba as [b | bs].
    - injection EB as <-. rewrite map_length. split; [ lia | ]. intros row Hr. apply in_map_iff in Hr. destruct Hr as (r0 & <- & H0). apply LV; [ now apply RD | apply map_length ].
    - destruct bs as [ | b0 bs]; [ discriminate | ]. split; [ refine (bcast_len _ _ _ _ _ EB); discriminate | ]. intros row Hr. destruct (bcast_in2 _ _ _ _ EB row Hr) as (r0 & y & H0 & H1 & ->). apply LV; [ now apply RD | ]. apply in_map_iff in H1. destruct H1 as (b & <- & _). apply map_length. }
  destruct BM as [B1 B2]. split; [ rewrite !map_length; lia | ]. intros row Hr. split; [ | intros x; now apply AB ].
  apply in_map_iff in Hr. destruct Hr as (r0 & <- & H0). unfold gvscale. rewrite map_length. apply in_map_iff in H0. destruct H0 as (r1 & <- & H1). apply LV; [ now apply B2 | apply map_length ].
Qed.
Lemma row_bad_nth n row i : row_bad n row -> (i < n)%nat -> bad (nth i row (cst N 0)).
Proof. intros [L B] Hi. apply B, nth_In. lia. Qed.
Lemma integrand_bad c (ds : list (gnz Nm)) ba (P : gspectrum (A := Nm)) ell a m : (forall d, In d ds -> dead d) ->
  hcl_integrand N c [GPNC (GNC ds ba)] P ell a = Ok m -> length m = length a /\ forall row, In row m -> row_bad (length (hcl_ordering [GPNC (GNC ds ba)])) row.
Proof.
  intros HD. unfold hcl_integrand. cbv zeta. cbn [mapM hkernel gnc_bins gnc_bias]. destruct (hdensity_kernel N c ds ba (map a2z a) ell) as [rows | e] eqn:EK; [ cbn [bind] | discriminate ]. intros E. injection E as <-.
  destruct (kernel_block c ds ba (map a2z a) ell rows HD EK) as [LK BK]. rewrite map_length in BK. split; [ apply length_tab | ]. intros row Hr. unfold tab in Hr. apply in_map_iff in Hr. destruct Hr as (q & <- & Hq). apply in_seq in Hq.
  split; [ now rewrite !map_length | ]. intros x Hx. apply in_map_iff in Hx. destruct Hx as (r & <- & Hr). apply (row_bad_nth (length a)); [ | lia ].
  apply in_map_iff in Hr. destruct Hr as (cm & <- & Hc). apply in_map_iff in Hc. destruct Hc as ([i j] & <- & Hij). cbn [concat]. rewrite app_nil_r. cbn [fst snd].
  unfold hcl_ordering in Hij. cbn [map gbins_of gnc_bins list_sum fold_right] in Hij. rewrite Nat.add_0_r in Hij. apply In_cl_ordering in Hij.
  assert (BI : row_bad (length a) (nth i rows [])) by (apply BK, nth_In; lia). assert (BJ : row_bad (length a) (nth j rows [])) by (apply BK, nth_In; lia).
  apply vdiv_bad; [ | now rewrite !map_length ]. apply vmul_bad; [ | now rewrite map_length ]. apply vmul_bad_r; [ | rewrite length_map2, !map_length; apply Nat.min_id ]. apply vmul_bad; [ exact BI | apply BJ ].
Qed.
Lemma fold_len n l : (forall r, In r l -> length r = n) -> length (fold_right (gvadd N) (repeat (cst N 0) n) l) = n.
Proof. induction l as [ | r l IH]; intros H; cbn [fold_right]; [ apply repeat_length | ]. unfold gvadd at 1. rewrite length_map2, (H r (or_introl eq_refl)), IH by (intros q Hq; apply H; now right). apply Nat.min_id. Qed.
Lemma in_removelast {X} (x : X) l : In x (removelast l) -> In x l.
Proof. induction l as [ | y l IH]; [ easy | ]. destruct l as [ | z l]; [ easy | ]. intros [<- | H]; [ now left | right; now apply IH ]. Qed.
Lemma in_evens {X} n : forall (l : list X) x, (length l <= n)%nat -> In x (evens l) -> In x l.
Proof. induction n as [ | n IH]; intros [ | y [ | w l]] x L H; try easy; cbn [length] in L; try lia. destruct H as [<- | H]; [ now left | right; right; apply IH; [ lia | exact H ] ]. Qed.
Lemma in_skipn {X} n : forall (l : list X) x, In x (skipn n l) -> In x l.
Proof. induction n as [ | n IH]; intros [ | y l] x H; try easy. right. now apply IH. Qed.
Lemma ok_inj {X} (a b : X) : Ok a = Ok b -> a = b. Proof. now intros [= E]. Qed.
Lemma simps_rows_any (Q : list Nm -> Prop) nc f a b n v : (forall k u, Q u -> Q (gvscale N k u)) -> (forall u w, Q u -> length w = nc -> Q (gvadd N u w)) ->
  (forall m, f (linspace a b (S (S n) + 1)) = Ok m -> length m = (S (S n) + 1)%nat /\ forall row, In row m -> length row = nc /\ Q row) ->
  gsimps_rows N nc f a b (S (S n)) = Ok v -> Q v.
Proof.
  intros QS QA HF. unfold gsimps_rows. destruct (Nat.eqb (S (S n) mod 2) 1); [ discriminate | ]. destruct (f (linspace a b (S (S n) + 1))) as [m | e] eqn:EF; [ cbn [bind] | discriminate ]. intros E. apply ok_inj in E. rewrite <- E. clear E. destruct (HF m eq_refl) as [LM BM].
  apply QS. destruct m as [ | r0 [ | r1 [ | r2 rest]]]; cbn [length] in LM; try lia. set (q := removelast (r2 :: rest)).
  change (removelast (r0 :: r1 :: r2 :: rest)) with (r0 :: r1 :: q).
  assert (EO : exists o, odds (r0 :: r1 :: r2 :: rest) = r1 :: o) by (now exists (evens rest)). destruct EO as (o & EO).
  assert (EE : exists e, evens (skipn 2 (r0 :: r1 :: r2 :: rest)) = r2 :: e) by (cbn [skipn]; destruct rest as [ | s0 s1]; [ now exists [] | now exists (evens s1) ]). destruct EE as (e & EE).
  assert (IO : forall r, In r o -> In r (r0 :: r1 :: r2 :: rest)).
  { intros r Hr. assert (H : In r (odds (r0 :: r1 :: r2 :: rest))) by (rewrite EO; now right). right. exact (in_evens _ _ _ (le_n _) H). }
  assert (IE : forall r, In r e -> In r (r0 :: r1 :: r2 :: rest)).
  { intros r Hr. assert (H : In r (evens (skipn 2 (r0 :: r1 :: r2 :: rest)))) by (rewrite EE; now right). apply in_evens with (n := length (skipn 2 (r0 :: r1 :: r2 :: rest))) in H; [ | apply le_n ]. now apply in_skipn in H. }
  rewrite EO, EE. cbn [map]. change (evens (r0 :: r1 :: q)) with (r0 :: evens q).
  assert (IQ : forall r, In r (evens q) -> In r (r0 :: r1 :: r2 :: rest)).
  { intros r Hr. apply in_evens with (n := length q) in Hr; [ | apply le_n ]. apply in_removelast in Hr. right. right. exact Hr. }
  cbn [map2 fold_right]. assert (LR : forall r, In r (r0 :: r1 :: r2 :: rest) -> length r = nc) by (intros r Hr; now apply BM).
  apply QA.
  - apply QA; [ | apply LR; right; right; now left ]. apply QA; [ apply BM; now left | ]. unfold gvscale. rewrite map_length. apply LR. right. now left.
  - apply fold_len. intros r Hr. assert (HM : exists x y w, In x (evens q) /\ In y o /\ In w e /\ r = gvadd N (gvadd N x (gvscale N (cst N 4) y)) w).
    { revert Hr. clear. generalize (evens q) as p. revert e. induction o as [ | y o IH]; intros [ | w e] [ | x p]; cbn [map map2]; try easy. intros [<- | H]; [ exists x, y, w; repeat split; now left | ].
      destruct (IH e p H) as (x' & y' & w' & H1 & H2 & H3 & H4). exists x', y', w'. repeat split; try (now right). exact H4. }
    destruct HM as (x & y & w & H1 & H2 & H3 & ->). unfold gvadd, gvscale. rewrite !length_map2, map_length, (LR x (IQ x H1)), (LR y (IO y H2)), (LR w (IE w H3)). now rewrite !Nat.min_id.
Qed.
Lemma simps_rows_bad nc f a b n v : (forall m, f (linspace a b (S (S n) + 1)) = Ok m -> length m = (S (S n) + 1)%nat /\ forall row, In row m -> row_bad nc row) ->
  gsimps_rows N nc f a b (S (S n)) = Ok v -> row_bad nc v.
Proof.
  intros HF. apply (simps_rows_any (row_bad nc)); [ apply vscale_bad | intros u w; apply vadd_bad_l | ]. intros m Em. destruct (HF m Em) as [L B]. split; [ exact L | ]. intros row Hr. split; [ apply (B row Hr) | now apply B ].
Qed.
Lemma mapM_in {X Y} (f : X -> res Y) l : forall m, mapM f l = Ok m -> forall y, In y m -> exists x, In x l /\ f x = Ok y.
Proof.
  induction l as [ | x l IH]; intros m; cbn [mapM]; [ intros E; injection E as <-; easy | ]. destruct (f x) as [y0 | e] eqn:E1; [ cbn [bind] | discriminate ]. destruct (mapM f l) as [m' | e] eqn:E2; [ cbn [bind] | discriminate ].
  intros E. injection E as <-. intros y [<- | H]; [ exists x; split; [ now left | exact E1 ] | ]. destruct (IH m' eq_refl y H) as (x' & H1 & H2). exists x'. split; [ now right | exact H2 ].
Qed.
Lemma clustering_nan c (ds : list (gnz Nm)) ba (P : gspectrum (A := Nm)) ells rows : (forall d, In d ds -> dead d) ->
  hangular_cl N c (Array1 ells) [GPNC (GNC ds ba)] P = Ok rows -> forall row x, In row rows -> In x row -> bad x.
Proof.
  intros HD. unfold hangular_cl. destruct (mapM (fun p => pymax (map gnz_zmax (gbins_of p))) [GPNC (GNC ds ba)]) as [zs | e]; [ cbn [bind] | discriminate ]. destruct (pymax zs) as [zmax | e]; [ cbn [bind] | discriminate ].
  set (nc := length (hcl_ordering [GPNC (GNC ds ba)])). destruct (mapM (hcl_one N c [GPNC (GNC ds ba)] P zmax) ells) as [cols | e] eqn:EC; [ cbn [bind] | discriminate ]. intros E. apply ok_inj in E. rewrite <- E. clear E.
  intros row x Hr Hx. unfold stack1, tab in Hr. apply in_map_iff in Hr. destruct Hr as (i & <- & Hi). apply in_seq in Hi. apply in_map_iff in Hx. destruct Hx as (col & <- & Hcol).
  destruct (mapM_in _ _ _ EC col Hcol) as (ell & _ & Eone). unfold hcl_one in Eone. fold nc in Eone.
  destruct (gsimps_rows N nc (hcl_integrand N c [GPNC (GNC ds ba)] P ell) (z2a zmax) 1.0 512) as [v | e] eqn:EV; [ cbn [bind] in Eone | discriminate ]. apply ok_inj in Eone. rewrite <- Eone. clear Eone.
  assert (BV : row_bad nc v).
  { refine (simps_rows_bad nc _ _ _ 510 v _ EV). intros m Em. destruct (integrand_bad _ _ _ _ _ _ _ HD Em) as [L B]. split; [ | exact B ]. rewrite L. unfold linspace. apply length_tab. }
  apply (row_bad_nth nc); [ | lia ]. destruct BV as [L B]. split; [ now rewrite map_length | ]. intros y Hy. apply in_map_iff in Hy. destruct Hy as (u & <- & Hu). now apply po_div_l, B.
Qed.
End Poison.
