(** * Proofs about spectra ordering, noise and the Gaussian covariance *)
From Coq Require Import Sorting.Sorted.
From Verif Require Import Np NpLemmas Core Interp Integrate Background Power Redshift Bias Probes Sparse SparseSpec
  SparseProofs AngularCl CovSpec Gram.

(** ** lists *)
Lemma mapM_total {A B} (f : A -> res B) (P : A -> B -> Prop) l :
  (forall x, In x l -> exists y, f x = Ok y /\ P x y) ->
  exists ys, mapM f l = Ok ys /\ length ys = length l /\
    forall i x, nth_error l i = Some x -> exists y, nth_error ys i = Some y /\ f x = Ok y /\ P x y.
Proof.
  induction l as [ | x l IH]; intros Hf.
  - exists []; repeat split; auto. intros [ | i] y Hy; discriminate.
  - destruct (Hf x) as (y & Hy & Py); [ now left | ].
    destruct IH as (ys & Hys & Hlen & Hn); [ intros; apply Hf; now right | ].
    exists (y :: ys); simpl. rewrite Hy; simpl. rewrite Hys; simpl. repeat split; [ now rewrite Hlen | ].
    intros [ | i] z Hz; simpl in *; [ injection Hz as <-; eauto | now apply Hn ].
Qed.

Lemma mapM_Ok_inv {A B} (f : A -> res B) l ys : mapM f l = Ok ys ->
  length ys = length l /\ forall i x, nth_error l i = Some x -> exists y, nth_error ys i = Some y /\ f x = Ok y.
Proof.
  revert ys; induction l as [ | x l IH]; simpl; intros ys H.
  - injection H as <-; split; [ reflexivity | intros [ | i] y Hy; discriminate ].
  - destruct (f x) as [y | e] eqn:Ef; simpl in H; [ | discriminate ].
    destruct (mapM f l) as [ys' | e] eqn:Em; simpl in H; [ | discriminate ].
    injection H as <-. destruct (IH ys' eq_refl) as [Hl Hn]. split; [ simpl; now rewrite Hl | ].
    intros [ | i] z Hz; simpl in *; [ injection Hz as <-; eauto | now apply Hn ].
Qed.

Lemma nth_error_list_prod {A B} (l : list A) (m : list B) s t x y :
  nth_error l s = Some x -> nth_error m t = Some y ->
  nth_error (list_prod l m) (s * length m + t) = Some (x, y).
Proof.
  revert s; induction l as [ | a l IH]; intros [ | s] Hx Hy; simpl in *; try discriminate.
  - injection Hx as ->. rewrite nth_error_app1.
    + rewrite nth_error_map, Hy. reflexivity.
    + rewrite map_length. apply nth_error_Some. congruence.
  - rewrite nth_error_app2; rewrite map_length; [ | lia ].
    replace (length m + s * length m + t - length m)%nat with (s * length m + t)%nat by lia. now apply IH.
Qed.

Lemma length_list_prod {A B} (l : list A) (m : list B) : length (list_prod l m) = (length l * length m)%nat.
Proof. apply prod_length. Qed.

(** ** C15: the ordering *)
Lemma In_cl_ordering n i j : In (i, j) (cl_ordering n) <-> (i <= j /\ j < n)%nat.
Proof.
  unfold cl_ordering. rewrite in_flat_map. split.
  - intros (k & Hk & Hm). apply in_map_iff in Hm as (q & Hq & Hs). injection Hq as -> ->.
    apply in_seq in Hs. lia.
  - intros Hij. exists i; split; [ apply in_seq; lia | ].
    apply in_map_iff; exists j; split; [ reflexivity | apply in_seq; lia ].
Qed.

Lemma StronglySorted_app {A} (lt : A -> A -> Prop) l m :
  StronglySorted lt l -> StronglySorted lt m -> (forall x y, In x l -> In y m -> lt x y) -> StronglySorted lt (l ++ m).
Proof.
  induction l as [ | x l IH]; intros Hl Hm Hx; simpl; [ assumption | ].
  apply StronglySorted_inv in Hl as [Hl Hf]. constructor.
  - apply IH; auto. intros; apply Hx; [ now right | assumption ].
  - apply Forall_app; split; [ assumption | ]. apply Forall_forall; intros y Hy; apply Hx; [ now left | assumption ].
Qed.

Lemma ss_row i k a : StronglySorted lex_lt (map (fun j => (i, j)) (seq a k)).
Proof.
  revert a; induction k as [ | k IH]; intros a; simpl; constructor; [ apply IH | ].
  apply Forall_forall; intros p Hp. apply in_map_iff in Hp as (q & <- & Hq). apply in_seq in Hq.
  right; simpl; split; [ reflexivity | lia ].
Qed.

Lemma ss_ordering n k a : StronglySorted lex_lt (flat_map (fun i => map (fun j => (i, j)) (seq i (n - i))) (seq a k)).
Proof.
  revert a; induction k as [ | k IH]; intros a; simpl; [ constructor | ].
  apply StronglySorted_app; [ apply ss_row | apply IH | ].
  intros x y Hx Hy. apply in_map_iff in Hx as (q & <- & Hq).
  apply in_flat_map in Hy as (r & Hr & Hy). apply in_map_iff in Hy as (s & <- & Hs).
  apply in_seq in Hr. left; simpl; lia.
Qed.

Lemma ss_increasing {A} (lt : A -> A -> Prop) l : StronglySorted lt l -> increasing lt l.
Proof.
  induction l as [ | x l IH]; intros Hs s t p q Hst Hp Hq.
  - destruct s; discriminate.
  - apply StronglySorted_inv in Hs as [Hl Hf].
    destruct t as [ | t]; [ lia | ]. simpl in Hq. destruct s as [ | s].
    + simpl in Hp; injection Hp as <-. rewrite Forall_forall in Hf. apply Hf. eapply nth_error_In; eassumption.
    + simpl in Hp. apply (IH Hl s t); auto; lia.
Qed.

Lemma ordering_increasing n : increasing lex_lt (cl_ordering n).
Proof. apply ss_increasing, ss_ordering. Qed.

Lemma ordering_unique n s t p : nth_error (cl_ordering n) s = Some p -> nth_error (cl_ordering n) t = Some p -> s = t.
Proof.
  intros Hs Ht. pose proof (ordering_increasing n) as Hi.
  destruct (Nat.lt_trichotomy s t) as [H | [H | H]]; [ exfalso | assumption | exfalso ].
  - destruct (Hi s t p p H Hs Ht) as [ | [_ ]]; lia.
  - destruct (Hi t s p p H Ht Hs) as [ | [_ ]]; lia.
Qed.

Lemma length_ordering_aux n k : (k <= n)%nat ->
  (2 * length (flat_map (fun i => map (fun j => (i, j)) (seq i (n - i))) (seq (n - k) k)) = k * (k + 1))%nat.
Proof.
  induction k as [ | k IH]; intros Hk; [ reflexivity | ].
  simpl seq. simpl flat_map. rewrite app_length, map_length, seq_length.
  replace (S (n - S k)) with (n - k)%nat by lia.
  specialize (IH ltac:(lia)). nia.
Qed.

Lemma length_ordering n : (2 * length (cl_ordering n) = n * (n + 1))%nat.
Proof. unfold cl_ordering. rewrite <- (length_ordering_aux n n) by lia. now rewrite Nat.sub_diag. Qed.

Lemma total_tracers_bins probes : total_tracers probes = n_bins probes.
Proof.
  unfold total_tracers, n_bins, n_tracers. induction probes as [ | p ps IH]; [ reflexivity | ].
  simpl. rewrite app_length, <- IH. reflexivity.
Qed.

Lemma ordering_spec probes :
  (forall i j, In (i, j) (get_cl_ordering probes) <-> (i <= j /\ j < n_bins probes)%nat) /\
  NoDup (get_cl_ordering probes) /\ increasing lex_lt (get_cl_ordering probes) /\
  (2 * length (get_cl_ordering probes) = n_bins probes * (n_bins probes + 1))%nat.
Proof.
  unfold get_cl_ordering. rewrite total_tracers_bins. repeat split.
  - apply In_cl_ordering in H; tauto.
  - apply In_cl_ordering in H; tauto.
  - intros; now apply In_cl_ordering.
  - apply NoDup_nth_error. intros s t Hs E. destruct (nth_error (cl_ordering (n_bins probes)) s) as [p | ] eqn:Ep.
    + apply (ordering_unique (n_bins probes) s t p); congruence.
    + apply nth_error_Some in Hs. congruence.
  - apply ordering_increasing.
  - apply length_ordering.
Qed.

(** ** C16: covariance blocks *)
Lemma pair_eqb_spec p q : reflect (p = q) (pair_eqb p q).
Proof.
  destruct p as [a b], q as [c d]; unfold pair_eqb; simpl.
  destruct (Nat.eqb_spec a c), (Nat.eqb_spec b d); simpl; constructor; congruence.
Qed.

Lemma list_index_In p l : In p l -> exists s, list_index p l = Ok s /\ nth_error l s = Some p.
Proof.
  induction l as [ | q l IH]; intros H; [ destruct H | ]. simpl.
  destruct (pair_eqb_spec p q) as [-> | Hne]; [ now exists 0%nat | ].
  destruct H as [H | H]; [ congruence | ]. destruct (IH H) as (s & Hs & Hn).
  exists (S s). rewrite Hs; auto.
Qed.

Lemma existsb_In p l : existsb (pair_eqb p) l = true <-> In p l.
Proof.
  rewrite existsb_exists. split.
  - intros (q & Hq & E). destruct (pair_eqb_spec p q); congruence.
  - intros H; exists p; split; [ assumption | ]. destruct (pair_eqb_spec p p); congruence.
Qed.

Lemma find_index_ok n a b : (a < n)%nat -> (b < n)%nat ->
  exists s, find_index (cl_ordering n) a b = Ok s /\ names (cl_ordering n) s a b.
Proof.
  intros Ha Hb. unfold find_index, names.
  destruct (existsb (pair_eqb (a, b)) (cl_ordering n)) eqn:E.
  - apply existsb_In in E. destruct (list_index_In _ _ E) as (s & Hs & Hn).
    apply In_cl_ordering in E. exists s; split; [ assumption | ].
    now rewrite Nat.min_l, Nat.max_r by lia.
  - assert (~ In (a, b) (cl_ordering n)) by (rewrite <- existsb_In; congruence).
    rewrite In_cl_ordering in H.
    destruct (list_index_In (b, a) (cl_ordering n)) as (s & Hs & Hn); [ apply In_cl_ordering; lia | ].
    exists s; split; [ assumption | ]. now rewrite Nat.min_r, Nat.max_l by lia.
Qed.

Lemma cov_blocks_ok n : exists bl, cov_blocks_ordering (cl_ordering n) = Ok bl /\
  length bl = (length (cl_ordering n) * length (cl_ordering n))%nat /\
  forall s t i j m k, nth_error (cl_ordering n) s = Some (i, j) -> nth_error (cl_ordering n) t = Some (m, k) ->
  exists x y z w, nth_error bl (s * length (cl_ordering n) + t) = Some (x, y, z, w) /\
    names (cl_ordering n) x i m /\ names (cl_ordering n) y j k /\
    names (cl_ordering n) z i k /\ names (cl_ordering n) w j m.
Proof.
  set (ord := cl_ordering n).
  destruct (mapM_total (fun pq => cov_block ord (fst pq) (snd pq))
    (fun pq b => let '(x, y, z, w) := b in
       names ord x (fst (fst pq)) (fst (snd pq)) /\ names ord y (snd (fst pq)) (snd (snd pq)) /\
       names ord z (fst (fst pq)) (snd (snd pq)) /\ names ord w (snd (fst pq)) (fst (snd pq))) (list_prod ord ord))
    as (bl & Hbl & Hlen & Hn).
  - intros [[i j] [m k]] Hin. apply in_prod_iff in Hin as [H1 H2].
    apply In_cl_ordering in H1. apply In_cl_ordering in H2. simpl.
    destruct (find_index_ok n i m) as (x & Hx & Nx); try lia.
    destruct (find_index_ok n j k) as (y & Hy & Ny); try lia.
    destruct (find_index_ok n i k) as (z & Hz & Nz); try lia.
    destruct (find_index_ok n j m) as (w & Hw & Nw); try lia.
    exists (x, y, z, w). fold ord in Hx, Hy, Hz, Hw. rewrite Hx, Hy, Hz, Hw. simpl. auto.
  - exists bl. split; [ exact Hbl | ]. split; [ now rewrite Hlen, length_list_prod | ].
    intros s t i j m k Hs Ht.
    destruct (Hn _ _ (nth_error_list_prod _ _ _ _ _ _ Hs Ht)) as ([[[x y] z] w] & Hb & _ & HP).
    exists x, y, z, w. split; [ exact Hb | exact HP ].
Qed.

Lemma cov_blocks_spec probes : exists bl, get_cov_blocks_ordering probes = Ok bl /\
  let ord := get_cl_ordering probes in
  length bl = (length ord * length ord)%nat /\
  forall s t i j m k, nth_error ord s = Some (i, j) -> nth_error ord t = Some (m, k) ->
  exists x y z w, nth_error bl (s * length ord + t) = Some (x, y, z, w) /\
    names ord x i m /\ names ord y j k /\ names ord z i k /\ names ord w j m.
Proof. exact (cov_blocks_ok (total_tracers probes)). Qed.

(** ** C17: noise *)
Lemma delta_value i j : 1.0 - clip (absdiff i j) 0.0 1.0 = if Nat.eqb i j then 1 else 0.
Proof.
  unfold absdiff, clip. destruct (Nat.eqb_spec i j) as [-> | Hne].
  - replace (INR j - INR j) with 0 by ring. rewrite Rabs_R0. rewrite Rmax_left, Rmin_left by lra. lra.
  - assert (1 <= Rabs (INR i - INR j)).
    { destruct (Nat.lt_total i j) as [H | [H | H]]; [ | contradiction | ].
      - rewrite Rabs_left1 by (apply lt_INR in H; lra).
        apply (le_INR (S i) j) in H. rewrite S_INR in H. lra.
      - rewrite Rabs_pos_eq by (apply lt_INR in H; lra).
        apply (le_INR (S j) i) in H. rewrite S_INR in H. lra. }
    rewrite Rmax_left, Rmin_right by lra. lra.
Qed.

Lemma concat_noise probes ns : noise_total probes -> mapM noise probes = Ok ns ->
  length (concat ns) = n_bins probes /\
  forall i, (i < n_bins probes)%nat -> exists p k v, tracer probes i = Some (p, k) /\
    noise p = Ok v /\ el (concat ns) i = el v k.
Proof.
  unfold n_bins. revert ns; induction probes as [ | p ps IH]; intros ns Ht Hm.
  - injection Hm as <-. split; [ reflexivity | simpl; intros; lia ].
  - simpl in Hm. destruct (Ht p) as (v & Hv & Hl); [ now left | ]. rewrite Hv in Hm; simpl in Hm.
    destruct (mapM noise ps) as [ns' | e] eqn:E; simpl in Hm; [ | discriminate ]. injection Hm as <-.
    destruct (IH ns') as [IH1 IH2]; [ intros q Hq; apply Ht; now right | reflexivity | ].
    simpl. rewrite !app_length, Hl, IH1. split; [ reflexivity | ]. intros i Hi.
    destruct (Nat.ltb_spec i (length (bins_of p))) as [H | H].
    + exists p, i, v. repeat split; auto. unfold el. apply app_nth1. lia.
    + destruct (IH2 (i - length (bins_of p))%nat) as (p' & k & v' & H1 & H2 & H3); [ lia | ].
      exists p', k, v'. repeat split; auto. rewrite <- H3. unfold el. rewrite app_nth2 by lia. now rewrite Hl.
Qed.

Lemma noise_cl_spec probes n_ell : noise_total probes ->
  exists rows, noise_cl n_ell probes = Ok rows /\ length rows = length (get_cl_ordering probes) /\
  forall s i j, nth_error (get_cl_ordering probes) s = Some (i, j) ->
  exists p k v, tracer probes i = Some (p, k) /\ noise p = Ok v /\
    nth_error rows s = Some (repeat (if Nat.eqb i j then el v k else 0) n_ell).
Proof.
  intros Ht. unfold noise_cl.
  destruct (mapM_total noise (fun _ _ => True) probes) as (ns & Hns & _).
  { intros p Hp. destruct (Ht p Hp) as (v & Hv & _); eauto. }
  rewrite Hns; simpl bind. eexists; split; [ reflexivity | ]. split; [ now rewrite map_length | ].
  intros s i j Hs. destruct (concat_noise probes ns Ht Hns) as [Hl Hc].
  assert (Hin : In (i, j) (get_cl_ordering probes)) by (eapply nth_error_In; eassumption).
  apply (proj1 (ordering_spec probes)) in Hin.
  destruct (Hc i) as (p & k & v & H1 & H2 & H3); [ lia | ].
  exists p, k, v. repeat split; auto. rewrite nth_error_map, Hs; simpl. rewrite delta_value, H3.
  destruct (Nat.eqb i j); do 2 f_equal; ring.
Qed.

(** ** C18: the covariance *)
Lemma nth_of_nth_error {A} (l : list A) s x d : nth_error l s = Some x -> nth s l d = x.
Proof. intros H. erewrite nth_error_nth; eauto. Qed.

Lemma el_map_lt f v i : (i < length v)%nat -> el (map f v) i = f (el v i).
Proof. intros H; unfold el. now apply nth_map_lt. Qed.

Lemma length_vdiv u v : length u = length v -> length (vdiv u v) = length u.
Proof. intros H; unfold vdiv. rewrite length_map2. lia. Qed.
Lemma el_vdiv u v i : length u = length v -> (i < length u)%nat -> el (vdiv u v) i = el u i / el v i.
Proof. intros H Hi; unfold el, vdiv. apply nth_map2; lia. Qed.

Lemma cov_norm_ok ell f_sky : (2 <= length ell)%nat ->
  exists norm, cov_norm ell f_sky = Ok norm /\ length norm = length ell /\
  forall l, (l < length ell)%nat -> el norm l = knox_norm ell f_sky l.
Proof.
  intros Hn. unfold cov_norm, gradient.
  destruct (Nat.ltb_spec (length ell) 2) as [H | H]; [ lia | ]. simpl bind.
  eexists; split; [ reflexivity | ].
  assert (HL : length (vmul (map (fun l => 2 * l + 1) ell) (tab (length ell) (fun i =>
         if Nat.eqb i 0 then el ell 1 - el ell 0
         else if Nat.eqb i (length ell - 1) then el ell (length ell - 1) - el ell (length ell - 2)
         else (el ell (i + 1) - el ell (i - 1)) / 2))) = length ell).
  { rewrite length_vmul; rewrite map_length; [ reflexivity | now rewrite length_tab ]. }
  split; [ now rewrite map_length | ]. intros l Hl.
  rewrite el_map_lt by (now rewrite HL).
  rewrite el_vmul by (rewrite map_length, length_tab; reflexivity).
  rewrite el_map_lt by assumption. unfold el at 2. rewrite nth_tab by assumption.
  unfold knox_norm, spacing.
  destruct (Nat.eqb_spec l 0) as [-> | Hl0]; [ ring | ].
  destruct (Nat.eqb_spec l (length ell - 1)) as [-> | Hl1].
  - destruct (Nat.eqb_spec (length ell - 1 + 1) (length ell)); [ | lia ].
    replace (length ell - 1 - 1)%nat with (length ell - 2)%nat by lia. ring.
  - destruct (Nat.eqb_spec (l + 1) (length ell)); [ lia | ]. ring.
Qed.

(** everything that holds of well-shaped input *)
Definition cov_input (ell : list R) (probes : list probe) (sig noi : list (list R)) : Prop :=
  (2 <= length ell)%nat /\ wf2 (length (get_cl_ordering probes)) (length ell) sig /\
  wf2 (length (get_cl_ordering probes)) (length ell) noi.

Lemma wf2_madd r c m1 m2 : wf2 r c m1 -> wf2 r c m2 -> wf2 r c (madd m1 m2).
Proof.
  intros [L1 R1] [L2 R2]. unfold madd. split; [ rewrite length_map2; lia | ].
  intros row Hrow. apply (In_nth _ _ []) in Hrow as (i & Hi & <-). rewrite length_map2 in Hi.
  rewrite (nth_map2 vadd m1 m2 i [] [] []) by lia.
  rewrite length_vadd; [ apply R1, nth_In; lia | ].
  rewrite R1, R2; auto; apply nth_In; lia.
Qed.
Lemma el2_madd r c m1 m2 i j : wf2 r c m1 -> wf2 r c m2 -> (i < r)%nat -> el2 (madd m1 m2) i j = el2 m1 i j + el2 m2 i j.
Proof.
  intros [L1 R1] [L2 R2] Hi. unfold el2, madd. rewrite (nth_map2 vadd m1 m2 i [] [] []) by lia.
  apply el_vadd. rewrite R1, R2; auto; apply nth_In; lia.
Qed.

Lemma names_lt ord s a b : names ord s a b -> (s < length ord)%nat.
Proof. unfold names; intros H. apply nth_error_Some. congruence. Qed.

Lemma spectra_names ord rows S s a b l : spectra_of ord rows S -> names ord s a b -> el2 rows s l = S a b l.
Proof.
  intros HS Hn. unfold names in Hn. destruct (HS _ _ _ l Hn) as [H1 H2].
  destruct (Nat.le_ge_cases a b).
  - rewrite Nat.min_l, Nat.max_r in H1 by lia. now rewrite H1.
  - rewrite Nat.min_r, Nat.max_l in H2 by lia. now rewrite H2.
Qed.

Lemma cov_rows_ok ell probes sig noi f_sky S : cov_input ell probes sig noi ->
  spectra_of (get_cl_ordering probes) (madd sig noi) S ->
  let ord := get_cl_ordering probes in
  exists norm bl, cov_norm ell f_sky = Ok norm /\ get_cov_blocks_ordering probes = Ok bl /\
    length bl = (length ord * length ord)%nat /\ length (madd sig noi) = length ord /\
    (forall row, In row (map (cov_row (madd sig noi) norm) bl) -> length row = length ell) /\
    forall s t i j m k l, nth_error ord s = Some (i, j) -> nth_error ord t = Some (m, k) -> (l < length ell)%nat ->
      el (nth (s * length ord + t) (map (cov_row (madd sig noi) norm) bl) []) l = knox S ell f_sky i j m k l.
Proof.
  intros (Hn & Hsig & Hnoi) HS ord.
  destruct (cov_norm_ok ell f_sky Hn) as (norm & Hnorm & Lnorm & Enorm).
  destruct (cov_blocks_spec probes) as (bl & Hbl & Lbl & Ebl). fold ord in Lbl, Ebl, HS, Hsig, Hnoi.
  exists norm, bl. repeat split; auto.
  { destruct (wf2_madd _ _ _ _ Hsig Hnoi) as [L _]. exact L. }
  - pose proof (wf2_madd _ _ _ _ Hsig Hnoi) as Hobs.
    intros row Hrow. apply in_map_iff in Hrow as (b & <- & Hb).
    apply In_nth_error in Hb as (q & Hq).
    assert (Hq' : (q < length ord * length ord)%nat) by (rewrite <- Lbl; apply nth_error_Some; congruence).
    destruct (mod_div_lt q (length ord) (length ord) Hq') as [Hd Hm].
    destruct (nth_error ord (q / length ord)) as [[i j] | ] eqn:E1; [ | apply nth_error_None in E1; lia ].
    destruct (nth_error ord (q mod length ord)) as [[m k] | ] eqn:E2; [ | apply nth_error_None in E2; lia ].
    destruct (Ebl _ _ _ _ _ _ E1 E2) as (x & y & z & w & Hb & N1 & N2 & N3 & N4).
    replace (q / length ord * length ord + q mod length ord)%nat with q in Hb
      by (rewrite (Nat.mul_comm (q / length ord)); apply Nat.div_mod; lia).
    rewrite Hb in Hq; injection Hq as <-. unfold cov_row.
    apply names_lt in N1, N2, N3, N4.
    assert (Hx : length (nth x (madd sig noi) []) = length ell) by (eapply wf2_row; eauto).
    assert (Hy : length (nth y (madd sig noi) []) = length ell) by (eapply wf2_row; eauto).
    assert (Hz : length (nth z (madd sig noi) []) = length ell) by (eapply wf2_row; eauto).
    assert (Hw : length (nth w (madd sig noi) []) = length ell) by (eapply wf2_row; eauto).
    rewrite length_vdiv; rewrite length_vadd; rewrite ?length_vmul; congruence.
  - pose proof (wf2_madd _ _ _ _ Hsig Hnoi) as Hobs.
    intros s t i j m k l H1 H2 Hl.
    destruct (Ebl _ _ _ _ _ _ H1 H2) as (x & y & z & w & Hb & N1 & N2 & N3 & N4).
    rewrite (nth_of_nth_error _ _ (cov_row (madd sig noi) norm (x, y, z, w))) by (now rewrite nth_error_map, Hb).
    unfold cov_row.
    pose proof (names_lt _ _ _ _ N1) as Q1. pose proof (names_lt _ _ _ _ N2) as Q2.
    pose proof (names_lt _ _ _ _ N3) as Q3. pose proof (names_lt _ _ _ _ N4) as Q4.
    assert (Hx : length (nth x (madd sig noi) []) = length ell) by (eapply wf2_row; eauto).
    assert (Hy : length (nth y (madd sig noi) []) = length ell) by (eapply wf2_row; eauto).
    assert (Hz : length (nth z (madd sig noi) []) = length ell) by (eapply wf2_row; eauto).
    assert (Hw : length (nth w (madd sig noi) []) = length ell) by (eapply wf2_row; eauto).
    rewrite el_vdiv; [ | rewrite length_vadd; rewrite ?length_vmul; congruence
                       | rewrite length_vadd; rewrite ?length_vmul; congruence ].
    rewrite el_vadd by (rewrite ?length_vmul; congruence).
    rewrite !el_vmul by congruence. rewrite Enorm by assumption.
    change (el (nth x (madd sig noi) []) l) with (el2 (madd sig noi) x l).
    change (el (nth y (madd sig noi) []) l) with (el2 (madd sig noi) y l).
    change (el (nth z (madd sig noi) []) l) with (el2 (madd sig noi) z l).
    change (el (nth w (madd sig noi) []) l) with (el2 (madd sig noi) w l).
    rewrite (spectra_names ord _ S x i m), (spectra_names ord _ S y j k), (spectra_names ord _ S z i k),
      (spectra_names ord _ S w j m) by assumption.
    reflexivity.
Qed.

(** the observed spectra always exist as a function of the pair *)
Definition obs_of (n : nat) (rows : list (list R)) (i j l : nat) : R :=
  match find_index (cl_ordering n) i j with Ok s => el2 rows s l | Err _ => 0 end.
Lemma obs_of_ok n rows : spectra_of (cl_ordering n) rows (obs_of n rows).
Proof.
  intros s i j l Hs. assert (Hin : In (i, j) (cl_ordering n)) by (eapply nth_error_In; eauto).
  apply In_cl_ordering in Hin. unfold obs_of.
  destruct (find_index_ok n i j) as (x & Hx & Nx); try lia.
  destruct (find_index_ok n j i) as (y & Hy & Ny); try lia.
  rewrite Hx, Hy. unfold names in *. rewrite Nat.min_l, Nat.max_r in Nx by lia.
  rewrite Nat.min_r, Nat.max_l in Ny by lia.
  now rewrite (ordering_unique n x s (i, j)), (ordering_unique n y s (i, j)) by assumption.
Qed.

Lemma In_skipn {A} (x : A) n l : In x (skipn n l) -> In x l.
Proof. intros H. rewrite <- (firstn_skipn n l). apply in_or_app; now right. Qed.

Lemma In_chunk {A} n b (v : list A) row x : In row (chunk n b v) -> In x row -> In x v.
Proof.
  revert v; induction b as [ | b IH]; simpl; intros v Hr Hx; [ destruct Hr | ].
  destruct Hr as [<- | Hr].
  - rewrite <- (firstn_skipn n v). apply in_or_app; now left.
  - eapply In_skipn. eapply IH; eauto.
Qed.

Lemma wf3_chunk a b n (rows : list (list R)) : (forall r, In r rows -> length r = n) -> length rows = (a * b)%nat ->
  wf3 a b n (chunk b a rows).
Proof.
  intros Hr Hl. split; [ apply length_chunk | ].
  intros row Hrow. split; [ apply (chunk_row_length b a rows row); [ lia | exact Hrow ] | ].
  intros x Hx. apply Hr. eapply In_chunk; eauto.
Qed.

(** multiplying by the identity spreads a row on the diagonal *)
Lemma diag_eye cov n : length cov = n -> map (vmul cov) (eye n) = diag cov.
Proof.
  intros <-. unfold eye, diag. rewrite map_tab. apply tab_ext; intros i Hi.
  apply (list_eq_nth 0).
  - rewrite length_vmul; rewrite ?length_tab; reflexivity.
  - intros j Hj. rewrite length_vmul in Hj by (now rewrite length_tab).
    change (el (vmul cov (tab (length cov) (fun j0 => if Nat.eqb i j0 then 1 else 0))) j =
            el (tab (length cov) (fun j0 => if Nat.eqb i j0 then nth i cov 0 else 0)) j).
    rewrite el_vmul by (now rewrite length_tab).
    unfold el. rewrite !nth_tab by assumption. destruct (Nat.eqb_spec i j) as [-> | ]; ring.
Qed.

Lemma chunk_map {A B} (g : A -> B) n b v : chunk n b (map g v) = map (map g) (chunk n b v).
Proof.
  revert v; induction b as [ | b IH]; intros v; simpl; [ reflexivity | ].
  now rewrite firstn_map, skipn_map, IH.
Qed.

(** the sparse result and the dense result *)
Lemma covariance_main ell probes sig noi f_sky S : cov_input ell probes sig noi ->
  spectra_of (get_cl_ordering probes) (madd sig noi) S ->
  let ord := get_cl_ordering probes in let N := length ord in let n := length ell in
  exists s3 m2,
    gaussian_cl_covariance (Array1 ell) probes sig noi f_sky true = Ok (A3 N N n s3) /\ wf3 N N n s3 /\
    gaussian_cl_covariance (Array1 ell) probes sig noi f_sky false = Ok (A2 (n * N) (n * N) m2) /\
    m2 = dense_of n s3 /\
    forall s t i j m k l, nth_error ord s = Some (i, j) -> nth_error ord t = Some (m, k) -> (l < n)%nat ->
      el3 s3 s t l = knox S ell f_sky i j m k l.
Proof.
  intros Hin HS ord N n.
  destruct (cov_rows_ok ell probes sig noi f_sky S Hin HS) as (norm & bl & H1 & H2 & L1 & L2 & LR & HE).
  fold ord in L1, L2, LR, HE. fold N in L1, L2, LR, HE. fold n in LR, HE.
  set (rows := map (cov_row (madd sig noi) norm) bl) in *.
  assert (Lrows : length rows = (N * N)%nat) by (unfold rows; rewrite map_length; exact L1).
  exists (chunk N N rows), (dense_of n (chunk N N rows)).
  assert (HW : wf3 N N n (chunk N N rows)) by (apply wf3_chunk; assumption).
  unfold gaussian_cl_covariance. simpl atleast_1d. cbv zeta. rewrite H1, H2. simpl bind. rewrite L2. fold rows.
  rewrite Lrows, Nat.eqb_refl. simpl negb. cbv iota. fold n.
  split; [ reflexivity | split; [ exact HW | split; [ | split; [ reflexivity | ]]]].
  - f_equal. f_equal. unfold dense_of. f_equal.
    rewrite chunk_map, map_map. apply map_ext_in; intros row Hrow. f_equal.
    apply map_ext_in; intros cov Hcov. apply diag_eye. apply LR. eapply In_chunk; eauto.
  - intros s t i j m k l Hs Ht Hl. unfold el3.
    rewrite (nth_chunk N N rows s t [] []).
    + apply HE; assumption.
    + apply nth_error_Some. fold ord. congruence.
    + apply nth_error_Some. fold ord. congruence.
Qed.

Lemma covariance_scalar ell probes sig noi f_sky sp :
  gaussian_cl_covariance (Scalar ell) probes sig noi f_sky sp = gaussian_cl_covariance (Array1 [ell]) probes sig noi f_sky sp.
Proof. reflexivity. Qed.

Lemma covariance_single ell probes sig noi f_sky sp :
  gaussian_cl_covariance (Array1 [ell]) probes sig noi f_sky sp = Err ValueError.
Proof. reflexivity. Qed.
