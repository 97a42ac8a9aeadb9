(** * Covariance and likelihood: the generic programs at R, and along curves *)
From Verif Require Import Np NpLemmas Core Sparse SparseSpec SparseProofs Likelihood LikelihoodSpec Interp Probes AngularCl Ad AdPower AdProbes AdRel AdLike.
Opaque Background.chi_table Background.growth_table_ODE Background.growth_table_gamma logspace.

(** ** at R *)
Lemma sds_form a b n d s1 s2 : sds a b n d s1 s2 =
  stack1 [] a (tab d (fun j => map (fun B1 => sum0 n (tab b (fun i => tab n (fun q => el2 B1 (bidx b i) (bidx n q) * el2 (col3 j s2) (bidx b i) (bidx n q))))) s1)).
Proof. unfold sds, sparse_dot_sparse, mul_sum0, bdim. now rewrite !Nat.eqb_refl. Qed.
Lemma gsds_R a b n d s1 s2 : gsds num_R a b n d s1 s2 = sds a b n d s1 s2.
Proof. rewrite sds_form. reflexivity. Qed.
Lemma gblock_R la s k M P : glogabs num_R (gblock num_R (linalg_R la) s k M P) = snd (block_det (la_inv la) s k M P).
Proof.
  unfold gblock, block_det. cbv zeta. cbn [snd]. rewrite !gsds_R. reflexivity.
Qed.
Lemma fold_log la s M P L x y : snd (fold_left (fun acc i => let (sg, ld) := block_det (la_inv la) s i M P in (fst acc * sg, snd acc + ld)) L (x, y)) =
  fold_left (fun acc i => nadd num_R acc (glogabs num_R (gblock num_R (linalg_R la) s i M P))) L y.
Proof.
  revert x y. induction L as [ | i L IH]; intros x y; [ reflexivity | ]. cbn [fold_left].
  rewrite gblock_R. destruct (block_det (la_inv la) s i M P) as [sg ld]. cbn [fst snd]. apply IH.
Qed.
Lemma gslogdet_R la C : gslogdet num_R (linalg_R la) C = bind (slogdet (la_inv la) (arr_of C)) (fun sl => Ok (snd sl)).
Proof.
  destruct C as [x | n v | r c m | a b n s | d]; try reflexivity. cbn [gslogdet arr_of]. unfold slogdet, check_sparse. cbn [andb].
  destruct (Nat.eqb a b); cbn [negb]; [ | reflexivity ]. cbn [bind]. f_equal. symmetry. apply fold_log.
Qed.
Lemma like_program la data mu C il method :
  ggaussian_log_likelihood num_R (linalg_R la) data mu C il method = gaussian_log_likelihood la data mu (arr_of C) il method.
Proof.
  unfold ggaussian_log_likelihood, gaussian_log_likelihood. cbv zeta.
  replace (map (cst num_R) data) with data by (symmetry; apply map_id). change (gvsub num_R mu data) with (vsub mu data).
  replace (gis_sparse C) with (is_sparse (arr_of C)) by (destruct C; reflexivity). rewrite gslogdet_R.
  destruct C as [x | n v | r c m | a b n s | d]; try reflexivity.
  - cbn [arr_of is_sparse ndim]. change (Nat.eqb 3 3) with true. cbv iota. cbn [ginv]. unfold inv, check_sparse. cbn [andb].
    destruct (Nat.eqb a b); cbn [negb]; [ | reflexivity ]. cbn [bind]. unfold gdot3, dot, dot3.
    destruct (negb (Nat.eqb (length (vsub mu data)) (a * n)) || negb (Nat.eqb (a * n) (length (vsub mu data)))); reflexivity.
Qed.
Lemma cov_program ell probes sig noi f_sky sparse :
  gaussian_cl_covariance (Array1 ell) probes sig noi f_sky sparse = bind (ggaussian_cl_covariance num_R ell probes sig noi f_sky sparse) (fun x => Ok (arr_of x)).
Proof.
  unfold gaussian_cl_covariance, ggaussian_cl_covariance. cbv zeta. cbn [atleast_1d].
  replace (map (map (cst num_R)) noi) with noi by (symmetry; rewrite <- (map_id noi) at 2; apply map_ext; intros v; apply map_id).
  destruct (cov_norm ell f_sky) as [norm | e]; [ | reflexivity ]. cbn [bind]. destruct (get_cov_blocks_ordering probes) as [blocks | e]; [ | reflexivity ]. cbn [bind].
  assert (E : map (cov_row (madd sig noi) norm) blocks = map (gcov_row num_R (map2 (gvadd num_R) sig noi) norm) blocks).
  { apply map_ext. intros [[[x y] z] w]. unfold gcov_row. replace (map (cst num_R) norm) with norm by (symmetry; apply map_id). reflexivity. }
  rewrite E. change (map2 (gvadd num_R) sig noi) with (madd sig noi).
  destruct (negb _); [ reflexivity | ]. destruct sparse; [ reflexivity | ]. cbn [bind arr_of].
  assert (E4 : forall rows, map (fun cov => map (vmul cov) (eye (length ell))) rows = map (fun cov => map (fun row => gvmul num_R cov (map (cst num_R) row)) (eye (length ell))) rows).
  { intros rows. apply map_ext. intros cov. apply map_ext. intros row. replace (map (cst num_R) row) with row by (symmetry; apply map_id). reflexivity. }
  rewrite E4. reflexivity.
Qed.

(** ** along curves *)
Section Follow.
Context {A : Type} (N : num A) (rel : (R -> R) -> A -> Prop) (la : linalg) (ga : glinalg A).
Hypotheses (r_resp : respects rel) (r_cst : forall x, rel (fun _ => x) (cst N x))
  (r_add : forall f h x y, rel f x -> rel h y -> rel (fun s => f s + h s) (nadd N x y))
  (r_sub : forall f h x y, rel f x -> rel h y -> rel (fun s => f s - h s) (nsub N x y))
  (r_mul : forall f h x y, rel f x -> rel h y -> rel (fun s => f s * h s) (nmul N x y))
  (r_div : forall f h x y, h 0 <> 0 -> rel f x -> rel h y -> rel (fun s => f s / h s) (ndiv N x y))
  (r_log : forall f x, f 0 <> 0 -> rel f x -> rel (fun s => ln (Rabs (f s))) (nln N (nabs N x))).
Local Notation "' x" := (cst N x%R) (at level 1, format "' x").
Local Notation vr := (lr rel).
Local Notation mr := (lr (lr rel)).
Local Notation tr := (lr (lr (lr rel))).
Hypotheses (o_inv : forall n f x, (forall s, wf2 n n (f s)) -> invertible n (f 0) -> mr f x -> mr (fun s => la_inv la n (f s)) (ga_inv ga n x))
  (o_det : forall n f x, (forall s, wf2 n n (f s)) -> invertible n (f 0) -> mr f x -> rel (fun s => snd (la_slogdet la n (f s))) (ga_logdet ga n x))
  (o_cho : forall n f x r y, (forall s, wf2 n n (f s)) -> (forall s, symmetric n (f s)) -> pos_def n (f 0) -> (forall s, wf1 n (r s)) -> mr f x -> vr r y ->
     vr (fun s => la_cho_solve la n (f s) (r s)) (ga_cho_solve ga n x y)).

Lemma l_vadd f h x y : vr f x -> vr h y -> vr (fun s => vadd (f s) (h s)) (gvadd N x y).
Proof. apply (lr_map2 rel rel rel (fun _ => Rplus) (nadd N)). intros; now apply r_add. Qed.
Lemma l_vsub f h x y : vr f x -> vr h y -> vr (fun s => vsub (f s) (h s)) (gvsub N x y).
Proof. apply (lr_map2 rel rel rel (fun _ => Rminus) (nsub N)). intros; now apply r_sub. Qed.
Lemma l_vmul f h x y : vr f x -> vr h y -> vr (fun s => vmul (f s) (h s)) (gvmul N x y).
Proof. apply (lr_map2 rel rel rel (fun _ => Rmult) (nmul N)). intros; now apply r_mul. Qed.
Lemma l_csts (v : list R) : vr (fun _ => v) (map (cst N) v).
Proof. induction v as [ | x v IH]; [ apply lr_nil' | ]. cbn [map]. apply (lr_cons rel _ (fun _ => x) (fun _ => v)); auto. Qed.
Lemma l_vsum f x : vr f x -> rel (fun s => vsum (f s)) (gsum N x).
Proof. apply (lr_fold rel rel (fun _ => Rplus) (nadd N) f x (fun _ => 0) '0 r_resp); [ intros; now apply r_add | apply r_cst ]. Qed.
Lemma l_vdot f h x y : vr f x -> vr h y -> rel (fun s => vdot (f s) (h s)) (gvdot N x y).
Proof. intros P Q. apply l_vsum. now apply l_vmul. Qed.
Lemma l_sum0 n f x : mr f x -> vr (fun s => sum0 n (f s)) (gsum0 N n x).
Proof. apply (lr_fold vr vr (fun _ => vadd) (gvadd N) f x (fun _ => repeat 0 n)); [ apply lr_respects | intros; now apply l_vadd | apply (lr_repeat rel (fun _ => 0)), r_cst ]. Qed.
Lemma l_el f x i : vr f x -> rel (fun s => el (f s) i) (nth i x '0).
Proof. intros P. apply (lr_nth rel f x 0 '0 i r_resp (r_cst 0) P). Qed.
Lemma l_row f x i : mr f x -> vr (fun s => nth i (f s) []) (nth i x []).
Proof. intros P. apply (lr_nth vr f x [] [] i (lr_respects rel) (lr_nil' rel) P). Qed.
Lemma l_slab f x i : tr f x -> mr (fun s => nth i (f s) []) (nth i x []).
Proof. intros P. apply (lr_nth mr f x [] [] i (lr_respects vr) (lr_nil' vr) P). Qed.
Lemma l_el2 f x i j : mr f x -> rel (fun s => el2 (f s) i j) (gel2 N x i j).
Proof. intros P. apply (l_el (fun s => nth i (f s) [])). now apply l_row. Qed.
Lemma l_el3 f x i j k : tr f x -> rel (fun s => el3 (f s) i j k) (gel3 N x i j k).
Proof. intros P. apply (l_el2 (fun s => nth i (f s) [])). now apply l_slab. Qed.
Lemma l_firstn {X Y} (rl : (R -> X) -> Y -> Prop) n : forall f l, lr rl f l -> lr rl (fun s => firstn n (f s)) (firstn n l).
Proof.
  induction n as [ | n IH]; intros f l Hl; [ apply lr_nil' | ]. destruct Hl as [f H | f x fx y l H P Q]; [ apply lr_nil; intros s; now rewrite H | ].
  cbn [firstn]. apply (lr_cons _ _ x (fun s => firstn n (fx s))); auto. intros s; now rewrite H.
Qed.
Lemma l_chunk {X Y} (rl : (R -> X) -> Y -> Prop) n b : forall f l, lr rl f l -> lr (lr rl) (fun s => chunk n b (f s)) (chunk n b l).
Proof.
  induction b as [ | b IH]; intros f l Hl; [ apply lr_nil' | ]. cbn [chunk]. apply lr_cons'; [ now apply l_firstn | ]. apply (IH (fun s => skipn n (f s))). now apply lr_skipn.
Qed.
Lemma l_sparse_dot_vec b n f x v y : tr f x -> vr v y -> vr (fun s => sparse_dot_vec b n (f s) (v s)) (gsparse_dot_vec N b n x y).
Proof.
  intros P Q. unfold sparse_dot_vec, gsparse_dot_vec. apply lr_concat.
  apply (lr_map mr vr (fun s row => sum0 n (map2 vmul row (chunk n b (v s))))); [ | exact P ].
  intros r z Hr. apply l_sum0. apply (lr_map2 vr vr vr (fun _ => vmul)); [ intros; now apply l_vmul | exact Hr | now apply l_chunk ].
Qed.
Lemma l_col j f x : mr f x -> vr (fun s => col j (f s)) (gcol N j x).
Proof. apply (lr_map vr rel (fun _ r => nth j r 0) (fun r => nth j r '0)). intros r y P. now apply l_el. Qed.
Lemma l_ddd c n d X Y Z x y z : mr X x -> tr Y y -> mr Z z ->
  mr (fun s => dense_dot_sparse_dot_dense c n d (X s) (Y s) (Z s)) (gdense_dot_sparse_dot_dense N c n d x y z).
Proof.
  intros P Q S. unfold dense_dot_sparse_dot_dense, gdense_dot_sparse_dot_dense.
  apply (lr_map vr vr (fun s row => tab d (fun j => vdot row (sparse_dot_vec c n (Y s) (col j (Z s)))))); [ | exact P ].
  intros r w Hr. apply lr_tab. intros j _. apply l_vdot; [ exact Hr | ]. apply l_sparse_dot_vec; [ exact Q | now apply l_col ].
Qed.
Lemma wf_slice a k s : wf2 a a (slice a a k s).
Proof. apply wf2_tab2. Qed.
Lemma l_slice a b k f x : tr f x -> mr (fun s => slice a b k (f s)) (gslice N a b k x).
Proof. intros P. apply (lr_tab vr). intros i _. apply (lr_tab rel). intros j _. now apply l_el3. Qed.
Lemma l_inv_data a n f x : tr f x -> (forall k, (k < n)%nat -> invertible a (slice a a k (f 0))) -> tr (fun s => inv_data (la_inv la) a n (f s)) (ginv_data N ga a n x).
Proof.
  intros P I. unfold inv_data, ginv_data. cbv zeta.
  assert (T : tr (fun s => tab n (fun k => la_inv la a (slice a a k (f s)))) (tab n (fun k => ga_inv ga a (gslice N a a k x)))).
  { apply (lr_tab mr). intros k Hk. apply (o_inv a (fun s => slice a a k (f s))); [ intros s; apply wf_slice | now apply I | now apply l_slice ]. }
  apply (lr_tab mr). intros i _. apply (lr_tab vr). intros j _. apply (lr_tab rel). intros k _. apply (l_el2 (fun s => nth k (tab n (fun k => la_inv la a (slice a a k (f s)))) [])). now apply l_slab.
Qed.
Lemma l_sub3 r0 r1 c0 c1 f x : tr f x -> tr (fun s => sub3 r0 r1 c0 c1 (f s)) (gsub3 r0 r1 c0 c1 x).
Proof.
  intros P. unfold sub3, gsub3. apply (lr_map mr mr (fun _ row => firstn (c1 - c0) (skipn c0 row))); [ intros r y Q; now apply l_firstn, lr_skipn | now apply l_firstn, lr_skipn ].
Qed.
Lemma l_sds a b n d f x h y : tr f x -> tr h y -> tr (fun s => sds a b n d (f s) (h s)) (gsds N a b n d x y).
Proof.
  intros P Q. apply (lr_respects mr (fun s => stack1 [] a (tab d (fun j => map (fun B1 => sum0 n (tab b (fun i => tab n (fun q => el2 B1 (bidx b i) (bidx n q) * el2 (col3 j (h s)) (bidx b i) (bidx n q))))) (f s)))));
    [ intros s; symmetry; apply sds_form | ].
  unfold gsds. apply (lr_stack1 vr); [ apply lr_respects | apply lr_nil' | ]. apply (lr_tab mr). intros j _.
  apply (lr_map mr vr (fun s B1 => sum0 n (tab b (fun i => tab n (fun q => el2 B1 (bidx b i) (bidx n q) * el2 (col3 j (h s)) (bidx b i) (bidx n q)))))); [ | exact P ].
  intros B z HB. apply l_sum0. apply (lr_tab vr). intros i _. apply (lr_tab rel). intros q _. apply r_mul; [ now apply l_el2 | ].
  apply (l_el2 (fun s => col3 j (h s))). apply (lr_map mr vr (fun _ r => nth j r []) (fun r => nth j r [])); [ | exact Q ]. intros r w Hr. now apply l_row.
Qed.
(** M of _block_det, before the logarithm *)
Definition pivot (s : list (list (list R))) (k M P : nat) : list R :=
  vsub (nth k (nth k s []) []) (nth 0 (nth 0 (sds 1 (M - (k + 1)) P 1 (sub3 k (k + 1) (k + 1) M s)
    (sds (M - (k + 1)) (M - (k + 1)) P 1 (inv_data (la_inv la) (M - (k + 1)) P (sub3 (k + 1) M (k + 1) M s)) (sub3 (k + 1) M k (k + 1) s))) []) []).
Lemma l_pivot f x k M P : tr f x -> (forall q, (q < P)%nat -> invertible (M - (k + 1)) (slice (M - (k + 1)) (M - (k + 1)) q (sub3 (k + 1) M (k + 1) M (f 0)))) ->
  vr (fun s => pivot (f s) k M P) (gblock N ga x k M P).
Proof.
  intros T I. unfold pivot, gblock. cbv zeta. apply l_vsub; [ now apply l_row, l_slab | ]. apply l_row, l_slab. apply l_sds; [ now apply l_sub3 | ].
  apply l_sds; [ | now apply l_sub3 ]. apply (l_inv_data _ P (fun s => sub3 (k + 1) M (k + 1) M (f s))); [ now apply l_sub3 | exact I ].
Qed.
Lemma l_logabs f x : vr f x -> (forall z, In z (f 0) -> z <> 0) -> rel (fun s => vsum (map (fun z => ln (Rabs z)) (f s))) (glogabs N x).
Proof.
  intros P Z. apply l_vsum. revert Z. induction P as [f H | f u fu y l H P Q IH]; intros Z; [ apply lr_nil; intros s; now rewrite H | ].
  cbn [map]. apply (lr_cons _ _ (fun s => ln (Rabs (u s))) (fun s => map (fun z => ln (Rabs z)) (fu s))); [ intros s; now rewrite H | | ].
  - apply r_log; [ apply Z; rewrite H; now left | exact P ].
  - apply IH. intros z Hz. apply Z. rewrite H. now right.
Qed.
Lemma l_folds (F : R -> nat -> R) (G : nat -> A) L : (forall i, In i L -> rel (fun s => F s i) (G i)) -> forall z y, rel z y ->
  rel (fun s => fold_left (fun acc i => acc + F s i) L (z s)) (fold_left (fun acc i => nadd N acc (G i)) L y).
Proof.
  induction L as [ | i L IH]; intros H z y P; [ exact P | ]. cbn [fold_left]. apply (IH (fun j Hj => H j (or_intror Hj)) (fun s => z s + F s i)). apply r_add; [ exact P | apply H; now left ].
Qed.
(** the logarithm of the determinant of a sparse matrix *)
Definition logdet (M P : nat) (s : list (list (list R))) : R :=
  fold_left (fun acc i => acc + vsum (map (fun z => ln (Rabs z)) (pivot s i M P))) (seq 0 (M - 1)) (vsum (map (fun z => ln (Rabs z)) (nth (M - 1) (nth (M - 1) s []) []))).
Lemma slogdet_logdet M P s : bind (slogdet (la_inv la) (A3 M M P s)) (fun sl => Ok (snd sl)) = Ok (logdet M P s).
Proof.
  unfold slogdet, check_sparse. rewrite Nat.eqb_refl. cbn [negb andb bind]. f_equal. unfold logdet.
  generalize (vprod (map Rsgn (nth (M - 1) (nth (M - 1) s []) []))), (vsum (map (fun z => ln (Rabs z)) (nth (M - 1) (nth (M - 1) s []) []))).
  induction (seq 0 (M - 1)) as [ | i L IH]; intros p q; [ reflexivity | ]. cbn [fold_left]. unfold block_det at 2. cbv zeta. cbn [fst snd]. rewrite IH. reflexivity.
Qed.
Lemma l_logdet M P f x : tr f x ->
  (forall k q, (k < M - 1)%nat -> (q < P)%nat -> invertible (M - (k + 1)) (slice (M - (k + 1)) (M - (k + 1)) q (sub3 (k + 1) M (k + 1) M (f 0)))) ->
  (forall k z, (k < M - 1)%nat -> In z (pivot (f 0) k M P) -> z <> 0) -> (forall z, In z (nth (M - 1) (nth (M - 1) (f 0) []) []) -> z <> 0) ->
  rr rel (fun s => bind (slogdet (la_inv la) (A3 M M P (f s))) (fun sl => Ok (snd sl))) (gslogdet N ga (G3 M M P x)).
Proof.
  intros T I Z ZL. apply (rr_respects _ (fun s => Ok (logdet M P (f s)))); [ intros s; symmetry; apply slogdet_logdet | ].
  cbn [gslogdet]. rewrite Nat.eqb_refl. cbn [negb]. apply rr_ok'. unfold logdet.
  apply (l_folds (fun s i => vsum (map (fun z => ln (Rabs z)) (pivot (f s) i M P)))).
  - intros i Hi. apply in_seq in Hi. apply (l_logabs (fun s => pivot (f s) i M P)); [ apply l_pivot; [ exact T | intros q Hq; apply I; [ lia | exact Hq ] ] | intros z Hz; apply (Z i); [ lia | exact Hz ] ].
  - apply (l_logabs (fun s => nth (M - 1) (nth (M - 1) (f s) []) [])); [ now apply l_row, l_slab | exact ZL ].
Qed.

(** ** likelihood *)
Lemma l_half f x : rel f x -> rel (fun s => - (1/2) * f s) (nmul N '(- (1/2)) x).
Proof. apply (r_mul (fun _ => - (1/2))). apply r_cst. Qed.
Lemma l_tail il (F : R -> res R) (G : res A) (F2 : R -> res R) (G2 : res A) : rr rel F G -> (il = true -> rr rel F2 G2) ->
  rr rel (fun s => bind (F s) (fun q => if negb il then Ok (- (1/2) * q) else bind (F2 s) (fun l => Ok (- (1/2) * (q - l)))))
    (bind G (fun q => if negb il then Ok (nmul N '(- (1/2)) q) else bind G2 (fun l => Ok (nmul N '(- (1/2)) (nsub N q l))))).
Proof.
  intros P Q. apply (rr_bind rel rel _ _ (fun s q => if negb il then Ok (- (1/2) * q) else bind (F2 s) (fun l => Ok (- (1/2) * (q - l))))); [ exact P | ].
  intros q y Hq. destruct il; cbn [negb]; [ | now apply rr_ok', l_half ].
  apply (rr_bind rel rel _ _ (fun s l => Ok (- (1/2) * (q s - l)))); [ now apply Q | ]. intros l z Hl. apply rr_ok'. apply (l_half (fun s => q s - l s)). now apply r_sub.
Qed.
Lemma l_like_dense k k' f x data mu m il method : mr f x -> vr mu m -> (forall s, wf2 k k (f s)) -> invertible k (f 0) ->
  (method = "cholesky"%string -> (forall s, symmetric k (f s)) /\ pos_def k (f 0)) ->
  rr rel (fun s => gaussian_log_likelihood la data (mu s) (A2 k k' (f s)) il method) (ggaussian_log_likelihood N ga data m (G2 k k' x) il method).
Proof.
  intros T V W I HC. assert (VR : vr (fun s => vsub (mu s) data) (gvsub N m (map (cst N) data))) by (apply (l_vsub mu (fun _ => data)); [ exact V | apply l_csts ]).
  assert (LN := lr_length rel _ _ VR). set (r := gvsub N m (map (cst N) data)) in *.
  unfold ggaussian_log_likelihood. cbv zeta. fold r. cbn [gis_sparse]. cbv iota.
  apply (rr_respects _ (fun s => bind (if String.eqb method "inverse" then
                if negb (Nat.eqb k k') then Err ValueError
                else if negb (Nat.eqb k (length r)) then Err TypeError
                else Ok (vdot (vsub (mu s) data) (mv (la_inv la k (f s)) (vsub (mu s) data)))
              else if String.eqb method "cholesky" then
                if negb (Nat.eqb k k') then Err ValueError
                else if negb (Nat.eqb k (length r)) then Err ValueError
                else Ok (vdot (vsub (mu s) data) (la_cho_solve la k (f s) (vsub (mu s) data)))
              else Err NotImplementedError)
     (fun q => if negb il then Ok (- (1/2) * q) else bind (Ok (snd (la_slogdet la k (f s)))) (fun l => Ok (- (1/2) * (q - l)))))).
  { intros s. unfold gaussian_log_likelihood. cbv zeta. rewrite LN. reflexivity. }
  apply l_tail.
  - destruct (String.eqb method "inverse"); [ | destruct (String.eqb_spec method "cholesky") as [EM | ]; [ | apply rr_err' ]];
      (destruct (negb (Nat.eqb k k')); [ apply rr_err' | ]); (destruct (Nat.eqb_spec k (length r)) as [E | E]; cbn [negb]; [ | apply rr_err' ]); apply rr_ok'.
    + apply l_vdot; [ exact VR | ]. apply (lr_map vr rel (fun s row => vdot row (vsub (mu s) data))); [ intros u v Hu; now apply l_vdot | ]. now apply o_inv.
    + destruct (HC EM) as [S PD]. apply l_vdot; [ exact VR | ]. apply (o_cho k f x (fun s => vsub (mu s) data) r); try assumption. intros s. unfold wf1. rewrite LN. now symmetry.
  - intros _. apply rr_ok'. now apply o_det.
Qed.
Lemma l_like_sparse a b n f x data mu m il method : tr f x -> vr mu m -> (forall k, (k < n)%nat -> invertible a (slice a a k (f 0))) ->
  (il = true -> rr rel (fun s => bind (slogdet (la_inv la) (A3 a b n (f s))) (fun sl => Ok (snd sl))) (gslogdet N ga (G3 a b n x))) ->
  rr rel (fun s => gaussian_log_likelihood la data (mu s) (A3 a b n (f s)) il method) (ggaussian_log_likelihood N ga data m (G3 a b n x) il method).
Proof.
  intros T V I HL. assert (VR : vr (fun s => vsub (mu s) data) (gvsub N m (map (cst N) data))) by (apply (l_vsub mu (fun _ => data)); [ exact V | apply l_csts ]).
  assert (LN := lr_length rel _ _ VR). set (r := gvsub N m (map (cst N) data)) in *.
  unfold ggaussian_log_likelihood. cbv zeta. fold r. cbn [gis_sparse]. cbv iota.
  apply (rr_respects _ (fun s => bind (if negb (Nat.eqb a b) then Err ValueError else
      if negb (Nat.eqb (length r) (a * n)) || negb (Nat.eqb (a * n) (length r)) then Err ValueError
      else Ok (el2 (dense_dot_sparse_dot_dense a n 1 [vsub (mu s) data] (inv_data (la_inv la) a n (f s)) (map (fun z => [z]) (vsub (mu s) data))) 0 0))
     (fun q => if negb il then Ok (- (1/2) * q) else bind (bind (slogdet (la_inv la) (A3 a b n (f s))) (fun sl => Ok (snd sl))) (fun l => Ok (- (1/2) * (q - l)))))).
  { intros s. unfold gaussian_log_likelihood. cbv zeta. rewrite LN. change (is_sparse (A3 a b n (f s))) with true. cbv iota. unfold inv, check_sparse. cbn [andb].
    destruct (negb (Nat.eqb a b)); [ reflexivity | ]. cbn [bind]. unfold dot, dot3.
    destruct (negb (Nat.eqb (length r) (a * n)) || negb (Nat.eqb (a * n) (length r))); reflexivity. }
  apply l_tail; [ | exact HL ]. cbn [ginv]. destruct (negb (Nat.eqb a b)); [ apply rr_err' | ]. cbn [bind]. unfold gdot3.
  destruct (negb (Nat.eqb (length r) (a * n)) || negb (Nat.eqb (a * n) (length r))); [ apply rr_err' | ]. cbn [bind]. apply rr_ok'.
  apply (l_el2 (fun s => dense_dot_sparse_dot_dense a n 1 [vsub (mu s) data] (inv_data (la_inv la) a n (f s)) (map (fun z => [z]) (vsub (mu s) data)))).
  apply (l_ddd a n 1 (fun s => [vsub (mu s) data]) (fun s => inv_data (la_inv la) a n (f s)) (fun s => map (fun z => [z]) (vsub (mu s) data))).
  - apply lr_cons'; [ exact VR | apply lr_nil' ].
  - now apply l_inv_data.
  - apply (lr_map rel vr (fun _ z => [z])); [ | exact VR ]. intros u v Hu. apply lr_cons'; [ exact Hu | apply lr_nil' ].
Qed.

(** ** covariance *)
Inductive ar : (R -> arr) -> garr A -> Prop :=
  | ar2 C r c f x : (forall s, C s = A2 r c (f s)) -> mr f x -> ar C (G2 r c x)
  | ar3 C a b n f x : (forall s, C s = A3 a b n (f s)) -> tr f x -> ar C (G3 a b n x).
Lemma l_divs (norm : list R) : (forall z, In z norm -> z <> 0) -> forall f x, vr f x -> vr (fun s => vdiv (f s) norm) (gvdiv N x (map (cst N) norm)).
Proof.
  intros Z. induction norm as [ | z norm IH]; intros f x P.
  - destruct P as [f H | f u fu y l H P Q]; apply lr_nil; intros s; now rewrite H.
  - destruct P as [f H | f u fu y l H P Q]; [ apply lr_nil; intros s; now rewrite H | ]. cbn [map gvdiv map2].
    apply (lr_cons _ _ (fun s => u s / z) (fun s => vdiv (fu s) norm)); [ intros s; now rewrite H | apply (r_div u (fun _ => z)); [ apply Z; now left | exact P | apply r_cst ] | ].
    apply IH; [ intros q Hq; apply Z; now right | exact Q ].
Qed.
Lemma l_cov_row f x norm b : (forall z, In z norm -> z <> 0) -> mr f x -> vr (fun s => cov_row (f s) norm b) (gcov_row N x norm b).
Proof.
  intros Z P. destruct b as [[[p q] u] w]. unfold cov_row, gcov_row. apply (l_divs norm Z (fun s => vadd (vmul (nth p (f s) []) (nth q (f s) [])) (vmul (nth u (f s) []) (nth w (f s) [])))).
  apply l_vadd; apply l_vmul; now apply l_row.
Qed.
Lemma l_cst2 (m : list (list R)) : mr (fun _ => m) (map (map (cst N)) m).
Proof. induction m as [ | v m IH]; [ apply lr_nil' | ]. cbn [map]. apply (lr_cons vr _ (fun _ => v) (fun _ => m)); [ reflexivity | apply l_csts | exact IH ]. Qed.
Lemma l_covariance ell probes sig gsig noi f_sky sparse : (forall norm z, cov_norm ell f_sky = Ok norm -> In z norm -> z <> 0) -> mr sig gsig ->
  rr ar (fun s => gaussian_cl_covariance (Array1 ell) probes (sig s) noi f_sky sparse) (ggaussian_cl_covariance N ell probes gsig noi f_sky sparse).
Proof.
  intros Z P. unfold gaussian_cl_covariance, ggaussian_cl_covariance. cbv zeta. cbn [atleast_1d].
  assert (OB : mr (fun s => madd (sig s) noi) (map2 (gvadd N) gsig (map (map (cst N)) noi))) by (apply (lr_map2 vr vr vr (fun _ => vadd) (gvadd N) sig gsig (fun _ => noi)); [ intros; now apply l_vadd | exact P | apply l_cst2 ]).
  assert (LN := lr_length vr _ _ OB). set (ob := map2 (gvadd N) gsig (map (map (cst N)) noi)) in *.
  apply rr_bindc. intros norm EN. apply rr_bindc. intros blocks EB.
  assert (RW : mr (fun s => map (cov_row (madd (sig s) noi) norm) blocks) (map (gcov_row N ob norm) blocks)).
  { apply (lr_mapc vr (fun s => cov_row (madd (sig s) noi) norm)). intros b _. apply (l_cov_row (fun s => madd (sig s) noi)); [ intros z; now apply Z | exact OB ]. }
  apply (rr_respects ar (fun s => if negb (Nat.eqb (length (map (gcov_row N ob norm) blocks)) (length ob * length ob)) then Err TypeError else
    if sparse then Ok (A3 (length ob) (length ob) (length ell) (chunk (length ob) (length ob) (map (cov_row (madd (sig s) noi) norm) blocks)))
    else Ok (A2 (length ell * length ob) (length ell * length ob) (vstack (map (hstack (length ell)) (chunk (length ob) (length ob)
      (map (fun cov => map (vmul cov) (eye (length ell))) (map (cov_row (madd (sig s) noi) norm) blocks)))))))).
  { intros s. rewrite LN, (lr_length vr _ _ RW). reflexivity. }
  destruct (negb _); [ apply rr_err' | ]. destruct sparse; apply rr_ok'.
  - apply (ar3 _ _ _ _ (fun s => chunk (length ob) (length ob) (map (cov_row (madd (sig s) noi) norm) blocks))); [ reflexivity | ]. now apply l_chunk.
  - apply (ar2 _ _ _ (fun s => vstack (map (hstack (length ell)) (chunk (length ob) (length ob)
      (map (fun cov => map (vmul cov) (eye (length ell))) (map (cov_row (madd (sig s) noi) norm) blocks)))))); [ reflexivity | ].
    apply lr_concat. apply (lr_map tr mr (fun _ => hstack (length ell)) (ghstack (length ell))).
    + intros u v Hu. apply (lr_tab vr). intros i _. apply lr_concat. apply (lr_map mr vr (fun _ m => nth i m []) (fun m => nth i m [])); [ intros p q Hp; now apply l_row | exact Hu ].
    + apply l_chunk. apply (lr_map vr mr (fun _ cov => map (vmul cov) (eye (length ell)))); [ | exact RW ].
      intros u v Hu. apply (lr_mapc vr (fun s row => vmul (u s) row)). intros row _. apply (l_vmul u (fun _ => row)); [ exact Hu | apply l_csts ].
Qed.
End Follow.
