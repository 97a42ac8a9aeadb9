(** * Model of jax_cosmo/angular_cl.py *)
From Verif Require Import Np Core Interp Integrate Background Power Redshift Bias Probes Sparse.

(** sum([p.n_tracers for p in probes]) *)
Definition total_tracers (probes : list probe) : nat := list_sum (map n_tracers probes).

(** angular_cl.py 24-28: the double loop, for n tracers *)
Definition cl_ordering (n : nat) : list (nat * nat) :=
  flat_map (fun i => map (fun j => (i, j)) (seq i (n - i))) (seq 0 n).
(** angular_cl.py 18-28 (_get_cl_ordering) *)
Definition get_cl_ordering (probes : list probe) : list (nat * nat) := cl_ordering (total_tracers probes).

Definition pair_eqb (p q : nat * nat) : bool := Nat.eqb (fst p) (fst q) && Nat.eqb (snd p) (snd q).
(** python list.index: position of the first equal element, ValueError if there is none *)
Fixpoint list_index (p : nat * nat) (l : list (nat * nat)) : res nat :=
  match l with
  | [] => Err ValueError
  | q :: l' => if pair_eqb p q then Ok 0%nat else bind (list_index p l') (fun i => Ok (S i))
  end.
(** angular_cl.py 37-41 (find_index) *)
Definition find_index (l : list (nat * nat)) (a b : nat) : res nat :=
  if existsb (pair_eqb (a, b)) l then list_index (a, b) l else list_index (b, a) l.

Fixpoint mapM {A B} (f : A -> res B) (l : list A) : res (list B) :=
  match l with
  | [] => Ok []
  | x :: l' => bind (f x) (fun y => bind (mapM f l') (fun ys => Ok (y :: ys)))
  end.

(** angular_cl.py 43-49 *)
Definition cov_block (l : list (nat * nat)) (p q : nat * nat) : res (nat * nat * nat * nat) :=
  let (i, j) := p in
  let (m, n) := q in
  bind (find_index l i m) (fun x => bind (find_index l j n) (fun y =>
  bind (find_index l i n) (fun z => bind (find_index l j m) (fun w => Ok (x, y, z, w))))).
Definition cov_blocks_ordering (l : list (nat * nat)) : res (list (nat * nat * nat * nat)) :=
  mapM (fun pq => cov_block l (fst pq) (snd pq)) (list_prod l l).
(** angular_cl.py 31-49 (_get_cov_blocks_ordering) *)
Definition get_cov_blocks_ordering (probes : list probe) : res (list (nat * nat * nat * nat)) :=
  cov_blocks_ordering (get_cl_ordering probes).

(** angular_cl.py 71-97 (integrand): receives the array of scale factors, returns one row of ncls values per scale
    factor (result.T) *)
Definition cl_integrand (c : cosmology) (probes : list probe) (T : transfer) (nl : nonlinear) (ell : R) (a : list R)
  : res (list (list R)) :=
  let chis := map (chi c) a in
  let k := map (fun x => (ell + 0.5) / clip_lo x 1.0) chis in
  let pk := map2 (fun kk aa => nonlinear_matter_power c kk aa T nl) k a in
  bind (mapM (fun p => kernel p c (map a2z a) ell) probes) (fun ks =>
  let kernels := vstack ks in
  let comb := map (fun ij => vmul (nth (fst ij) kernels []) (nth (snd ij) kernels [])) (get_cl_ordering probes) in
  let wt := map (fun aa => dchioverda c aa) a in
  let cl2 := map (fun x => clip_lo (x ^ 2) 1.0) chis in
  let result := map (fun row => vdiv (vmul (vmul pk row) wt) cl2) comb in
  Ok (tab (length a) (fun q => map (fun row => el row q) result))).

(** angular_cl.py 70-99 (cl): one multipole *)
Definition cl_one (c : cosmology) (probes : list probe) (T : transfer) (nl : nonlinear) (zmax ell : R) : res (list R) :=
  bind (simps_rows (length (get_cl_ordering probes)) (cl_integrand c probes T nl ell) (z2a zmax) 1.0 512) (fun v =>
  Ok (map (fun x => x / const_c ^ 2) v)).

(** angular_cl.py 52-101 (angular_cl): vmap over ell with out_axes=1, result of shape (ncls, n_ell); vmap rejects a
    scalar ell *)
Definition angular_cl (c : cosmology) (ell : array_like) (probes : list probe) (T : transfer) (nl : nonlinear)
  : res (list (list R)) :=
  bind (mapM probe_zmax probes) (fun zs =>
  bind (pymax zs) (fun zmax =>
  match ell with
  | Scalar _ => Err ValueError
  | Array1 ells =>
      bind (mapM (cl_one c probes T nl zmax) ells) (fun cols =>
      Ok (stack1 0 (length (get_cl_ordering probes)) cols))
  end)).

(** |i - j| of two integers *)
Definition absdiff (i j : nat) : R := Rabs (INR i - INR j).

(** angular_cl.py 104-120 (noise_cl) *)
Definition noise_cl (n_ell : nat) (probes : list probe) : res (list (list R)) :=
  bind (mapM noise probes) (fun ns =>
  let nv := concat ns in
  Ok (map (fun ij => let delta := 1.0 - clip (absdiff (fst ij) (snd ij)) 0.0 1.0 in
                     repeat (el nv (fst ij) * delta * 1) n_ell) (get_cl_ordering probes))).

(** np.eye(n) *)
Definition eye (n : nat) : list (list R) := tab n (fun i => tab n (fun j => if Nat.eqb i j then 1 else 0)).

(** angular_cl.py 142 *)
Definition cov_norm (ell : list R) (f_sky : R) : res (list R) :=
  bind (gradient ell) (fun g => Ok (map (fun x => x * f_sky) (vmul (map (fun l => 2 * l + 1) ell) g))).

(** angular_cl.py 147-150 (get_cov_block), before the product with [one] *)
Definition cov_row (cl_obs : list (list R)) (norm : list R) (b : nat * nat * nat * nat) : list R :=
  let '(x, y, z, w) := b in
  vdiv (vadd (vmul (nth x cl_obs []) (nth y cl_obs [])) (vmul (nth z cl_obs []) (nth w cl_obs []))) norm.

(** angular_cl.py 123-166 (gaussian_cl_covariance).  [cl_signal] and [cl_noise] have shape (n_cls, n_ell).  The
    result is a 3D (sparse=True) or 2D array.  A reshape to the wrong number of elements raises TypeError. *)
Definition gaussian_cl_covariance (ell : array_like) (probes : list probe) (cl_signal cl_noise : list (list R))
    (f_sky : R) (sparse : bool) : res arr :=
  let ell := atleast_1d ell in
  let n_ell := length ell in
  let cl_obs := madd cl_signal cl_noise in
  let n_cls := length cl_obs in
  bind (cov_norm ell f_sky) (fun norm =>
  bind (get_cov_blocks_ordering probes) (fun blocks =>
  let rows := map (cov_row cl_obs norm) blocks in
  if negb (Nat.eqb (length rows) (n_cls * n_cls)) then Err TypeError
  else if sparse then Ok (A3 n_cls n_cls n_ell (chunk n_cls n_cls rows))
  else
    let blocks4 := map (fun cov => map (vmul cov) (eye n_ell)) rows in
    Ok (A2 (n_ell * n_cls) (n_ell * n_cls) (vstack (map (hstack n_ell) (chunk n_cls n_cls blocks4)))))).

(** angular_cl.py 169-199 (gaussian_cl_covariance_and_mean); flatten is row-major *)
Definition gaussian_cl_covariance_and_mean (c : cosmology) (ell : array_like) (probes : list probe) (T : transfer)
    (nl : nonlinear) (f_sky : R) (sparse : bool) : res (list R * arr) :=
  let ell := atleast_1d ell in
  let n_ell := length ell in
  bind (angular_cl c (Array1 ell) probes T nl) (fun cl_signal =>
  bind (noise_cl n_ell probes) (fun cl_noise =>
  bind (gaussian_cl_covariance (Array1 ell) probes cl_signal cl_noise f_sky sparse) (fun cov =>
  Ok (concat cl_signal, cov)))).
