(** * Forward-mode differentiation of sparse.py, of the covariance in angular_cl.py and of likelihood.py

    The programs of Sparse.v, AngularCl.v and Likelihood.v transcribed over an arbitrary type of numbers (see Ad.v); at
    [num_R] they are those programs, at [num_dual] they are what jax.jvp computes.  Noise spectra, multipoles, f_sky and the
    data do not depend on the parameters.  Only the log part of slogdet is kept: its sign is locally constant and the
    likelihood ignores it. *)
From Verif Require Import Np Core Sparse Likelihood Interp Probes AngularCl Ad AdPower AdProbes.

(** arrays of numbers of type A, as [arr] in Sparse.v *)
Inductive garr (A : Type) :=
  | G0 (x : A) | G1 (n : nat) (v : list A) | G2 (r c : nat) (m : list (list A)) | G3 (a b n : nat) (s : list (list (list A))) | GN (d : nat).
Arguments G0 {A}. Arguments G1 {A}. Arguments G2 {A}. Arguments G3 {A}. Arguments GN {A}.
(** library oracles of likelihood.py over A: np.linalg.inv, the log part of np.linalg.slogdet, cho_solve of cho_factor *)
Record glinalg (A : Type) := GLinalg {
  ga_inv : nat -> list (list A) -> list (list A);
  ga_logdet : nat -> list (list A) -> A;
  ga_cho_solve : nat -> list (list A) -> list A -> list A }.
Arguments ga_inv {A}. Arguments ga_logdet {A}. Arguments ga_cho_solve {A}.

Section Programs.
Context {A : Type} (N : num A) (ga : glinalg A).
Local Infix "+" := (nadd N) : ad_scope.
Local Infix "-" := (nsub N) : ad_scope.
Local Infix "*" := (nmul N) : ad_scope.
Local Notation "' x" := (cst N x%R) (at level 1, format "' x") : ad_scope.
Local Open Scope ad_scope.

Definition gel2 (m : list (list A)) (i j : nat) : A := nth j (nth i m []) '0.
Definition gel3 (s : list (list (list A))) (i j k : nat) : A := nth k (nth j (nth i s []) []) '0.
Definition gvsub (u v : list A) : list A := map2 (nsub N) u v.
Definition gvdot (u v : list A) : A := gsum N (gvmul N u v).
Definition gsum0 (n : nat) (rows : list (list A)) : list A := fold_right (gvadd N) (repeat '0 n) rows.
Definition gcol (j : nat) (m : list (list A)) : list A := map (fun r => nth j r '0) m.
Definition ghstack (n : nat) (ms : list (list (list A))) : list (list A) := tab n (fun i => concat (map (fun m => nth i m []) ms)).

(** sparse.py 140-162 *)
Definition gsparse_dot_vec (b n : nat) (s : list (list (list A))) (v : list A) : list A :=
  concat (map (fun row => gsum0 n (map2 (gvmul N) row (chunk n b v))) s).
(** sparse.py 266-292 *)
Definition gdense_dot_sparse_dot_dense (c n d : nat) (X : list (list A)) (Y : list (list (list A))) (Z : list (list A)) : list (list A) :=
  map (fun row => tab d (fun j => gvdot row (gsparse_dot_vec c n Y (gcol j Z)))) X.
(** sparse.py 124-135 *)
Definition gdot3 (P Q S : garr A) : res (garr A) :=
  match P, Q, S with
  | G2 r k X, G3 b c n Y, G2 k' d Z =>
      if negb (Nat.eqb k (b * n)) || negb (Nat.eqb (c * n) k') then Err ValueError
      else Ok (G2 r d (gdense_dot_sparse_dot_dense c n d X Y Z))
  | _, _, _ => Err ValueError
  end.
(** sparse.py 295-315 *)
Definition gslice (a b k : nat) (s : list (list (list A))) : list (list A) := tab a (fun i => tab b (fun j => gel3 s i j k)).
Definition ginv_data (a n : nat) (s : list (list (list A))) : list (list (list A)) :=
  let invs := tab n (fun k => ga_inv ga a (gslice a a k s)) in
  tab a (fun i => tab a (fun j => tab n (fun k => gel2 (nth k invs []) i j))).
Definition ginv (x : garr A) : res (garr A) :=
  match x with
  | G3 a b n s => if negb (Nat.eqb a b) then Err ValueError else Ok (G3 a a n (ginv_data a n s))
  | _ => Err ValueError
  end.
(** python slicing sparse[r0:r1, c0:c1] *)
Definition gsub3 (r0 r1 c0 c1 : nat) (s : list (list (list A))) : list (list (list A)) :=
  map (fun row => firstn (c1 - c0) (skipn c0 row)) (firstn (r1 - r0) (skipn r0 s)).
(** sparse.py 234-263 for conforming shapes (a,b,n) x (b,d,n) *)
Definition gsds (a b n d : nat) (s1 s2 : list (list (list A))) : list (list (list A)) :=
  stack1 [] a (tab d (fun j => map (fun B1 => gsum0 n (tab b (fun i => tab n (fun q =>
    gel2 B1 (bidx b i) (bidx n q) * gel2 (map (fun r => nth j r []) s2) (bidx b i) (bidx n q))))) s1)).
(** sparse.py 322-331 *)
Definition gblock (s : list (list (list A))) (k M P : nat) : list A :=
  let r := (M - (k + 1))%nat in
  let u := gsub3 k (k + 1) (k + 1) M s in
  let S := gsub3 (k + 1) M (k + 1) M s in
  let v := gsub3 (k + 1) M k (k + 1) s in
  let Sinv_v := gsds r r P 1 (ginv_data r P S) v in
  let uSv := gsds 1 r P 1 u Sinv_v in
  gvsub (nth k (nth k s []) []) (nth 0 (nth 0 uSv []) []).
Definition glogabs (v : list A) : A := gsum N (map (fun x => nln N (nabs N x)) v).
(** sparse.py 334-366 *)
Definition gslogdet (x : garr A) : res A :=
  match x with
  | G3 M b P s =>
      if negb (Nat.eqb M b) then Err ValueError
      else Ok (fold_left (fun acc i => acc + glogabs (gblock s i M P)) (seq 0 (M - 1)) (glogabs (nth (M - 1) (nth (M - 1) s []) [])))
  | _ => Err ValueError
  end.

(** likelihood.py 9-61 *)
Definition gmv (m : list (list A)) (v : list A) : list A := map (fun row => gvdot row v) m.
Definition gis_sparse (x : garr A) : bool := match x with G3 _ _ _ _ => true | GN d => Nat.eqb d 3 | _ => false end.
Definition ggaussian_log_likelihood (data : list R) (mu : list A) (C : garr A) (include_logdet : bool) (inverse_method : string) : res A :=
  let r := gvsub mu (map (cst N) data) in
  let n := length r in
  bind (if gis_sparse C then
          bind (ginv C) (fun Ci =>
          bind (gdot3 (G2 1 n [r]) Ci (G2 n 1 (map (fun x => [x]) r))) (fun x =>
          match x with G2 _ _ m => Ok (gel2 m 0 0) | _ => Err TypeError end))
        else
          match C with
          | G2 k k' m =>
              if String.eqb inverse_method "inverse" then
                if negb (Nat.eqb k k') then Err ValueError
                else if negb (Nat.eqb k n) then Err TypeError
                else Ok (gvdot r (gmv (ga_inv ga k m) r))
              else if String.eqb inverse_method "cholesky" then
                if negb (Nat.eqb k k') then Err ValueError
                else if negb (Nat.eqb k n) then Err ValueError
                else Ok (gvdot r (ga_cho_solve ga k m r))
              else Err NotImplementedError
          | _ => if String.eqb inverse_method "inverse" then Err ValueError
                 else if String.eqb inverse_method "cholesky" then Err ValueError
                 else Err NotImplementedError
          end)
  (fun rT_Cinv_r =>
     if negb include_logdet then Ok ('(- (1/2)) * rT_Cinv_r)
     else
       bind (if gis_sparse C then gslogdet C
             else match C with G2 k _ m => Ok (ga_logdet ga k m) | _ => Err ValueError end)
       (fun logdet => Ok ('(- (1/2)) * (rT_Cinv_r - logdet)))).

(** angular_cl.py 147-150 *)
Definition gcov_row (cl_obs : list (list A)) (norm : list R) (b : nat * nat * nat * nat) : list A :=
  let '(x, y, z, w) := b in
  gvdiv N (gvadd N (gvmul N (nth x cl_obs []) (nth y cl_obs [])) (gvmul N (nth z cl_obs []) (nth w cl_obs []))) (map (cst N) norm).
(** angular_cl.py 123-166 *)
Definition ggaussian_cl_covariance (ell : list R) (probes : list probe) (cl_signal : list (list A)) (cl_noise : list (list R))
    (f_sky : R) (sparse : bool) : res (garr A) :=
  let n_ell := length ell in
  let cl_obs := map2 (gvadd N) cl_signal (map (map (cst N)) cl_noise) in
  let n_cls := length cl_obs in
  bind (cov_norm ell f_sky) (fun norm =>
  bind (get_cov_blocks_ordering probes) (fun blocks =>
  let rows := map (gcov_row cl_obs norm) blocks in
  if negb (Nat.eqb (length rows) (n_cls * n_cls)) then Err TypeError
  else if sparse then Ok (G3 n_cls n_cls n_ell (chunk n_cls n_cls rows))
  else
    let blocks4 := map (fun cov => map (fun row => gvmul N cov (map (cst N) row)) (eye n_ell)) rows in
    Ok (G2 (n_ell * n_cls) (n_ell * n_cls) (concat (map (ghstack n_ell) (chunk n_cls n_cls blocks4)))))).
(** angular_cl.py 169-199 *)
Definition ggaussian_cl_covariance_and_mean (c : gcosmo A) (ell : list R) (probes : list probe) (P : gspectrum)
    (f_sky : R) (sparse : bool) : res (list A * garr A) :=
  bind (gangular_cl N c (Array1 ell) probes P) (fun cl_signal =>
  bind (noise_cl (length ell) probes) (fun cl_noise =>
  bind (ggaussian_cl_covariance ell probes cl_signal cl_noise f_sky sparse) (fun cov =>
  Ok (concat cl_signal, cov)))).
(** the likelihood of the README and of the notebooks: mean and covariance of the spectra at the parameters, then
    gaussian_log_likelihood *)
Definition gsurvey_likelihood (c : gcosmo A) (ell : list R) (probes : list probe) (P : gspectrum) (f_sky : R) (sparse : bool)
    (data : list R) (include_logdet : bool) (inverse_method : string) : res A :=
  bind (ggaussian_cl_covariance_and_mean c ell probes P f_sky sparse) (fun mc =>
  ggaussian_log_likelihood data (fst mc) (snd mc) include_logdet inverse_method).
End Programs.
Arguments gspectrum A : clear implicits.

(** the oracles themselves, for numbers R *)
Definition linalg_R (la : linalg) : glinalg R := GLinalg R (la_inv la) (fun n m => snd (la_slogdet la n m)) (la_cho_solve la).
Definition arr_of (x : garr R) : arr :=
  match x with G0 x => A0 x | G1 n v => A1 n v | G2 r c m => A2 r c m | G3 a b n s => A3 a b n s | GN d => AN d end.
Definition survey_likelihood (la : linalg) (c : cosmology) (ell : list R) (probes : list probe) (T : Power.transfer) (nl : Power.nonlinear) (f_sky : R)
    (sparse : bool) (data : list R) (include_logdet : bool) (inverse_method : string) : res R :=
  bind (gaussian_cl_covariance_and_mean c (Array1 ell) probes T nl f_sky sparse) (fun mc =>
  gaussian_log_likelihood la data (fst mc) (snd mc) include_logdet inverse_method).

(** the rules of jax for the oracles (trusted: jax/_src/numpy/linalg.py and jax/_src/lax/linalg.py), with V the value and V' the
    tangent of the matrix, P = inv V:  inv: -P V' P;  log part of slogdet: trace (P V');  cho_solve: the solution of
    V y' = r' - V' y, which is what the rules for cholesky and the two triangular solves compose to *)
Definition mmul (n : nat) (X Y : list (list R)) : list (list R) := tab n (fun i => tab n (fun j => Np.vsum (tab n (fun k => el2 X i k * el2 Y k j)%R))).
Definition trace (n : nat) (X : list (list R)) : R := Np.vsum (tab n (fun i => el2 X i i)).
Definition linalg_dual (la : linalg) : glinalg dual :=
  let values := map (map (fst (A := R) (B := R))) in let tangents := map (map (snd (A := R) (B := R))) in
  GLinalg dual
    (fun n M => let P := la_inv la n (values M) in let Q := mmul n (mmul n P (tangents M)) P in
       tab n (fun i => tab n (fun j => (el2 P i j, (- el2 Q i j)%R))))
    (fun n M => (snd (la_slogdet la n (values M)), trace n (mmul n (la_inv la n (values M)) (tangents M))))
    (fun n M r => let y := la_cho_solve la n (values M) (map fst r) in
       let y' := la_cho_solve la n (values M) (vsub (map snd r) (mv (tangents M) y)) in
       tab n (fun i => (el y i, el y' i))).
