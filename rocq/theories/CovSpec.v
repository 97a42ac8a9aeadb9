(** * Specification for spectra ordering, noise and the Gaussian covariance (angular_cl.py) *)
From Verif Require Import Np Redshift Bias Probes Sparse SparseSpec.

(** strict lexicographic order on pairs *)
Definition lex_lt (p q : nat * nat) : Prop :=
  (fst p < fst q)%nat \/ (fst p = fst q /\ (snd p < snd q)%nat).

(** consecutive elements increase *)
Definition increasing {A} (lt : A -> A -> Prop) (l : list A) : Prop :=
  forall s t p q, (s < t)%nat -> nth_error l s = Some p -> nth_error l t = Some q -> lt p q.

(** position s of the list holds the unordered pair {a, b} *)
Definition names (l : list (nat * nat)) (s a b : nat) : Prop := nth_error l s = Some (Nat.min a b, Nat.max a b).

(** the k-th bin of which probe is the i-th tracer of all probes together *)
Fixpoint tracer (probes : list probe) (i : nat) : option (probe * nat) :=
  match probes with
  | [] => None
  | p :: ps => if Nat.ltb i (length (bins_of p)) then Some (p, i) else tracer ps (i - length (bins_of p))
  end.

(** number of tracers: all redshift bins of all probes *)
Definition n_bins (probes : list probe) : nat := length (concat (map bins_of probes)).

(** every probe returns one noise value per bin *)
Definition noise_total (probes : list probe) : Prop :=
  forall p, In p probes -> exists v, noise p = Ok v /\ length v = length (bins_of p).

(** [S i j l] is the spectrum of the unordered pair {i,j} at multipole number l, read off the rows in the order [ord] *)
Definition spectra_of (ord : list (nat * nat)) (rows : list (list R)) (S : nat -> nat -> nat -> R) : Prop :=
  forall s i j l, nth_error ord s = Some (i, j) -> S i j l = el2 rows s l /\ S j i l = el2 rows s l.

(** spacing of the multipoles (what np.gradient returns): one-sided at the ends, centred inside *)
Definition spacing (ell : list R) (l : nat) : R :=
  if Nat.eqb l 0 then el ell 1 - el ell 0
  else if Nat.eqb (l + 1) (length ell) then el ell l - el ell (l - 1)
  else (el ell (l + 1) - el ell (l - 1)) / 2.

(** number of modes times f_sky *)
Definition knox_norm (ell : list R) (f_sky : R) (l : nat) : R := (2 * el ell l + 1) * spacing ell l * f_sky.

(** the Gaussian covariance of the spectra (i,j) and (m,n) at one multipole *)
Definition knox (S : nat -> nat -> nat -> R) (ell : list R) (f_sky : R) (i j m n l : nat) : R :=
  (S i m l * S j n l + S i n l * S j m l) / knox_norm ell f_sky l.

(** positive (semi-)definite function on {0..n-1}^2 *)
Definition quadf (n : nat) (S : nat -> nat -> R) (x : nat -> R) : R :=
  Rsum n (fun i => Rsum n (fun j => x i * S i j * x j)).
Definition psdf (n : nat) (S : nat -> nat -> R) : Prop := forall x, 0 <= quadf n S x.
Definition pdf (n : nat) (S : nat -> nat -> R) : Prop :=
  forall x, (exists i, (i < n)%nat /\ x i <> 0) -> 0 < quadf n S x.
Definition symf (n : nat) (S : nat -> nat -> R) : Prop := forall i j, (i < n)%nat -> (j < n)%nat -> S i j = S j i.
