(** * Specification: catalogues with several columns *)
From Verif Require Import Np Nd.

(** column l of a matrix with n rows *)
Definition column (x : nd) (n l : nat) : list R := tab n (fun i => get x [i; l]).
