(** * Model of jax_cosmo/likelihood.py *)
From Verif Require Import Np Sparse.

(** library oracles: np.linalg.inv, np.linalg.slogdet, and
    sp.linalg.cho_solve(sp.linalg.cho_factor(C, lower=True), r), all for an n x n matrix *)
Record linalg := {
  la_inv : linv_t;
  la_slogdet : nat -> list (list R) -> R * R;
  la_cho_solve : nat -> list (list R) -> list R -> list R }.

(** np.dot(matrix, vector) *)
Definition mv (m : list (list R)) (v : list R) : list R := map (fun row => vdot row v) m.

(** scalar at [0, 0] of a 2D array *)
Definition at00 (x : arr) : res R := match x with A2 _ _ m => Ok (el2 m 0 0) | _ => Err TypeError end.

(** likelihood.py 9-61: gaussian_log_likelihood.  data and mu are vectors of the same length (numpy broadcasting of
    unequal lengths is not modelled).  A dense covariance must be square and match the data length; the library
    raises otherwise. *)
Definition gaussian_log_likelihood (la : linalg) (data mu : list R) (C : arr) (include_logdet : bool)
    (inverse_method : string) : res R :=
  let r := vsub mu data in                                                   (* 38 *)
  let n := length r in
  bind (if is_sparse C then                                                  (* 40 *)
          bind (inv (la_inv la) C) (fun Ci =>
          bind (dot [A2 1 n [r]; Ci; A2 n 1 (map (fun x => [x]) r)]) at00)   (* 41-42 *)
        else
          match C with
          | A2 k k' m =>
              if String.eqb inverse_method "inverse" then                    (* 46-47 *)
                if negb (Nat.eqb k k') then Err ValueError
                else if negb (Nat.eqb k n) then Err TypeError
                else Ok (vdot r (mv (la_inv la k m) r))
              else if String.eqb inverse_method "cholesky" then              (* 48-49 *)
                if negb (Nat.eqb k k') then Err ValueError
                else if negb (Nat.eqb k n) then Err ValueError
                else Ok (vdot r (la_cho_solve la k m r))
              else Err NotImplementedError                                   (* 51 *)
          | _ => if String.eqb inverse_method "inverse" then Err ValueError
                 else if String.eqb inverse_method "cholesky" then Err ValueError
                 else Err NotImplementedError
          end)
  (fun rT_Cinv_r =>
     if negb include_logdet then Ok (- (1/2) * rT_Cinv_r)                    (* 54-55 *)
     else
       bind (if is_sparse C then bind (slogdet (la_inv la) C) (fun sl => Ok (snd sl))   (* 57-58 *)
             else match C with A2 k _ m => Ok (snd (la_slogdet la k m)) | _ => Err ValueError end)  (* 60 *)
       (fun logdet => Ok (- (1/2) * (rT_Cinv_r - logdet)))).                 (* 61 *)
