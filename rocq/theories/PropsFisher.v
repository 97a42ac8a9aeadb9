(** * Property theorems C115: derivatives of the likelihood *)
From Coq Require Import Reals List String.
From Coquelicot Require Import Coquelicot.
From Verif Require Import Np Sparse SparseSpec Likelihood LikelihoodSpec FisherSpec Fisher.
Import ListNotations.
Local Open Scope R_scope.


(** C115  gradient and Hessian of the log-likelihood with respect to the parameters of the mean *)
Theorem C115_score : forall la, linalg_ok la -> forall n C P cov method data (mu : R -> list R) dmu t il,
  wf2 n n C -> symmetric n C -> pos_def n C -> is_inverse n C P -> given_as cov method n C ->
  wf1 n data -> (forall t, wf1 n (mu t)) -> (forall i, (i < n)%nat -> is_derive (fun t => el (mu t) i) t (dmu i)) ->
  exists L, (forall t, gaussian_log_likelihood la data (mu t) cov il method = Ok (L t)) /\
    is_derive L t (bilin n P dmu (fun i => el data i - el (mu t) i)).
Proof. exact score. Qed.
Print Assumptions C115_score.
Theorem C115_fisher : forall la, linalg_ok la -> forall n C P cov method data (mu : R -> R -> list R) ms mt mst s0 t0 il,
  wf2 n n C -> symmetric n C -> pos_def n C -> is_inverse n C P -> given_as cov method n C ->
  wf1 n data -> (forall s t, wf1 n (mu s t)) ->
  locally t0 (fun t => forall i, (i < n)%nat -> is_derive (fun s => el (mu s t) i) s0 (ms t i)) ->
  (forall i, (i < n)%nat -> is_derive (fun t => ms t i) t0 (mst i)) ->
  (forall i, (i < n)%nat -> is_derive (fun t => el (mu s0 t) i) t0 (mt i)) ->
  exists L S, (forall s t, gaussian_log_likelihood la data (mu s t) cov il method = Ok (L s t)) /\
    locally t0 (fun t => is_derive (fun s => L s t) s0 (S t)) /\
    is_derive S t0 (bilin n P mst (fun i => el data i - el (mu s0 t0) i) - bilin n P (ms t0) mt) /\
    (data = mu s0 t0 -> S t0 = 0 /\ is_derive S t0 (- bilin n P (ms t0) mt)).
Proof. exact fisher. Qed.
Print Assumptions C115_fisher.
Theorem C115_information : forall n C P u, pos_def n C -> is_inverse n C P ->
  0 <= bilin n P u u /\ (bilin n P u u = 0 <-> forall i, (i < n)%nat -> u i = 0).
Proof. exact information_definite. Qed.
Print Assumptions C115_information.
Example C115_case : (exists la, linalg_ok la) /\ wf2 2 2 [[2; 1]; [1; 3]] /\ symmetric 2 [[2; 1]; [1; 3]] /\ pos_def 2 [[2; 1]; [1; 3]] /\
  is_inverse 2 [[2; 1]; [1; 3]] [[3 / 5; -1 / 5]; [-1 / 5; 2 / 5]] /\
  given_as (A2 2 2 [[2; 1]; [1; 3]]) "cholesky" 2 [[2; 1]; [1; 3]] /\
  given_as (A3 2 2 1 [[[2]; [1]]; [[1]; [3]]]) "inverse" 2 [[2; 1]; [1; 3]] /\
  (forall s t, wf1 2 (ex_mean s t)) /\
  locally 2 (fun t => forall i, (i < 2)%nat -> is_derive (fun s => el (ex_mean s t) i) 1 (ex_ms t i)) /\
  (forall i, (i < 2)%nat -> is_derive (fun t => ex_ms t i) 2 (ex_mst i)) /\
  (forall i, (i < 2)%nat -> is_derive (fun t => el (ex_mean 1 t) i) 2 (ex_mt i)).
Proof. exact ex_fisher. Qed.
