(** * Linear algebra of the likelihood over numbers with infinities and NaN

    np.linalg.inv, the log-determinant of np.linalg.slogdet and scipy.linalg.cho_solve (likelihood.py 39-66, sparse.py 128-136) as
    the programs of AdLike.v and AdNuisLike.v call them, for the numbers of AdNan.v (jax.jvp) and XBack.v (jax.grad).

    Trusted (JAX and LAPACK, not in /repo): the three functions on floating-point arrays are any functions that agree with the exact
    results on finite matrices that are invertible (positive definite for cho_solve) ([exact_on_finite]); what they return for other
    matrices is left open.  The rules are those of [linalg_dual] in AdLike.v and [linalg_back] in AdBack.v, with the products and the sums
    of floating-point numbers.  An array has a tangent if one of its entries has; the missing tangents of other entries are zeros. *)
From Verif Require Import Np Sparse SparseSpec Likelihood SparseX HalofitX Ad AdLike AdBack AdNan XBack.
Local Open Scope R_scope.

Record xlinalg : Type := XLinalg { xl_inv : nat -> list (list XR) -> list (list XR); xl_logdet : nat -> list (list XR) -> XR;
  xl_cho_solve : nat -> list (list XR) -> list XR -> list XR }.
Definition fins : list R -> list XR := map Fin.
Definition exact_on_finite (la : linalg) (xl : xlinalg) : Prop :=
  (forall n m, wf2 n n m -> invertible n m -> xl_inv xl n (map fins m) = map fins (la_inv la n m)) /\
  (forall n m, wf2 n n m -> invertible n m -> xl_logdet xl n (map fins m) = Fin (snd (la_slogdet la n m))) /\
  (forall n m r, wf2 n n m -> symmetric n m -> pos_def n m -> wf1 n r -> xl_cho_solve xl n (map fins m) (fins r) = fins (la_cho_solve la n m r)).

Definition xsum (l : list XR) : XR := fold_right xadd (Fin 0) l.
Definition xel (v : list XR) (i : nat) : XR := nth i v NaN.
Definition xel2 (m : list (list XR)) (i j : nat) : XR := xel (nth i m []) j.
Definition xmmul (n : nat) (X Y : list (list XR)) : list (list XR) := tab n (fun i => tab n (fun j => xsum (tab n (fun k => xmul (xel2 X i k) (xel2 Y k j))))).
Definition xmv (M : list (list XR)) (v : list XR) : list XR := map (fun row => xsum (map2 xmul row v)) M.
(** jax.jvp: symbolic zeros stay symbolic zeros; otherwise instantiate them *)
Definition xval (x : xdual) : XR := fst x.
Definition live (x : xdual) : bool := match snd x with Some _ => true | None => false end.
Definition xtan (x : xdual) : XR := match snd x with Some t => t | None => Fin 0 end.
Definition when {A : Type} (b : bool) (x : A) : option A := if b then Some x else None.
Definition linalg_x (xl : xlinalg) : glinalg xdual :=
  let values := map (map xval) in let tangents := map (map xtan) in
  GLinalg xdual
    (fun n M => let P := xl_inv xl n (values M) in let Q := xmmul n (xmmul n P (tangents M)) P in let b := existsb (existsb live) M in
       tab n (fun i => tab n (fun j => (xel2 P i j, when b (xneg (xel2 Q i j))))))
    (fun n M => let Q := xmmul n (xl_inv xl n (values M)) (tangents M) in
       (xl_logdet xl n (values M), when (existsb (existsb live) M) (xsum (tab n (fun i => xel2 Q i i)))))
    (fun n M r => let y := xl_cho_solve xl n (values M) (map xval r) in
       let y' := xl_cho_solve xl n (values M) (map2 xsub (map xtan r) (xmv (tangents M) y)) in let b := existsb (existsb live) M || existsb live r in
       tab n (fun i => (xel y i, when b (xel y' i)))).

(** jax.grad: the transposes; an entry that does not depend on the inputs takes no cotangent *)
Definition psum (l : list pull) : pull := fold_right pplus None l.
Definition bval (x : xback) : XR := fst x.
Definition xnil : xback := (Fin 0, None).
Definition linalg_xb (xl : xlinalg) : glinalg xback :=
  let values := map (map bval) in
  GLinalg xback
    (fun n M => let P := xl_inv xl n (values M) in
       tab n (fun i => tab n (fun j => (xel2 P i j,
         psum (tab n (fun a => psum (tab n (fun b => pby (fun u => xneg (xmul (xmul (xel2 P i a) u) (xel2 P b j))) (snd (nth b (nth a M []) xnil))))))))))
    (fun n M => let P := xl_inv xl n (values M) in
       (xl_logdet xl n (values M), psum (tab n (fun i => psum (tab n (fun l => pby (fun u => xmul (xel2 P i l) u) (snd (nth i (nth l M []) xnil))))))))
    (fun n M r => let y := xl_cho_solve xl n (values M) (map bval r) in
       tab n (fun i => (xel y i, psum (tab n (fun a =>
         let v := fun u => xmul (xel (xl_cho_solve xl n (values M) (fins (unit_vec n a))) i) u in
         pplus (pby v (snd (nth a r xnil))) (psum (map2 (fun m yb => pby (fun u => xneg (xmul (v u) yb)) (snd m)) (nth a M []) y))))))).
