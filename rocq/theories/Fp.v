(** * Distances and sums in rounded arithmetic: the programs

    Ad.v transcribes the code over an arbitrary type of numbers but computes the grids of times and redshifts exactly.
    Here the grid arithmetic of ode.py and integrate.py is done in the arithmetic of the results as well, in the order
    in which the code writes it, except for np.sum, whose order of additions is not specified. *)
From Coq Require Import Permutation.
From Verif Require Import Np Core Ode Integrate Background Ad.

Section Programs.
Context {A : Type} (N : num A).
Local Infix "+" := (nadd N) : ad_scope.
Local Infix "-" := (nsub N) : ad_scope.
Local Infix "*" := (nmul N) : ad_scope.
Local Infix "/" := (ndiv N) : ad_scope.
Local Notation "' x" := (cst N x%R) (at level 1, format "' x") : ad_scope.
Local Open Scope ad_scope.

(** ode.py 11-19 (rk4); 1.0 / 6.0 is a Python float, converted once *)
Definition frk4 (fn : A -> A -> A) (carry : A * A) (t : A) : (A * A) * A :=
  let (y, t_prev) := carry in
  let h := t - t_prev in
  let k1 := fn y t_prev in
  let k2 := fn (y + h * k1 / '2) (t_prev + h / '2) in
  let k3 := fn (y + h * k2 / '2) (t_prev + h / '2) in
  let k4 := fn (y + h * k3) t in
  let y := y + '(1.0 / 6.0) * h * (k1 + '2 * k2 + '2 * k3 + k4) in
  ((y, t), y).
(** ode.py 6-22 (odeint) *)
Definition fodeint (fn : A -> A -> A) (y0 : A) (t : list A) : list A := snd (scan (frk4 fn) (y0, nth 0 t '0) t).
(** background.py 227-235: the table of distances, from the array np.log(atab) *)
Definition fdchioverdlna (c : gcosmo A) (y x : A) : A := let xa := nexp N x in gdchioverda N c xa * xa.
Definition fchitab (c : gcosmo A) (t : list A) : list A :=
  let chitab := fodeint (fdchioverdlna c) '0.0 t in map (fun x => glast N chitab - x) chitab.

(** np.sum of l in some order: additions along a binary tree of depth k over the elements of l in any order (XLA starts
    from zero and does not say how it associates) *)
Inductive summed : nat -> list A -> A -> Prop :=
| sum_none : summed 0 [] '0
| sum_one x : summed 0 [x] x
| sum_node k1 k2 l1 l2 l x1 x2 : summed k1 l1 x1 -> summed k2 l2 x2 -> Permutation l (l1 ++ l2) ->
    summed (S (Nat.max k1 k2)) l (x1 + x2).

(** integrate.py 194-200 (simps), from the samples y = f(np.linspace(a, b, n + 1)) *)
Definition fterms (y : list A) : list A :=
  map2 (nadd N) (map2 (nadd N) (evens (removelast y)) (map (nmul N '4) (odds y))) (evens (skipn 2 y)).
Definition fsimps (k : nat) (y : list A) (a b : A) (n : nat) (s : A) : Prop :=
  exists x, summed k (fterms y) x /\ s = (b - a) / '(INR n) / '3 * x.
End Programs.

(** interpolate.py 16-40 (interp) for one query: the nearest node by rounded squared distances (d ** 2 is lowered to
    d * d), the side by the sign of a rounded difference, then the line.  Comparisons, sign, clip and indexing are exact. *)
Definition finterp1 (N : num R) (x : R) (xp fp : list R) : R :=
  let ind := Z.of_nat (argmin (map (fun p => let d := nsub N x p in nmul N d d) xp)) in
  let ind := clipZ ind 1 (Z.of_nat (length xp) - 2) in
  let xi := getZ 0%R xp ind in
  let s := isign (nsub N (clip x (getZ 0%R xp 1) (getZ 0%R xp (-2))) xi) in
  let j := (ind + copysign1 s)%Z in
  let a := ndiv N (nsub N (getZ 0%R fp j) (getZ 0%R fp ind)) (nsub N (getZ 0%R xp j) (getZ 0%R xp ind)) in
  let b := nsub N (getZ 0%R fp ind) (nmul N a (getZ 0%R xp ind)) in
  nadd N (nmul N a x) b.
(** background.py 240-242: the lookup in the cached table, clipped at zero *)
Definition fdistance (N : num R) (a : R) (atab chitab : list R) : R := clip_lo (finterp1 N a atab chitab) 0%R.
