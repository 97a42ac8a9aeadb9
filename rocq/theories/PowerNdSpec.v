(** * Specification: functions of wavenumber and scale factor on arrays that broadcast *)
From Verif Require Import Np Interp Nd NdSpec.

(** the index without the axes of length 1 *)
Fixpoint without_units (s i : list nat) : list nat :=
  match s, i with
  | n :: s', k :: i' => if Nat.eqb n 1 then without_units s' i' else k :: without_units s' i'
  | _, _ => []
  end.
(** [r] holds the values [f] on the indices of shape [s], its axes of length 1 dropped *)
Definition holds_on (s : list nat) (r : nd) (f : list nat -> R) : Prop :=
  shp r = filter (fun n => negb (Nat.eqb n 1)) s /\ forall i, inside s i -> get r (without_units s i) = f i.
(** the wavenumber and the scale factor met at output index [i]: shapes are aligned on the right *)
Definition wave (k : nd) (i : list nat) : R := get k (bidx (shp k) i).
Definition epoch (a : array_like) (i : list nat) : R :=
  match a with Scalar x => x | Array1 [x] => x | Array1 v => el v (last i 0%nat) end.
(** the shape of k against a *)
Definition width (a : array_like) : nat := match a with Scalar _ => 1 | Array1 v => length v end.
Definition against (k : nd) (a : array_like) (s : list nat) : Prop := bshape (match shp k with [] => [1%nat] | t => t end) [width a] = Some s.
(** axes of length 1 come first *)
Definition units_first (s : list nat) : Prop := exists j t, s = repeat 1%nat j ++ t /\ ~ In 1%nat t.
