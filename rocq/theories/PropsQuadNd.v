(** * C155: quadratures between arrays of bounds *)
From Coq Require Import Reals Lra Lia ZArith String List.
From Coquelicot Require Import Coquelicot.
From Verif Require Import Np NpLemmas Interp Integrate IntegrateSpec SimpsProofs Nd NdSpec NdProofs QuadNd QuadNdProofs ExQuadNd.
Import ListNotations.
Local Open Scope R_scope.

(** C155  simps between arrays of bounds that broadcast to shape s gives, at every index, the Simpson sum between the two bounds met there *)
Theorem C155_simps : forall f F, (forall x, elementwise f x (F x)) -> forall a b s, bshape (shp a) (shp b) = Some s ->
  forall N, Nat.even N = true -> (2 <= N)%nat ->
  exists r, simps_nd F a b N = Ok r /\ shp r = s /\ forall i, inside s i -> get r i = simpson f (get a (bidx (shp a) i)) (get b (bidx (shp b) i)) N.
Proof. exact simps_bounds. Qed.
Print Assumptions C155_simps.
(** so polynomials of degree three are integrated exactly between all bounds at once *)
Theorem C155_simps_exact : forall f F, (forall x, elementwise f x (F x)) -> forall a b s, bshape (shp a) (shp b) = Some s ->
  forall c N, f = poly c 3 -> Nat.even N = true -> (2 <= N)%nat ->
  exists r, simps_nd F a b N = Ok r /\ shp r = s /\ forall i, inside s i -> get r i = RInt (poly c 3) (get a (bidx (shp a) i)) (get b (bidx (shp b) i)).
Proof. exact simps_bounds_exact. Qed.
Print Assumptions C155_simps_exact.
Example C155_case : (forall x, elementwise (poly (fun _ => 1) 3) x (uop1 (poly (fun _ => 1) 3) x)) /\
  bshape (shp (num0 0)) (shp (vec [1; 2])) = Some [2%nat] /\ bshape (shp tall) (shp (vec [1; 2])) = Some [3%nat; 2%nat] /\ Nat.even 128 = true /\ (2 <= 128)%nat.
Proof. exact simps_case. Qed.
(** romb raises on every array of bounds, whatever follows the first pass of its loop; see C153 for numbers *)
Theorem C155_romb_raises : forall f F, (forall x, elementwise f x (F x)) -> forall a b s, bshape (shp a) (shp b) = Some s ->
  forall d rest, s <> [] -> (1 <= d)%nat -> romb_nd F a b d rest = Err TypeError.
Proof. exact romb_bounds. Qed.
Print Assumptions C155_romb_raises.
Example C155_case_romb : bshape (shp (num0 0)) (shp (vec [1; 2])) = Some [2%nat] /\ [2%nat] <> [] /\
  exists r, romb_nd (uop1 (fun x => x)) (num0 0) (num0 1) 1 (fun _ n => Ok n) = Ok r /\ shp r = [2%nat].
Proof. exact romb_case. Qed.
(** so the claim for romb is false, already for vectors of one entry *)
Theorem C155_romb_refuted : exists f F a b, (forall x, elementwise f x (F x)) /\ shp a = [1%nat] /\ shp b = [1%nat] /\
  forall d rest, (1 <= d)%nat -> ~ exists r, romb_nd F a b d rest = Ok r.
Proof. exact romb_refuted. Qed.
Print Assumptions C155_romb_refuted.
