(** * Examples for C155 *)
From Coq Require Import Reals Lra Lia ZArith String List.
From Coquelicot Require Import Coquelicot.
From Verif Require Import Np NpLemmas Interp Integrate IntegrateSpec SimpsProofs Nd NdSpec NdProofs QuadNd QuadNdProofs.
Import ListNotations.
Local Open Scope R_scope.

(** a column of three lower bounds *)
Definition tall : nd := Nd [3%nat; 1%nat] (fun i => INR (hd 0%nat i)).
Lemma uop_elementwise f x : elementwise f x (uop1 f x).
Proof. split; reflexivity. Qed.
Lemma simps_case : (forall x, elementwise (poly (fun _ => 1) 3) x (uop1 (poly (fun _ => 1) 3) x)) /\
  bshape (shp (num0 0)) (shp (vec [1; 2])) = Some [2%nat] /\ bshape (shp tall) (shp (vec [1; 2])) = Some [3%nat; 2%nat] /\ Nat.even 128 = true /\ (2 <= 128)%nat.
Proof. split; [ intros; apply uop_elementwise | ]. repeat split; lia. Qed.
Lemma romb_case : bshape (shp (num0 0)) (shp (vec [1; 2])) = Some [2%nat] /\ [2%nat] <> [] /\
  exists r, romb_nd (uop1 (fun x => x)) (num0 0) (num0 1) 1 (fun _ n => Ok n) = Ok r /\ shp r = [2%nat].
Proof. split; [ reflexivity | split; [ discriminate | ] ]. eexists. split; [ reflexivity | reflexivity ]. Qed.
Lemma romb_refuted : exists f F a b, (forall x, elementwise f x (F x)) /\ shp a = [1%nat] /\ shp b = [1%nat] /\
  forall d rest, (1 <= d)%nat -> ~ exists r, romb_nd F a b d rest = Ok r.
Proof.
  exists (fun x => x), (uop1 (fun x => x)), (vec [0]), (vec [1]). split; [ intros; apply uop_elementwise | split; [ reflexivity | split; [ reflexivity | ] ] ].
  intros d rest Hd [r E]. rewrite (romb_bounds (fun x => x) (uop1 (fun x => x)) (uop_elementwise (fun x => x)) (vec [0]) (vec [1]) [1%nat] eq_refl d rest) in E by (discriminate || exact Hd). discriminate.
Qed.
