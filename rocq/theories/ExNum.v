(** * Concrete cases for the numerical routines *)
From Coquelicot Require Import Coquelicot.
From Verif Require Import Np NpLemmas Interp Integrate IntegrateSpec Ode OdeSpec OdeProofs SimpsProofs RombProofs NumFinal.

Lemma simps_case : simps (poly INR 3) 0 2 4 = Ok (58 / 3).
Proof.
  rewrite simps_exact by (reflexivity || lia). f_equal. rewrite poly_int_RInt. unfold poly_int. simpl. field.
Qed.
Lemma simps_algebra_case : Nat.even 256 = true /\ (2 <= 256)%nat /\ Nat.odd 255 = true /\ forall t, 0 <= t <= 1 -> 0 <= t ^ 2.
Proof. split; [ reflexivity | split; [ lia | split; [ reflexivity | intros; apply pow2_ge_0 ]]]. Qed.
Lemma romb_case : romb (fun x => x ^ 2) 0 1 1 = Ok (1 / 3, 1 / 6).
Proof.
  rewrite romb_value by lia. unfold romberg, trapezoid, node. simpl.
  rewrite Rabs_right by lra. do 2 f_equal; field.
Qed.
Lemma romb_exact_case : (1 <= 2)%nat /\ (5 <= 2 * 2 + 1)%nat /\ RInt (poly (fun k => INR k) 5) 0 1 = 71 / 20.
Proof. split; [ lia | split; [ lia | ]]. rewrite poly_int_RInt. unfold poly_int. simpl. field. Qed.
Lemma odeint_case : el (odeint1 (fun y _ => y) 1 [0; 1]) 1 = 65 / 24.
Proof.
  destruct (odeint1_spec (fun y _ => y) 1 [0; 1]) as (_ & H0 & HS); [ discriminate | ].
  change 1%nat with (0 + 1)%nat at 1. rewrite (HS 0%nat) by (simpl; lia). rewrite H0. unfold rk4_num, el; simpl. field.
Qed.
