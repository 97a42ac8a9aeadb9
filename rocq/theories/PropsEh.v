(** * Property theorems C117: the transfer function is the published one *)
From Coq Require Import Reals List String.
From Verif Require Import Np Core Transfer BgGrowth TransferProofs EhSpec EhProofs.
Import ListNotations.
Local Open Scope R_scope.
Local Open Scope string_scope.


(** C117  Eisenstein & Hu (1998) in physical units *)
Theorem C117_wiggles : forall c k, dense c -> 0 < _Omega_c c -> 0 < k ->
  Eisenstein_Hu c k "eisenhu_osc" = Ok (EH_T (Omega_m c * _h c ^ 2) (Omega_b c * _h c ^ 2) (const_tcmb / 2.7) (k * _h c)).
Proof. exact published_osc. Qed.
Print Assumptions C117_wiggles.
Theorem C117_no_wiggles : forall c k, dense c ->
  Eisenstein_Hu c k "eisenhu" = Ok (EH_T_nowiggle (Omega_m c * _h c ^ 2) (Omega_b c * _h c ^ 2) (const_tcmb / 2.7) (k * _h c)).
Proof. exact published_nowiggle. Qed.
Print Assumptions C117_no_wiggles.
Theorem C117_physical_densities : forall c d k k' type, dense c -> dense d -> 0 < _Omega_c c -> 0 < _Omega_c d -> 0 < k -> 0 < k' ->
  Omega_m c * _h c ^ 2 = Omega_m d * _h d ^ 2 -> Omega_b c * _h c ^ 2 = Omega_b d * _h d ^ 2 -> k * _h c = k' * _h d ->
  Eisenstein_Hu c k type = Eisenstein_Hu d k' type.
Proof. exact physical_only. Qed.
Print Assumptions C117_physical_densities.
Example C117_case : dense Planck15 /\ 0 < _Omega_c Planck15 /\ dense planck_h1 /\ 0 < _Omega_c planck_h1 /\
  Omega_m Planck15 * _h Planck15 ^ 2 = Omega_m planck_h1 * _h planck_h1 ^ 2 /\ Omega_b Planck15 * _h Planck15 ^ 2 = Omega_b planck_h1 * _h planck_h1 ^ 2 /\
  0.1 * _h Planck15 = (0.1 * _h Planck15) * _h planck_h1.
Proof. exact ex_eh. Qed.
