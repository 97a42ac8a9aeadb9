(** * Concrete cases for the pytree theorems *)
From Verif Require Import Np Redshift Bias Probes Pytree PytreeSpec PytreeProofs PytreeFinal.
Open Scope string_scope.

(** a Smail distribution and a shifted one, built by their constructors; a NumberCounts probe on them *)
Definition smail_ex : val := nz_init Smail_nz [VNum 1; VNum 2; VNum 0.5] [("gals_per_arcmin2", VNum 10); ("zmax", VNum 3)].
Definition shift_ex : val := nz_init Systematic_shift [after_call smail_ex 0.7; VNum 0.01] [("zmax", VNum 4)].
Lemma smail_made : made smail_ex.
Proof. apply (made_new Smail_nz [VNum 1; VNum 2; VNum 0.5] [("gals_per_arcmin2", VNum 10); ("zmax", VNum 3)]); [ discriminate | repeat constructor | repeat constructor | reflexivity ]. Qed.
Lemma shift_made : made shift_ex.
Proof.
  apply (made_new Systematic_shift [after_call smail_ex 0.7; VNum 0.01] [("zmax", VNum 4)]); [ discriminate | | repeat constructor | reflexivity ].
  constructor; [ apply made_called, smail_made | repeat constructor ].
Qed.
Definition nc_val_ex : val := VObj NumberCounts [VList [smail_ex; shift_ex]; VObj Constant_linear_bias [VNum 1.5] [] VNone VNone] [("has_rsd", VBool true)] VNone VNone.
Example ex_C29 : made nc_val_ex.
Proof.
  apply (made_new NumberCounts [VList [smail_ex; shift_ex]; VObj Constant_linear_bias [VNum 1.5] [] VNone VNone] [("has_rsd", VBool true)]); [ discriminate | | repeat constructor | reflexivity ].
  constructor; [ apply made_list; constructor; [ exact smail_made | constructor; [ exact shift_made | constructor ]] | constructor; [ | constructor ]].
  apply (made_new Constant_linear_bias [VNum 1.5] []); [ discriminate | repeat constructor | repeat constructor | reflexivity ].
Qed.
Definition bins_ex : val := VList [smail_ex; shift_ex].
Lemma bins_made : made bins_ex.
Proof. apply made_list. constructor; [ exact smail_made | constructor; [ exact shift_made | constructor ]]. Qed.
Example ex_C30 : made bins_ex /\ made (VNum 0.1) /\ VNum 0.1 <> VNone.
Proof. split; [ exact bins_made | split; [ constructor | discriminate ]]. Qed.
Lemma wl_refuted : exists bins m v v', made bins /\ construct WeakLensing [bins] [("multiplicative_bias", VNum m)] = Ok v /\ roundtrip v = Ok v' /\
  match v, v' with
  | VObj WeakLensing (_ :: VNum a :: _) _ _ _, VObj WeakLensing (_ :: VNum b :: _) _ _ _ => a = m /\ b = 0.0 /\ a <> b
  | _, _ => False end.
Proof.
  destruct (wl_loses_m bins_ex (VNum 0.1) bins_made ltac:(constructor) ltac:(discriminate)) as (cfg & b' & m' & E & Rt & _).
  exists bins_ex, 0.1, (VObj WeakLensing [bins_ex; VNum 0.1] cfg VNone VNone), (VObj WeakLensing [b'; VNum 0.0; m'] cfg VNone VNone).
  split; [ exact bins_made | split; [ exact E | split; [ exact Rt | ]]]. split; [ reflexivity | split; [ reflexivity | lra ]].
Qed.
