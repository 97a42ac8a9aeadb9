(** * Property theorems C29 and C30 (jax_utils.py, bias.py, redshift.py, probes.py as pytrees) *)
From Verif Require Import Np Redshift Bias Probes Pytree PytreeSpec PytreeProofs PytreeFinal ExPytree.

(** C29: any number of round trips of anything built without WeakLensing *)
Theorem C29_roundtrip : forall v n,
  made v -> exists w, roundtrip_n n v = Ok w /\ same v w.
Proof. exact roundtrip_same. Qed.
Print Assumptions C29_roundtrip.
Theorem C29_fields : forall c ps cfg g n m,
  made (VObj c ps cfg g n) -> exists ps' g' n', roundtrip_n m (VObj c ps cfg g n) = Ok (VObj c ps' cfg g' n') /\ Forall2 same ps ps' /\ same g g'.
Proof. exact roundtrip_fields. Qed.
Print Assumptions C29_fields.
Theorem C29_distributions : forall d,
  roundtrip (val_of_nz d) = Ok (val_of_nz (nz_jit d)).
Proof. exact roundtrip_nz. Qed.
Print Assumptions C29_distributions.
Theorem C29_biases : forall b,
  roundtrip (val_of_bias b) = Ok (val_of_bias b).
Proof. exact roundtrip_bias. Qed.
Print Assumptions C29_biases.
(** what a round trip is: flatten, round trip of the children, unflatten with the auxiliary data *)
Theorem C29_flatten_unflatten : forall v, roundtrip v = match v with
  | VTuple l => bind (roundtrips l) (fun l' => Ok (VTuple l'))
  | VList l => bind (roundtrips l) (fun l' => Ok (VList l'))
  | VObj c params config gals _ =>
      bind (roundtrips (fst (flatten c params config gals))) (unflatten c (snd (flatten c params config gals)))
  | _ => Ok v end.
Proof. exact roundtrip_eq. Qed.
Print Assumptions C29_flatten_unflatten.
Example C29_case : made nc_val_ex.
Proof. exact ex_C29. Qed.

(** C30: false; the constructor takes (bins, ia_bias, m) but stores (bins, m, ia_bias) *)
Theorem C30_weak_lensing_refuted : exists bins m v v', made bins /\ construct WeakLensing [bins] [("multiplicative_bias", VNum m)] = Ok v /\ roundtrip v = Ok v' /\
  match v, v' with
  | VObj WeakLensing (_ :: VNum a :: _) _ _ _, VObj WeakLensing (_ :: VNum b :: _) _ _ _ => a = m /\ b = 0.0 /\ a <> b
  | _, _ => False end.
Proof. exact wl_refuted. Qed.
Print Assumptions C30_weak_lensing_refuted.
Theorem C30_multiplicative_bias_lost : forall bins m,
  made bins -> made m -> m <> VNone ->
  exists cfg bins' m', construct WeakLensing [bins] [("multiplicative_bias"%string, m)] = Ok (VObj WeakLensing [bins; m] cfg VNone VNone) /\
    roundtrip (VObj WeakLensing [bins; m] cfg VNone VNone) = Ok (VObj WeakLensing [bins'; VNum 0.0; m'] cfg VNone VNone) /\ same bins bins' /\ same m m'.
Proof. exact wl_loses_m. Qed.
Print Assumptions C30_multiplicative_bias_lost.
Theorem C30_biases_exchanged : forall bins m b,
  made bins -> made m -> m <> VNone -> made b -> b <> VNone ->
  exists cfg bins' m' b', construct WeakLensing [bins; b; m] [] = Ok (VObj WeakLensing [bins; m; b] cfg VNone VNone) /\
    roundtrip (VObj WeakLensing [bins; m; b] cfg VNone VNone) = Ok (VObj WeakLensing [bins'; b'; m'] cfg VNone VNone) /\ same bins bins' /\ same m m' /\ same b b'.
Proof. exact wl_swaps. Qed.
Print Assumptions C30_biases_exchanged.
Theorem C30_even_trips : forall bins m,
  made bins -> made m -> m <> VNone ->
  exists cfg bins' m', construct WeakLensing [bins] [("multiplicative_bias"%string, m)] = Ok (VObj WeakLensing [bins; m] cfg VNone VNone) /\
    roundtrip_n 2 (VObj WeakLensing [bins; m] cfg VNone VNone) = Ok (VObj WeakLensing [bins'; m'; VNum 0.0] cfg VNone VNone) /\ same bins bins' /\ same m m'.
Proof. exact wl_twice. Qed.
Print Assumptions C30_even_trips.
(** what does hold: class, configuration and redshift bins survive *)
Theorem C30_bins_and_config_partial : forall args kw v,
  Forall made args -> Forall (fun p => made (snd p)) kw -> construct WeakLensing args kw = Ok v ->
  exists bins ps ps' cfg, v = VObj WeakLensing (bins :: ps) cfg VNone VNone /\
    exists bins', roundtrip v = Ok (VObj WeakLensing (bins' :: ps') cfg VNone VNone) /\ same bins bins'.
Proof. exact wl_survives. Qed.
Print Assumptions C30_bins_and_config_partial.
Example C30_case : made bins_ex /\ made (VNum 0.1) /\ VNum 0.1 <> VNone.
Proof. exact ex_C30. Qed.
