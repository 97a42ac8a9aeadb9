(** * Specification: derivatives of arrays of results, and the epochs a Limber integral visits *)
From Coquelicot Require Import Coquelicot.
From Verif Require Import Np Core BgSpec Background Redshift Probes GradSpec Ad AdSpec.

(** jax.jvp of a function of the line parameter that returns a two-dimensional array or raises: [G], run on dual numbers,
    raises the same exception, or returns an array of the same shape holding every value and its derivative *)
Definition jvp_rows (F : R -> res (list (list R))) (G : res (list (list dual))) : Prop :=
  match G with
  | Err e => forall t, F t = Err e
  | Ok M => exists V, (forall t, F t = Ok (V t)) /\ (forall t, length (V t) = length M) /\
      (forall t i, length (nth i (V t) []) = length (nth i M [])) /\
      forall i j, tangent_of (fun t => nth j (nth i (V t) []) 0) 0 (nth j (nth i M []) (0, 0))
  end.
(** the transfer function follows the curves through c that start along d, with a wave number that moves as well *)
Definition transfer_moves (T : cosmology -> R -> R) (GT : gcosmo dual -> dual -> dual) (c : cosmology) (d : direction) : Prop :=
  forall k kd, tangent_of k 0 kd -> 0 < k 0 -> tangent_of (fun s => T (displaced c d s) (k s)) 0 (GT (dual_cosmo c d) kd).
(** the same for a spectrum at epoch a *)
Definition spectrum_moves (F : cosmology -> R -> R -> R) (G : gcosmo dual -> dual -> dual -> dual) (c : cosmology) (d : direction) (a : R) : Prop :=
  forall k kd, tangent_of k 0 kd -> 0 < k 0 -> tangent_of (fun s => F (displaced c d s) (k s) a) 0 (G (dual_cosmo c d) kd (a, 0)).

(** depth of a set of redshift bins *)
Definition deepest (bins : list nz) (zm : R) : Prop := (exists d, In d bins /\ nz_zmax d = zm) /\ forall d, In d bins -> nz_zmax d <= zm.
(** the 513 epochs of the Limber integral *)
Definition limber_epoch (probes : list probe) (b : R) : Prop :=
  exists zm i, deepest (concat (map bins_of probes)) zm /\ (i <= 512)%nat /\ b = 1 / (1 + zm) + INR i * ((1 - 1 / (1 + zm)) / 512).
(** the epochs of the sources seen by a lens at redshift z: the 257 nodes of the lensing efficiency, and the delta sources *)
Definition source_epoch (bins : list nz) (z a : R) : Prop :=
  (exists zm i, deepest bins zm /\ (i <= 256)%nat /\ a = 1 / (1 + (z + INR i * ((zm - z) / 256)))) \/
  (exists d z0, In d bins /\ nz_fam d = Delta z0 /\ a = 1 / (1 + z0)).
Definition lensing_bins (p : probe) : list nz := match p with PWL q => wl_bins q | PNC _ => [] end.
(** inside the table of growth factors, up to z = 945 or so *)
Definition tabulated (z : R) : Prop := 0 <= z /\ table_node 128 1 <= 1 / (1 + z).
(** all redshifts of the bins are tabulated *)
Definition shallow (bins : list nz) : Prop :=
  forall d, In d bins -> tabulated (nz_zmax d) /\ forall z0, nz_fam d = Delta z0 -> tabulated z0.
(** nothing visited is at exactly 1 Mpc/h, where the code clips distances *)
Definition off_clip (chi : cosmology -> R -> R) (c : cosmology) (probes : list probe) : Prop :=
  forall b, limber_epoch probes b -> chi c b <> 1 /\ forall p a, In p probes -> source_epoch (lensing_bins p) (1 / b - 1) a -> chi c a <> 1.
