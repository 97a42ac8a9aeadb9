(** * Specification: gradients without infinities and NaN *)
From Coquelicot Require Import Coquelicot.
From Verif Require Import Np Core Background BgSpec Redshift Bias Probes GradSpec SparseX Ad AdSpec AdNan AdNuis AdNuisSpec AdNanSpec.

(** x is an ordinary number that holds the value of f at 0, and its tangent is the derivative of f *)
Definition carries (f : R -> R) (x : xdual) : Prop := finite x /\ x_val x = f 0 /\ is_derive f 0 (x_tan x).
(** the cosmology with these parameters, at time t *)
Definition cosmo_at (t : R) (g : gcosmo xdual) : cosmology :=
  make_cosmology (moving t (gOmega_c g)) (moving t (gOmega_b g)) (moving t (gh g)) (moving t (gn_s g)) (moving t (gsigma8 g)) (moving t (gOmega_k g))
    (moving t (gw0 g)) (moving t (gwa g)) (option_map (moving t) (ggamma g)).
Definition finite_cosmo (g : gcosmo xdual) : Prop :=
  finite (gOmega_c g) /\ finite (gOmega_b g) /\ finite (gh g) /\ finite (gn_s g) /\ finite (gsigma8 g) /\ finite (gOmega_k g) /\ finite (gw0 g) /\ finite (gwa g) /\
  match ggamma g with Some v => finite v | None => True end.

(** the parameters of a survey as pairs of a value and a tangent *)
Definition plain (x : xdual) : dual := (x_val x, x_tan x).
Fixpoint plain_nz (d : gnz xdual) : gnz dual := match d with GNz f g zm => GNz (plain_fam f) (plain g) zm end
with plain_fam (f : gfam xdual) : gfam dual :=
  match f with
  | GSmail a b z0 => GSmail (plain a) (plain b) (plain z0)
  | GDelta z0 => GDelta (plain z0)
  | GKde zcat wt bw => GKde (map plain zcat) (map plain wt) bw
  | GShift p b => GShift (plain_nz p) (plain b)
  end.
Definition plain_bias (b : gbias xdual) : gbias dual :=
  match b with
  | gconstant_linear_bias b => gconstant_linear_bias (plain b)
  | ginverse_growth_linear_bias b => ginverse_growth_linear_bias (plain b)
  | gdes_y1_ia_bias am eta z0 => gdes_y1_ia_bias (plain am) (plain eta) (plain z0)
  end.
Definition plain_bias_arg (b : gbias_arg xdual) : gbias_arg dual := match b with GOneBias b => GOneBias (plain_bias b) | GBiasList l => GBiasList (map plain_bias l) end.
Definition plain_m (m : gm_arg xdual) : gm_arg dual := match m with GMScalar x => GMScalar (plain x) | GMList l => GMList (map plain l) end.
Definition plain_probe (p : gprobe xdual) : gprobe dual :=
  match p with
  | GPWL q => GPWL (GWL (map plain_nz (gwl_bins q)) (plain_m (gwl_m q)) (option_map plain_bias_arg (gwl_ia q)) (gwl_sigma_e q))
  | GPNC q => GPNC (GNC (map plain_nz (gnc_bins q)) (plain_bias_arg (gnc_bias q)))
  end.
(** all of them finite *)
Definition finite_bias (b : gbias xdual) : Prop :=
  match b with gconstant_linear_bias b => finite b | ginverse_growth_linear_bias b => finite b | gdes_y1_ia_bias am eta z0 => finite am /\ finite eta /\ finite z0 end.
Definition finite_bias_arg (b : gbias_arg xdual) : Prop := match b with GOneBias b => finite_bias b | GBiasList l => forall b, In b l -> finite_bias b end.
Definition finite_m (m : gm_arg xdual) : Prop := match m with GMScalar x => finite x | GMList l => forall x, In x l -> finite x end.
Definition finite_probe (p : gprobe xdual) : Prop :=
  (forall d, In d (gbins_of p) -> finite_nz d) /\
  match p with
  | GPWL q => finite_m (gwl_m q) /\ match gwl_ia q with Some b => finite_bias_arg b | None => True end
  | GPNC q => finite_bias_arg (gnc_bias q)
  end.
(** the probes at time t *)
Definition probes_at (t : R) (S : list (gprobe xdual)) : list probe := map (read_probe (moving t)) S.

(** a program that returns a number or raises *)
Definition number_carried (F : R -> res R) (G : res xdual) : Prop :=
  match G with Err e => forall t, F t = Err e | Ok x => exists f, (forall t, F t = Ok (f t)) /\ carries f x end.
(** a program that returns an array or raises *)
Definition rows_carried (F : R -> res (list (list R))) (G : res (list (list xdual))) : Prop :=
  match G with
  | Err e => forall t, F t = Err e
  | Ok M => exists V, (forall t, F t = Ok (V t)) /\ (forall t, length (V t) = length M) /\
      (forall t i, length (nth i (V t) []) = length (nth i M [])) /\
      forall i j, carries (fun t => nth j (nth i (V t) []) 0) (nth j (nth i M []) (still 0))
  end.
(** a transfer function at every wave number *)
Definition transfer_carried (T : cosmology -> R -> R) (GT : gcosmo xdual -> xdual -> xdual) (g : gcosmo xdual) : Prop :=
  forall k kd, carries k kd -> 0 < k 0 -> carries (fun t => T (cosmo_at t g) (k t)) (GT g kd).
(** a spectrum at epoch a *)
Definition spectrum_carried (F : cosmology -> R -> R -> R) (G : gcosmo xdual -> xdual -> xdual -> xdual) (g : gcosmo xdual) (a : R) : Prop :=
  forall k kd, carries k kd -> 0 < k 0 -> carries (fun t => F (cosmo_at t g) (k t) a) (G g kd (still a)).
(** a query that is not differentiated, or one between the nodes of the table of n values *)
Definition off_table (n : nat) (a : R -> R) : Prop := (forall t, a t = a 0) \/ forall i, (2 <= i <= n - 2)%nat -> a 0 <> table_node n i.
