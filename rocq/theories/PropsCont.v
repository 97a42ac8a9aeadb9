(** * Property theorems C109-C112: continuity of table lookups, of the inverse distance and of the halofit scale; halofit over extended numbers *)
From Coq Require Import Reals List String.
From Coquelicot Require Import Coquelicot.
From Verif Require Import Np NpLemmas Core Interp OdeSpec InterpProofs InterpCont Background BgSpec BgFinal BgFinal4 Transfer Power HalofitScaleSpec SparseX HalofitX HalofitXProofs ContFinal.
Import ListNotations.
Local Open Scope R_scope.


(** C109  lookups on increasing grids and the background functions are continuous *)
Theorem C109_lipschitz : forall xp fp L,
  (3 <= length xp)%nat -> length fp = length xp -> incr xp ->
  (forall k, (1 <= k)%nat -> (k + 1 < length xp)%nat ->
     Rabs (el fp (k + 1) - el fp k) <= L * (el xp (k + 1) - el xp k)) ->
  forall x y, Rabs (interp1 y xp fp - interp1 x xp fp) <= L * Rabs (y - x).
Proof. exact interp1_lipschitz. Qed.
Print Assumptions C109_lipschitz.
Theorem C109_background : forall c,
  reachable c -> forall a,
  continuity_pt (chi c) a /\ continuity_pt (f_k c) a /\
  continuity_pt (fun q => el (fst (angular_diameter_distance c (Scalar q))) 0) a /\
  continuity_pt (D c) a /\ (_gamma_growth c = false -> continuity_pt (f_growth c) a).
Proof. exact background_continuous. Qed.
Print Assumptions C109_background.
Example C109_case : (3 <= List.length [1; 2; 4])%nat /\ List.length [0; 1; 3] = List.length [1; 2; 4] /\ incr [1; 2; 4] /\
  (forall k, (1 <= k)%nat -> (k + 1 < List.length [1; 2; 4])%nat -> Rabs (el [0; 1; 3] (k + 1) - el [0; 1; 3] k) <= 1 * (el [1; 2; 4] (k + 1) - el [1; 2; 4] k)) /\
  reachable Planck15 /\ _gamma_growth Planck15 = false.
Proof. exact ex_C109. Qed.


(** C110  the inverse distance a_of_chi is continuous: false, it jumps half way between table nodes *)
Theorem C110_continuous_partial : forall c x,
  reachable c -> expanding c ->
  let X := fun k => chi c (table_node 256 k) in
  x <= X 1%nat -> (forall i, (1 <= i)%nat -> (i + 1 < 256)%nat -> x <> (X i + X (i + 1)%nat) / 2) ->
  continuity_pt (fun x => el (fst (a_of_chi c (Scalar x))) 0) x.
Proof. exact inverse_continuous_between. Qed.
Print Assumptions C110_continuous_partial.
Theorem C110_jumps : forall c i,
  reachable c -> expanding c -> (2 <= i)%nat -> (i + 1 < 254)%nat ->
  let a := table_node 256 in let X := fun k => chi c (a k) in
  let slope := fun k => (a (k + 1)%nat - a k) / (X (k + 1)%nat - X k) in
  continuity_pt (fun x => el (fst (a_of_chi c (Scalar x))) 0) ((X i + X (i + 1)%nat) / 2) <-> slope i = slope (i - 1)%nat.
Proof. exact inverse_jumps. Qed.
Print Assumptions C110_jumps.
Theorem C110_continuity_refuted : exists c x, fresh c /\ expanding c /\ chi c (table_node 256 3) < x < chi c (table_node 256 2) /\
  ~ continuity_pt (fun x => el (fst (a_of_chi c (Scalar x))) 0) x.
Proof. exact inverse_discontinuous. Qed.
Print Assumptions C110_continuity_refuted.
Example C110_case : reachable Planck15 /\ expanding Planck15.
Proof. exact ex_C110. Qed.


(** C111  the non-linear scale of halofit is continuous in sigma8: false *)
Theorem C111_jumps : forall Oc Ob h ns Ok_ w0 wa gam a T i,
  let C := fun s => make_cosmology Oc Ob h ns s Ok_ w0 wa gam in
  (forall s k, T (C s) k = T (C 1) k) -> sigmasqr_default (C 1) 8.0 T <> 0 -> T (C 1) (1 / 10000) <> 0 ->
  D (C 1) a <> 0 -> D (C 1) 1 <> 0 -> (1 <= i)%nat -> (i + 1 < 254)%nat ->
  let v := fun j => smoothed_variance (fun k => linear_matter_power (C 1) k 1 T) (D (C 1) a) (search_radius j) in
  0 < v (i + 1)%nat < v i /\
  (continuity_pt (fun s => fst (fst (halofit_parameters (C s) a T))) (/ sqrt ((v i + v (i + 1)%nat) / 2)) <->
   v (i - 1)%nat - v i = v i - v (i + 1)%nat).
Proof. exact halofit_scale_jumps. Qed.
Print Assumptions C111_jumps.
Theorem C111_cutoff : forall Oc Ob h ns Ok_ w0 wa gam a T,
  let C := fun s => make_cosmology Oc Ob h ns s Ok_ w0 wa gam in
  (forall s k, T (C s) k = T (C 1) k) -> sigmasqr_default (C 1) 8.0 T <> 0 -> T (C 1) (1 / 10000) <> 0 ->
  D (C 1) a <> 0 -> D (C 1) 1 <> 0 -> (forall k, 5000 < k -> T (C 1) k = 0) ->
  exists s, 0 < s /\ ~ continuity_pt (fun s => fst (fst (halofit_parameters (C s) a T))) s.
Proof. exact halofit_scale_cutoff. Qed.
Print Assumptions C111_cutoff.
Theorem C111_continuity_refuted : exists T s, 0 < s /\ (forall c d k, T c k = T d k) /\ (forall k, 0 < k <= 5000 -> T Planck15 k = 1) /\
  ~ continuity_pt (fun s => fst (fst (halofit_parameters (planck_s s) 1 T))) s.
Proof. exact halofit_scale_discontinuous. Qed.
Print Assumptions C111_continuity_refuted.
Example C111_case : (forall s k, cutoff_T (planck_s s) k = cutoff_T (planck_s 1) k) /\ sigmasqr_default (planck_s 1) 8.0 cutoff_T <> 0 /\
  cutoff_T (planck_s 1) (1 / 10000) <> 0 /\ D (planck_s 1) 1 <> 0 /\ (forall k, 5000 < k -> cutoff_T (planck_s 1) k = 0) /\
  (forall s k, eisenhu (planck_s s) k = eisenhu (planck_s 1) k) /\ sigmasqr_default (planck_s 1) 8.0 eisenhu <> 0 /\ eisenhu (planck_s 1) (1 / 10000) <> 0.
Proof. exact ex_C111. Qed.


(** C112  halofit returns a finite positive number: false for smith2003 where the matter fraction is one *)
Theorem C112_takahashi : forall c k a T,
  0 < k -> 0 <= linear_matter_power c k a T -> 0 < Omega_m_a c a ->
  exists p, xhalofit c k a T "takahashi2012" = Ok (Fin p) /\ halofit c k a T "takahashi2012" = Ok p /\ 0 < p.
Proof. exact xhalofit_takahashi. Qed.
Print Assumptions C112_takahashi.
Theorem C112_smith_partial : forall c k a T,
  0 < k -> 0 <= linear_matter_power c k a T -> 0 < Omega_m_a c a < 1 -> 0 <= Omega_de_a c a <= 1 - Omega_m_a c a ->
  (let n := snd (fst (halofit_parameters c a T)) in
   -1 < (1.3884 + 0.3700 * n - 0.1452 * n ^ 2) * (k ^ 3 * linear_matter_power c k a T / (2 * PI ^ 2))) ->
  exists p, xhalofit c k a T "smith2003" = Ok (Fin p) /\ halofit c k a T "smith2003" = Ok p /\ 0 < p.
Proof. exact xhalofit_smith. Qed.
Print Assumptions C112_smith_partial.
Theorem C112_matter_only : forall c k a T,
  0 < k -> Omega_m_a c a = 1 -> k <> fst (fst (halofit_parameters c a T)) ->
  xhalofit c k a T "smith2003" = Ok NaN.
Proof. exact smith_nan. Qed.
Print Assumptions C112_matter_only.
Theorem C112_finite_refuted : exists c a T, reachable c /\ einstein_de_sitter c /\ 0 < a <= 1 /\ (forall k, 0 < k -> T c k = 1) /\
  forall k, 0 < k -> k <> fst (fst (halofit_parameters c a T)) -> xhalofit c k a T "smith2003" = Ok NaN.
Proof. exact smith_not_finite. Qed.
Print Assumptions C112_finite_refuted.
Example C112_case : forall k, 0 < k -> (0 <= linear_matter_power Planck15 k 1 eisenhu /\ 0 < Omega_m_a Planck15 1) /\
  exists s, 0 < s /\ 0 <= linear_matter_power (planck_s s) k 1 eisenhu /\ 0 < Omega_m_a (planck_s s) 1 < 1 /\
  0 <= Omega_de_a (planck_s s) 1 <= 1 - Omega_m_a (planck_s s) 1 /\
  (let n := snd (fst (halofit_parameters (planck_s s) 1 eisenhu)) in
   -1 < (1.3884 + 0.3700 * n - 0.1452 * n ^ 2) * (k ^ 3 * linear_matter_power (planck_s s) k 1 eisenhu / (2 * PI ^ 2))).
Proof. exact ex_C112. Qed.
