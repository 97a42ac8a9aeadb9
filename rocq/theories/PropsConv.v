(** * Property theorems C106-C108: convergence of odeint, of the growth functions and of the distances *)
From Coquelicot Require Import Coquelicot.
From Verif Require Import Np NpLemmas Core Interp Ode OdeSpec Background BgSpec BgFinal BgFinal4 OdeConvSpec OdeConv GrowthConvSpec GrowthConv GrowthExists Heath QuadConv GrowthFinal.


(** C106  odeint converges to the solution when the grid is refined *)
Theorem C106_converges : forall f y L a b,
  a <= b -> lipschitz f L a b -> solves f y a b ->
  (forall t, a <= t <= b -> continuity_pt (fun t => f (y t) t) t) ->
  forall eps, 0 < eps -> exists h, 0 < h /\ forall t, grid t a b h ->
    forall i, (i < length t)%nat -> Rabs (el (odeint1 f (y a) t) i - y (el t i)) < eps.
Proof. exact odeint1_converges. Qed.
Print Assumptions C106_converges.
Theorem C106_converges_pair : forall f u v L a b,
  a <= b -> lipschitz2 f L a b -> solves2 f u v a b ->
  (forall t, a <= t <= b -> continuity_pt (fun t => fst (f (u t, v t) t)) t /\ continuity_pt (fun t => snd (f (u t, v t) t)) t) ->
  forall eps, 0 < eps -> exists h, 0 < h /\ forall t, grid t a b h ->
    forall i, (i < length t)%nat -> dist2 (nth i (odeint2 f (u a, v a) t) (0, 0)) (u (el t i), v (el t i)) < eps.
Proof. exact odeint2_converges. Qed.
Print Assumptions C106_converges_pair.
Theorem C106_rate : forall f y L K a b h t,
  lipschitz f L a b -> solves f y a b ->
  (forall s s', a <= s <= b -> a <= s' <= b -> Rabs (f (y s) s - f (y s') s') <= K * Rabs (s - s')) ->
  0 <= h -> L * h <= 1 -> grid t a b h ->
  forall i, (i < length t)%nat -> Rabs (el (odeint1 f (y a) t) i - y (el t i)) <= 3 * (K * h) * (b - a) * exp (2 * L * (b - a)).
Proof. exact odeint1_rate. Qed.
Print Assumptions C106_rate.
Example C106_case : lipschitz (fun y _ => y) 1 0 1 /\ solves (fun y _ => y) exp 0 1 /\ grid [0; 1 / 2; 1] 0 1 (1 / 2) /\
  (forall s s', 0 <= s <= 1 -> 0 <= s' <= 1 -> Rabs (exp s - exp s') <= 3 * Rabs (s - s')) /\
  lipschitz2 (fun y _ => (snd y, - fst y)) 1 0 1 /\ solves2 (fun y _ => (snd y, - fst y)) sin cos 0 1.
Proof. exact ex_C106. Qed.


(** C107  the growth equation has one solution and the growth functions converge to it *)
Theorem C107_unique_solution : forall c a0,
  expanding c -> 0 < a0 <= 1 ->
  exists u v, growth_solution c a0 u v /\ forall u' v', growth_solution c a0 u' v' -> forall a, a0 <= a <= 1 -> u' a = u a /\ v' a = v a.
Proof. exact growth_solution_unique. Qed.
Print Assumptions C107_unique_solution.
Theorem C107_converges : forall c la u v,
  expanding c -> 0 <= Omega_m c -> ws_growth c = None -> la < 0 -> growth_solution c (pow10 la) u v ->
  forall eps, 0 < eps -> exists N, forall n, (N <= n)%nat -> forall q, (forall x, In x q -> pow10 la <= x <= 1) ->
  let r := growth_factor_ODE c (Array1 q) la n in
  (exists g, fst r = Ok g /\ length g = length q /\ forall k, (k < length q)%nat -> Rabs (el g k - u (el q k) / u 1) < eps) /\
  (exists f, fst (growth_rate_ODE (snd r) (Array1 q)) = Ok f /\ length f = length q /\ forall k, (k < length q)%nat -> Rabs (el f k - el q k * v (el q k) / u (el q k)) < eps).
Proof. exact growth_tables_converge. Qed.
Print Assumptions C107_converges.
Theorem C107_heath : forall c la,
  expanding c -> 0 <= Omega_m c -> _w0 c = -1 -> _wa c = 0 -> ws_growth c = None -> la < 0 ->
  forall eps, 0 < eps -> exists N, forall n, (N <= n)%nat -> forall q, (forall x, In x q -> pow10 la <= x <= 1) ->
  exists g, fst (growth_factor_ODE c (Array1 q) la n) = Ok g /\ length g = length q /\
    forall k, (k < length q)%nat -> Rabs (el g k - heath c (pow10 la) (el q k) / heath c (pow10 la) 1) < eps.
Proof. exact lambda_growth. Qed.
Print Assumptions C107_heath.
Example C107_case : expanding Planck15 /\ 0 <= Omega_m Planck15 /\ ws_growth Planck15 = None /\ _w0 Planck15 = -1 /\ _wa Planck15 = 0 /\
  growth_solution Planck15 (pow10 (-3)) (heath Planck15 (pow10 (-3))) (Derive (heath Planck15 (pow10 (-3)))).
Proof. exact ex_C107. Qed.


(** C108  the distance and the gamma growth factor converge to their integrals *)
Theorem C108_distance : forall c la,
  expanding c -> ws_chi c = None -> la < 0 -> forall eps, 0 < eps ->
  exists N, forall n, (N <= n)%nat -> forall q, (forall x, In x (atleast_1d q) -> pow10 la <= x <= 1) ->
    let d := fst (radial_comoving_distance c q la n) in
    length d = length (atleast_1d q) /\
    forall k, (k < length (atleast_1d q))%nat -> Rabs (el d k - RInt (fun x => 299792.458 / (x ^ 2 * H c x)) (el (atleast_1d q) k) 1) < eps.
Proof. exact distance_converges. Qed.
Print Assumptions C108_distance.
Theorem C108_gamma_growth : forall c la,
  expanding c -> 0 < Omega_m c -> ws_growth c = None -> la < 0 -> forall eps, 0 < eps ->
  exists N, forall n, (N <= n)%nat -> forall q, (forall x, In x q -> pow10 la <= x <= 1) ->
    exists g, fst (growth_factor_gamma c (Array1 q) la n) = Ok g /\ length g = length q /\
    forall k, (k < length q)%nat -> Rabs (el g k - exp (- RInt (fun x => rpow (Omega_m_a c x) (gamma_of c) / x) (el q k) 1)) < eps.
Proof. exact gamma_growth_converges. Qed.
Print Assumptions C108_gamma_growth.
Example C108_case : expanding Planck15 /\ ws_chi Planck15 = None /\ expanding planck_gamma /\ 0 < Omega_m planck_gamma /\ ws_growth planck_gamma = None /\ gamma_of planck_gamma <> 0.
Proof. exact ex_C108. Qed.
