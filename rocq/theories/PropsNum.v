(** * Property theorems C48-C56: scipy-like numerical routines of jax_cosmo/scipy *)
From Coquelicot Require Import Coquelicot.
From Verif Require Import Np Interp Integrate IntegrateSpec Ode OdeSpec OdeProofs SimpsProofs RombProofs NumFinal ExNum.

(** C48: right on every cell but the first; there the line of the second cell is used *)
Theorem C48_increasing_partial : forall v xp fp, (3 <= length xp)%nat -> length fp = length xp -> incr xp ->
  exists w, interp (Array1 v) xp fp = Ok w /\ length w = length v /\
  (forall k i, (k < length v)%nat -> (1 <= i)%nat -> (i + 1 < length xp)%nat -> el xp i <= el v k <= el xp (i + 1) ->
     el w k = cell xp fp i (el v k)) /\
  (forall k, (k < length v)%nat -> el v k <= el xp 1 -> el w k = cell xp fp 1 (el v k)) /\
  (forall k, (k < length v)%nat -> el xp (length xp - 1) <= el v k -> el w k = cell xp fp (length xp - 2) (el v k)).
Proof. exact interp_increasing. Qed.
Print Assumptions C48_increasing_partial.
Example C48_case : (3 <= length xp_inc)%nat /\ length fp_inc = length xp_inc /\ incr xp_inc /\
  el xp_inc 1 <= 3 / 2 <= el xp_inc 2 /\ cell xp_inc fp_inc 1 (3 / 2) = 5 / 2.
Proof. exact interp_inc_case. Qed.

Theorem C48_first_cell_refuted : exists xp fp x, (3 <= length xp)%nat /\ length fp = length xp /\ incr xp /\
  el xp 0 <= x <= el xp 1 /\ interp (Array1 [x]) xp fp <> Ok [cell xp fp 0 x].
Proof. exact interp_first_cell_wrong. Qed.
Print Assumptions C48_first_cell_refuted.

(** C49: exact at the nodes; inside a cell the line of this or a neighbouring cell, with the resulting error *)
Theorem C49_decreasing_partial : forall v xp fp, (4 <= length xp)%nat -> length fp = length xp -> decr xp ->
  exists w, interp (Array1 v) xp fp = Ok w /\ length w = length v /\
  (forall k i, (k < length v)%nat -> (i < length xp)%nat -> el v k = el xp i -> el w k = el fp i) /\
  (forall k i, (k < length v)%nat -> (i + 1 < length xp)%nat -> el xp (i + 1) <= el v k <= el xp i ->
     exists c, (c + 1 < length xp)%nat /\ (i - 1 <= c <= i + 1)%nat /\ el w k = cell xp fp c (el v k) /\
       Rabs (el w k - cell xp fp i (el v k)) <=
       Rabs ((el fp (c + 1) - el fp c) / (el xp (c + 1) - el xp c) - (el fp (i + 1) - el fp i) / (el xp (i + 1) - el xp i))
         * ((el xp i - el xp (i + 1)) / 2)).
Proof. exact interp_decreasing. Qed.
Print Assumptions C49_decreasing_partial.
Example C49_case : (4 <= length xp_dec)%nat /\ length fp_dec = length xp_dec /\ decr xp_dec /\
  (1 + 1 < length xp_dec)%nat /\ el xp_dec 2 <= 7 / 4 <= el xp_dec 1.
Proof. exact interp_dec_case. Qed.

Theorem C49_interpolant_refuted : exists xp fp x i, (4 <= length xp)%nat /\ length fp = length xp /\ decr xp /\
  (i + 1 < length xp)%nat /\ el xp (i + 1) <= x <= el xp i /\ interp (Array1 [x]) xp fp <> Ok [cell xp fp i x].
Proof. exact interp_decr_wrong. Qed.
Print Assumptions C49_interpolant_refuted.

(** C50 *)
Theorem C50_affine : forall v xp fp al be, (3 <= length xp)%nat -> length fp = length xp ->
  (forall i, (i + 1 < length xp)%nat -> el xp i <> el xp (i + 1)) ->
  (forall i, (i < length xp)%nat -> el fp i = al * el xp i + be) ->
  interp (Array1 v) xp fp = Ok (map (fun x => al * x + be) v).
Proof. exact interp_affine. Qed.
Print Assumptions C50_affine.
Example C50_case : (3 <= length xp_dec)%nat /\ length [7; 5; 3; 1] = length xp_dec /\
  (forall i, (i + 1 < length xp_dec)%nat -> el xp_dec i <> el xp_dec (i + 1)) /\
  (forall i, (i < length xp_dec)%nat -> el [7; 5; 3; 1] i = 2 * el xp_dec i + 1).
Proof. exact affine_case. Qed.

(** C51 *)
Theorem C51_simpson_sum : forall f a b N, Nat.even N = true -> (2 <= N)%nat -> simps f a b N = Ok (simpson f a b N).
Proof. exact simps_eq. Qed.
Print Assumptions C51_simpson_sum.
Theorem C51_cubic_exact : forall c a b N, Nat.even N = true -> (2 <= N)%nat ->
  simps (poly c 3) a b N = Ok (RInt (poly c 3) a b).
Proof. exact simps_exact. Qed.
Print Assumptions C51_cubic_exact.
Example C51_case : simps (poly INR 3) 0 2 4 = Ok (58 / 3).
Proof. exact simps_case. Qed.

(** C52 *)
Theorem C52_algebra : forall f g al be a b N, Nat.even N = true -> (2 <= N)%nat ->
  (exists x y, simps f a b N = Ok x /\ simps g a b N = Ok y /\
     simps (fun t => al * f t + be * g t) a b N = Ok (al * x + be * y) /\ simps f b a N = Ok (- x)) /\
  (a <= b -> (forall t, a <= t <= b -> 0 <= f t) -> exists x, simps f a b N = Ok x /\ 0 <= x).
Proof. exact simps_algebra. Qed.
Print Assumptions C52_algebra.
Theorem C52_odd_rejected : forall f a b N, Nat.odd N = true -> simps f a b N = Err ValueError.
Proof. exact simps_odd. Qed.
Print Assumptions C52_odd_rejected.
Example C52_case : Nat.even 256 = true /\ (2 <= 256)%nat /\ Nat.odd 255 = true /\ forall t, 0 <= t <= 1 -> 0 <= t ^ 2.
Proof. exact simps_algebra_case. Qed.

(** C53 *)
Theorem C53_error : forall f f1 f2 f3 f4 a b M N, a <= b -> Nat.even N = true -> (2 <= N)%nat ->
  (forall x, a <= x <= b -> is_derive f x (f1 x) /\ is_derive f1 x (f2 x) /\ is_derive f2 x (f3 x) /\ is_derive f3 x (f4 x) /\ Rabs (f4 x) <= M) ->
  exists s, simps f a b N = Ok s /\ Rabs (s - RInt f a b) <= M * (b - a) ^ 5 / (180 * INR N ^ 4).
Proof. exact simps_error. Qed.
Print Assumptions C53_error.
Example C53_case : forall x, 0 <= x <= 1 ->
  is_derive exp x (exp x) /\ is_derive exp x (exp x) /\ is_derive exp x (exp x) /\ is_derive exp x (exp x) /\ Rabs (exp x) <= 3.
Proof. exact simps_error_case. Qed.

(** C54 *)
Theorem C54_romberg : forall f a b d, (1 <= d)%nat ->
  romb f a b d = Ok (romberg f a b d d, Rabs (romberg f a b (d - 1) (d - 1) - romberg f a b d d)).
Proof. exact romb_value. Qed.
Print Assumptions C54_romberg.
Theorem C54_divmax_zero : forall f a b, romb f a b 0 = Err NameError.
Proof. exact romb_zero. Qed.
Print Assumptions C54_divmax_zero.
Example C54_case : romb (fun x => x ^ 2) 0 1 1 = Ok (1 / 3, 1 / 6).
Proof. exact romb_case. Qed.

(** C55 *)
Theorem C55_exact : forall c a b deg d, (1 <= d)%nat -> (deg <= 2 * d + 1)%nat ->
  exists err, romb (poly c deg) a b d = Ok (RInt (poly c deg) a b, err).
Proof. exact romb_exact. Qed.
Print Assumptions C55_exact.
Example C55_case : (1 <= 2)%nat /\ (5 <= 2 * 2 + 1)%nat /\ RInt (poly (fun k => INR k) 5) 0 1 = 71 / 20.
Proof. exact romb_exact_case. Qed.

(** C56 *)
Theorem C56_rk4 : forall fn y0 t, t <> [] ->
  length (odeint1 fn y0 t) = length t /\ el (odeint1 fn y0 t) 0 = y0 /\
  forall i, (i + 1 < length t)%nat ->
    el (odeint1 fn y0 t) (i + 1) = rk4_num fn (el (odeint1 fn y0 t) i) (el t i) (el t (i + 1)).
Proof. exact odeint1_spec. Qed.
Print Assumptions C56_rk4.
Theorem C56_rk4_pair : forall fn y0 t, t <> [] ->
  let w := odeint2 fn y0 t in let comp := fun (p : R * R) (k : nat) => match k with O => fst p | _ => snd p end in
  length w = length t /\ nth 0 w (0, 0) = y0 /\
  forall i, (i + 1 < length t)%nat -> forall k,
    comp (nth (i + 1) w (0, 0)) k =
    rk4_vec (fun y s => comp (fn (y 0%nat, y 1%nat) s)) (comp (nth i w (0, 0))) (el t i) (el t (i + 1)) k.
Proof. exact odeint2_rk4. Qed.
Print Assumptions C56_rk4_pair.
Theorem C56_quadrature : forall g y0 t i, t <> [] -> (i + 1 < length t)%nat ->
  let w := odeint1 (fun _ => g) y0 t in
  el w (i + 1) - el w i = simpson g (el t i) (el t (i + 1)) 2.
Proof. exact odeint_quadrature. Qed.
Print Assumptions C56_quadrature.
Theorem C56_cubic : forall c y0 t i, t <> [] -> (i < length t)%nat ->
  el (odeint1 (fun _ => poly c 3) y0 t) i = y0 + RInt (poly c 3) (el t 0) (el t i).
Proof. exact odeint_cubic. Qed.
Print Assumptions C56_cubic.
Theorem C56_linear : forall lam y0 t i, t <> [] -> (i + 1 < length t)%nat ->
  let w := odeint1 (fun y _ => lam * y) y0 t in let z := lam * (el t (i + 1) - el t i) in
  el w (i + 1) = (1 + z + z ^ 2 / 2 + z ^ 3 / 6 + z ^ 4 / 24) * el w i.
Proof. exact odeint_linear. Qed.
Print Assumptions C56_linear.
Example C56_case : el (odeint1 (fun y _ => y) 1 [0; 1]) 1 = 65 / 24.
Proof. exact odeint_case. Qed.
