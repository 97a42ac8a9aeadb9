(** * Forward-mode differentiation of integrate.py, transfer.py and power.py

    The same transcription as in Ad.v, for the quadratures, the Eisenstein & Hu transfer functions and the linear power
    spectrum.  Quadrature nodes are constants; the error estimate of romb is not returned to sigmasqr and is left out. *)
From Verif Require Import Np Core Ode Interp Integrate Background Transfer Power GradSpec Ad.

Section Programs.
Context {A : Type} (N : num A).
Local Infix "+" := (nadd N) : ad_scope.
Local Infix "-" := (nsub N) : ad_scope.
Local Infix "*" := (nmul N) : ad_scope.
Local Infix "/" := (ndiv N) : ad_scope.
Local Notation "- x" := (nneg N x) : ad_scope.
Local Notation "x ^ z" := (nipow N x z) : ad_scope.
Local Notation "x ** y" := (npow N x y) (at level 30, right associativity) : ad_scope.
Local Notation "' x" := (cst N x%R) (at level 1, format "' x") : ad_scope.
Local Open Scope ad_scope.

(** np.sum *)
Definition gsum (v : list A) : A := fold_right (nadd N) '0 v.
(** integrate.py 22-65 *)
Definition gdifftrap1 (f : R -> A) (a b : R) : A := '0.5 * (f a + f b).
Definition gdifftrapn (f : R -> A) (a b : R) (numtraps : nat) : A :=
  let numtosum := Nat.div numtraps 2 in
  let h := ((1.0 * b - 1.0 * a) / INR numtosum)%R in
  let lox := (a + 0.5 * h)%R in
  gsum (map f (tab numtosum (fun i => (lox + h * INR i)%R))).
Definition gromberg_diff (b c : A) (k : nat) : A := ('(4 ^ k) * c - b) / '(4 ^ k - 1).
(** integrate.py 140-160 *)
Definition gromb_scan (carry : A * nat) (y : A) : (A * nat) * A :=
  let (x, k) := carry in
  let x := gromberg_diff y x (k + 1) in ((x, (k + 1)%nat), x).
Definition gromb_row (x : A) (state : list A) : list A :=
  x :: snd (scan gromb_scan (x, 0%nat) (removelast state)).
Fixpoint gromb_loop (f : R -> A) (a b : R) (fuel i : nat) (ordsum : A) (state : list A) : nat * list A :=
  match fuel with
  | O => ((i - 1)%nat, state)
  | S fuel' =>
      let n := (2 ^ i)%nat in
      let ordsum := ordsum + gdifftrapn f a b n in
      let x := '(b - a) * ordsum / '(INR n) in
      gromb_loop f a b fuel' (i + 1) ordsum (gromb_row x state)
  end.
Definition gromb (f : R -> A) (a b : R) (divmax : nat) : A :=
  let ordsum := gdifftrap1 f a b in
  let state := repeat ('(b - a) * ordsum) (divmax + 1) in
  let '(i, st) := gromb_loop f a b divmax 1 ordsum state in nth i st '0.

(** np.sinc: sin(pi x)/(pi x), with the value 1 and the slope 0 at x = 0 *)
Definition gsinc (x : A) : A := if Req_EM_T (val N x) 0 then '1 else nsin N ('PI * x) / ('PI * x).

(** transfer.py 47-97 *)
Definition g_w_m (c : gcosmo A) : A := gOmega_m N c * gh c ^ 2.
Definition g_w_b (c : gcosmo A) : A := gOmega_b c * gh c ^ 2.
Definition g_fb (c : gcosmo A) : A := gOmega_b c / gOmega_m N c.
Definition g_fc (c : gcosmo A) : A := (gOmega_m N c - gOmega_b c) / gOmega_m N c.
Definition g_k_eq (c : gcosmo A) : A := '7.46e-2 * g_w_m c / 'eh_T27sqr / gh c.
Definition g_z_eq (c : gcosmo A) : A := '2.50e4 * g_w_m c / '(eh_T27sqr ^ 2).
Definition g_z_d (c : gcosmo A) : A :=
  let w_m := g_w_m c in
  let b1 := '0.313 * w_m ** '(-0.419) * ('1.0 + '0.607 * w_m ** '0.674) in
  let b2 := '0.238 * w_m ** '0.223 in
  '1291.0 * w_m ** '0.251 / ('1.0 + '0.659 * w_m ** '0.828) * ('1.0 + b1 * g_w_b c ** b2).
Definition g_R_d (c : gcosmo A) : A := '31.5 * g_w_b c / '(eh_T27sqr ^ 2) * ('1.0e3 / g_z_d c).
Definition g_R_eq (c : gcosmo A) : A := '31.5 * g_w_b c / '(eh_T27sqr ^ 2) * ('1.0e3 / g_z_eq c).
Definition g_sh_d (c : gcosmo A) : A :=
  '2.0 / ('3.0 * g_k_eq c) * nsqrt N ('6.0 / g_R_eq c)
  * nln N ((nsqrt N ('1.0 + g_R_d c) + nsqrt N (g_R_eq c + g_R_d c)) / ('1.0 + nsqrt N (g_R_eq c))).
Definition g_k_silk (c : gcosmo A) : A :=
  '1.6 * g_w_b c ** '0.52 * g_w_m c ** '0.73 * ('1.0 + ('10.4 * g_w_m c) ** '(-0.95)) / gh c.
Definition g_alpha_gamma (c : gcosmo A) : A :=
  '1.0 - '0.328 * nln N ('431.0 * g_w_m c) * g_w_b c / g_w_m c
  + '0.38 * nln N ('22.3 * g_w_m c) * (gOmega_b c / gOmega_m N c) ^ 2.
Definition g_gamma_eff (c : gcosmo A) (k : A) : A :=
  gOmega_m N c * gh c * (g_alpha_gamma c + ('1.0 - g_alpha_gamma c) / ('1.0 + ('0.43 * k * g_sh_d c) ^ 4)).
(** transfer.py 99-105 *)
Definition geisenhu (c : gcosmo A) (k : A) : A :=
  let q := k * '((const_tcmb / 2.7) ^ 2) / g_gamma_eff c k in
  let L := nln N ('(2.0 * exp 1.0) + '1.8 * q) in
  let C := '14.2 + '731.0 / ('1.0 + '62.5 * q) in
  L / (L + C * q * q).
(** transfer.py 107-153 *)
Definition g_T_tilde (c : gcosmo A) (k1 alpha beta : A) : A :=
  let q := k1 / ('13.41 * g_k_eq c) in
  let L := nln N ('(exp 1.0) + '1.8 * beta * q) in
  let C := '14.2 / alpha + '386.0 / ('1.0 + '69.9 * q ** '1.08) in
  L / (L + C * q * q).
Definition g_alpha_c (c : gcosmo A) : A :=
  let w_m := g_w_m c in
  let a1 := ('46.9 * w_m) ** '0.670 * ('1.0 + ('32.1 * w_m) ** '(-0.532)) in
  let a2 := ('12.0 * w_m) ** '0.424 * ('1.0 + ('45.0 * w_m) ** '(-0.582)) in
  a1 ** (- g_fb c) * a2 ** (- (g_fb c ^ 3)).
Definition g_beta_c (c : gcosmo A) : A :=
  let w_m := g_w_m c in
  let b1 := '0.944 / ('1.0 + ('458.0 * w_m) ** '(-0.708)) in
  let b2 := ('0.395 * w_m) ** '(-0.0266) in
  '1.0 / ('1.0 + b1 * (g_fc c ** b2 - '1.0)).
Definition g_Tc (c : gcosmo A) (k : A) : A :=
  let f := '1.0 / ('1.0 + (k * g_sh_d c / '5.4) ^ 4) in
  f * g_T_tilde c k '1.0 (g_beta_c c) + ('1.0 - f) * g_T_tilde c k (g_alpha_c c) (g_beta_c c).
Definition g_alpha_b (c : gcosmo A) : A :=
  let y := ('1.0 + g_z_eq c) / ('1.0 + g_z_d c) in
  let x := nsqrt N ('1.0 + y) in
  let G := y * ('(-6.0) * x + ('2.0 + '3.0 * y) * nln N ((x + '1.0) / (x - '1.0))) in
  '2.07 * g_k_eq c * g_sh_d c * ('1.0 + g_R_d c) ** '(-0.75) * G.
Definition g_beta_b (c : gcosmo A) : A :=
  '0.5 + g_fb c + ('3.0 - '2.0 * g_fb c) * nsqrt N (('17.2 * g_w_m c) ^ 2 + '1.0).
Definition g_tilde_s (c : gcosmo A) (k : A) : A :=
  let beta_node := '8.41 * g_w_m c ** '0.435 in
  g_sh_d c / ('1.0 + (beta_node / (k * g_sh_d c)) ^ 3) ** '(1.0 / 3.0).
Definition g_Tb (c : gcosmo A) (k : A) : A :=
  (g_T_tilde c k '1.0 '1.0 / ('1.0 + (k * g_sh_d c / '5.2) ^ 2)
   + g_alpha_b c / ('1.0 + (g_beta_b c / (k * g_sh_d c)) ^ 3) * nexp N (- ((k / g_k_silk c) ** '1.4)))
  * gsinc (k * g_tilde_s c k / 'PI).
Definition geisenhu_osc (c : gcosmo A) (k : A) : A := g_fb c * g_Tb c k + g_fc c * g_Tc c k.

(** power.py 15-79 *)
Definition gtransfer := gcosmo A -> A -> A.
Definition gprimordial (c : gcosmo A) (k : A) : A := k ** gn_s c.
Definition gint_sigma (c : gcosmo A) (Rr : R) (T : gtransfer) (logk : R) : A :=
  let k := nexp N 'logk in
  let x := k * 'Rr in
  let w := '3.0 * (nsin N x - x * ncos N x) / (x * x * x) in
  let pk := T c k ^ 2 * gprimordial c k in
  k * (k * w) ^ 2 * pk.
Definition gsigmasqr (c : gcosmo A) (Rr : R) (T : gtransfer) (kmin kmax : R) : A :=
  '(1.0 / (2.0 * PI ^ 2)) * gromb (gint_sigma c Rr T) (log10 kmin) (log10 kmax) 7.
(** power.py 22-54 *)
Definition glinear_matter_power (c : gcosmo A) (k a : A) (T : gtransfer) : A :=
  let g := gD N c a in
  let t := T c k in
  let pknorm := gsigma8 c ^ 2 / gsigmasqr c 8.0 T 0.0001 1000.0 in
  gprimordial c k * t ^ 2 * g ^ 2 * pknorm.
End Programs.
