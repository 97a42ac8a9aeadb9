(** * Model of power.py for wavenumbers of any rank

    PowerArr.v takes numbers and vectors.  Here k is an array of any shape (a grid k[:, None] against a vector of scale factors,
    say) and a is a number or a vector.  Simplified as in PowerArr.v: the transfer function is applied entry by entry. *)
From Verif Require Import Np Core Integrate Interp Background Transfer Power PowerArr Nd NzArr.

(** x.squeeze(): axes of length 1 are dropped; [unsqueeze s i] is the index of the original array of shape [s] *)
Definition squeezed (s : list nat) : list nat := filter (fun n => negb (Nat.eqb n 1)) s.
Fixpoint unsqueeze (s i : list nat) : list nat :=
  match s with
  | [] => []
  | n :: s' => if Nat.eqb n 1 then 0%nat :: unsqueeze s' i else hd 0%nat i :: unsqueeze s' (tl i)
  end.
Definition squeeze_nd (x : nd) : nd := Nd (squeezed (shp x)) (fun i => get x (unsqueeze (shp x) i)).

(** power.py 22-54 *)
Definition linear_grid (c : cosmology) (k : nd) (a : array_like) (T : transfer) : res nd :=
  let k := atleast1 k in                                                      (* 43 *)
  let a := atleast_1d a in                                                    (* 44 *)
  bind (growth_values c a) (fun g =>                                          (* 45 *)
  let t := uop1 (T c) k in                                                    (* 46 *)
  let pknorm := _sigma8 c ^ 2 / sigmasqr_default c 8.0 T in                   (* 48 *)
  bind (bop2 Rmult (uop1 (primordial_matter_power c) k) (uop1 (fun x => x ^ 2) t)) (fun p =>
  bind (bop2 Rmult p (uop1 (fun x => x ^ 2) (vec g))) (fun pk =>              (* 50 *)
  Ok (squeeze_nd (uop1 (fun x => x * pknorm) pk))))).                         (* 53-54 *)

(** power.py 251-267, as [assemble_nd] *)
Definition assemble_grid (k pklin knl an bn cn gamn aln ben mun nun f1 f2 f3 : nd) : res nd :=
  bind (bop2 Rmult (uop1 (fun x => x ^ 3) k) pklin) (fun q =>
  let d2l := uop1 (fun x => x / (2.0 * PI ^ 2)) q in                                        (* 253 *)
  bind (bop2 Rdiv k knl) (fun y =>                                                          (* 255 *)
  bind (bop2 rpow (uop1 (fun x => 1.0 + x) d2l) ben) (fun e1 =>
  bind (bop2 Rmult aln d2l) (fun e2 =>
  bind (bop2 Rdiv e1 (uop1 (fun x => 1 + x) e2)) (fun e3 =>
  bind (bop2 Rmult d2l e3) (fun e4 =>
  bind (bop2 Rmult e4 (uop1 (fun x => exp (- (x / 4.0 + x ^ 2 / 8.0))) y)) (fun d2q =>      (* 258 *)
  bind (bop2 rpow y (uop1 (fun x => 3 * x) f1)) (fun p1 =>
  bind (bop2 Rmult an p1) (fun h1 =>
  bind (bop2 rpow y f2) (fun p2 =>
  bind (bop2 Rmult bn p2) (fun q2 =>
  bind (bop2 Rmult cn f3) (fun cf =>
  bind (bop2 Rmult cf y) (fun cy =>
  bind (bop2 rpow cy (uop1 (fun x => 3.0 - x) gamn)) (fun q3 =>
  bind (bop2 Rplus (uop1 (fun x => 1.0 + x) q2) q3) (fun s1 =>
  bind (bop2 Rdiv h1 s1) (fun hp =>                                                         (* 259-261 *)
  bind (bop2 Rdiv mun y) (fun m1 =>
  bind (bop2 Rdiv nun (uop1 (fun x => x ^ 2) y)) (fun m2 =>
  bind (bop2 Rplus (uop1 (fun x => 1.0 + x) m1) m2) (fun s2 =>
  bind (bop2 Rdiv hp s2) (fun d2h =>                                                        (* 262 *)
  bind (bop2 Rplus d2q d2h) (fun d2nl =>                                                    (* 264 *)
  bop2 Rmult (uop1 (fun x => 2.0 * PI ^ 2 / x ^ 3) k) d2nl))))))))))))))))))))).            (* 265 *)

(** power.py 145-267 (halofit); lines 176-249 concern a alone, see [halofit_nd] and [halofit_parameters_nd] *)
Definition halofit_grid (c : cosmology) (k : nd) (a : array_like) (T : transfer) (prescription : string) : res nd :=
  let a := atleast_1d a in                                                                 (* 170 *)
  bind (linear_grid c k (Array1 a) T) (fun pklin =>                                        (* 173 *)
  bind (halofit_parameters_nd c a T) (fun '(knl, n, C) =>                                  (* 176 *)
  let om_m := map (Omega_m_a c) a in
  let om_de := map (Omega_de_a c) a in
  let ww := map (w c) a in
  let frac := map2 (fun d m => d / (1.0 - m)) om_de om_m in                                (* 178-181 *)
  if String.eqb prescription "smith2003" then
    let co := map2 hf_smith n C in
    let f := map2 hf_f_smith om_m frac in
    bind (assemble_grid k pklin (of_like knl) (vec (map hf_a co)) (vec (map hf_b co)) (vec (map hf_c co)) (vec (map hf_gamma co))
            (vec (map hf_alpha co)) (vec (map hf_beta co)) (vec (map hf_mu co)) (vec (map hf_nu co))
            (vec (map (fun x => fst (fst x)) f)) (vec (map (fun x => snd (fst x)) f)) (vec (map snd f))) (fun r => Ok (squeeze_nd r))
  else if String.eqb prescription "takahashi2012" then
    let co := map2 (fun p q => hf_takahashi (fst p) (snd p) (fst q) (snd q)) (combine n C) (combine om_de ww) in
    let f := map hf_f_takahashi om_m in
    bind (assemble_grid k pklin (of_like knl) (vec (map hf_a co)) (vec (map hf_b co)) (vec (map hf_c co)) (vec (map hf_gamma co))
            (vec (map hf_alpha co)) (vec (map hf_beta co)) (num0 0.0) (vec (map hf_nu co))
            (vec (map (fun x => fst (fst x)) f)) (vec (map (fun x => snd (fst x)) f)) (vec (map snd f))) (fun r => Ok (squeeze_nd r))
  else Err NotImplementedError)).
