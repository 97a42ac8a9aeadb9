(** * slogdet/det of sparse.py over extended numbers

    A second model of sparse.py 318-389 in which numbers may be infinite or NaN, as floats may, so that the value
    computed for a matrix with a zero pivot is faithful.  Finite arithmetic is still exact. *)
From Verif Require Import Np Sparse.

Inductive XR := Fin (x : R) | PInf | NInf | NaN.

Definition xneg (x : XR) : XR := match x with Fin a => Fin (- a) | PInf => NInf | NInf => PInf | NaN => NaN end.
Definition xadd (x y : XR) : XR :=
  match x, y with
  | NaN, _ | _, NaN => NaN
  | PInf, NInf | NInf, PInf => NaN
  | PInf, _ | _, PInf => PInf
  | NInf, _ | _, NInf => NInf
  | Fin a, Fin b => Fin (a + b)
  end.
Definition xsub (x y : XR) : XR := xadd x (xneg y).
(** sign of an extended number: None for NaN *)
Definition xsgR (x : XR) : option R :=
  match x with Fin a => Some (Rsgn a) | PInf => Some 1 | NInf => Some (-1) | NaN => None end.
Definition inf_of (s : R) : XR := if Rlt_dec s 0 then NInf else if Rlt_dec 0 s then PInf else NaN.
Definition xmul (x y : XR) : XR :=
  match x, y with
  | Fin a, Fin b => Fin (a * b)
  | _, _ => match xsgR x, xsgR y with Some a, Some b => inf_of (a * b) | _, _ => NaN end
  end.
(** np.sign, np.abs, np.log, np.exp *)
Definition xsign (x : XR) : XR := match xsgR x with Some s => Fin s | None => NaN end.
Definition xabs (x : XR) : XR := match x with Fin a => Fin (Rabs a) | PInf => PInf | NInf => PInf | NaN => NaN end.
Definition xlog (x : XR) : XR :=
  match x with
  | Fin a => if Rlt_dec 0 a then Fin (ln a) else if Req_EM_T a 0 then NInf else NaN
  | PInf => PInf | NInf => NaN | NaN => NaN
  end.
Definition xexp (x : XR) : XR := match x with Fin a => Fin (exp a) | PInf => PInf | NInf => Fin 0 | NaN => NaN end.

Definition xprod (v : list XR) : XR := fold_right xmul (Fin 1) v.
Definition xsum (v : list XR) : XR := fold_right xadd (Fin 0) v.
Definition xel3 (s : list (list (list XR))) (i j k : nat) : XR := nth k (nth j (nth i s []) []) NaN.

Definition xsub3 (r0 r1 c0 c1 : nat) (s : list (list (list XR))) : list (list (list XR)) :=
  map (fun row => firstn (c1 - c0) (skipn c0 row)) (firstn (r1 - r0) (skipn r0 s)).

(** sparse.py 234-263 for conforming shapes (a,b,n) x (b,d,n) *)
Definition xsds (a b n d : nat) (s1 s2 : list (list (list XR))) : list (list (list XR)) :=
  tab a (fun i => tab d (fun j => tab n (fun k => xsum (tab b (fun l => xmul (xel3 s1 i l k) (xel3 s2 l j k)))))).

(** sparse.py 314-315; np.linalg.inv is an arbitrary function *)
Definition xinv_t := nat -> list (list XR) -> list (list XR).
Definition xinv_data (xinv : xinv_t) (a n : nat) (s : list (list (list XR))) : list (list (list XR)) :=
  tab a (fun i => tab a (fun j => tab n (fun k =>
    nth j (nth i (xinv a (tab a (fun i' => tab a (fun j' => xel3 s i' j' k)))) []) NaN))).

(** sparse.py 322-331 *)
Definition xblock_det (xinv : xinv_t) (s : list (list (list XR))) (k N P : nat) : XR * XR :=
  let r := (N - (k + 1))%nat in
  let u := xsub3 k (k + 1) (k + 1) N s in
  let S := xsub3 (k + 1) N (k + 1) N s in
  let v := xsub3 (k + 1) N k (k + 1) s in
  let Sinv_v := xsds r r P 1 (xinv_data xinv r P S) v in
  let uSv := xsds 1 r P 1 u Sinv_v in
  let M := map2 xsub (nth k (nth k s []) []) (nth 0 (nth 0 uSv []) []) in
  (xprod (map xsign M), xsum (map (fun x => xlog (xabs x)) M)).

(** sparse.py 334-366, N >= 1 *)
Definition xslogdet (xinv : xinv_t) (N P : nat) (s : list (list (list XR))) : XR * XR :=
  let last := nth (N - 1) (nth (N - 1) s []) [] in
  fold_left (fun acc i => let (sg, ld) := xblock_det xinv s i N P in (xmul (fst acc) sg, xadd (snd acc) ld))
            (seq 0 (N - 1)) (xprod (map xsign last), xsum (map (fun x => xlog (xabs x)) last)).
(** sparse.py 369-389 *)
Definition xdet (xinv : xinv_t) (N P : nat) (s : list (list (list XR))) : XR :=
  let (sg, ld) := xslogdet xinv N P s in xmul sg (xexp ld).

(** embedding of an ordinary sparse array *)
Definition fin3 (s : list (list (list R))) : list (list (list XR)) := map (map (map Fin)) s.
