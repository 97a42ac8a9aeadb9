(** * Model of integrate.py with arrays as bounds

    Integrate.v and RombFn.v take numbers a and b.  Here the bounds are arrays of any shape, which broadcast against each other. *)
From Verif Require Import Np Integrate Nd RombFn.

(** np.linspace(a, b, n) of arrays: a new first axis of length n *)
Definition linspace_nd (a b : nd) (n : nat) : res nd :=
  match bshape (shp a) (shp b) with
  | Some s => Ok (Nd (n :: s) (fun i => el (linspace (get a (bidx (shp a) (tl i))) (get b (bidx (shp b) (tl i))) n) (hd 0%nat i)))
  | None => Err TypeError
  end.
(** m entries of the first axis, from [start] in steps of two *)
Definition every2 (start m : nat) (y : nd) : nd := Nd (m :: tl (shp y)) (fun i => get y ((start + 2 * hd 0%nat i)%nat :: tl i)).
(** np.sum(x, axis=0) *)
Definition sum_first (x : nd) : nd := Nd (tl (shp x)) (fun i => vsum (tab (hd 0%nat (shp x)) (fun j => get x (j :: i)))).
(** integrate.py 163-200 (simps).  Slices of an axis of length m: y[0:-1:2] and y[1::2] have m // 2 entries, y[2::2] has (m - 1) // 2 *)
Definition simps_nd (f : nd -> nd) (a b : nd) (N : nat) : res nd :=
  if Nat.eqb (N mod 2) 1 then Err ValueError                                               (* 194-195 *)
  else
    bind (bop2 Rminus b a) (fun d =>
    let dx := uop1 (fun u => u / INR N) d in                                               (* 196 *)
    bind (linspace_nd a b (N + 1)) (fun x =>                                               (* 197 *)
    let y := f x in                                                                        (* 198 *)
    match shp y with
    | [] => Err TypeError
    | m :: _ =>
        bind (bop2 Rplus (every2 0 (m / 2) y) (uop1 (fun u => 4 * u) (every2 1 (m / 2) y))) (fun p =>
        bind (bop2 Rplus p (every2 2 ((m - 1) / 2) y)) (fun q =>
        bop2 Rmult (uop1 (fun u => u / 3) dx) (sum_first q)))                              (* 199 *)
    end)).

(** np.repeat(x, n, axis=-1) of an array of rank at least 1 *)
Definition repeat_last (x : nd) (n : nat) : nd :=
  Nd (removelast (shp x) ++ [(last (shp x) 0 * n)%nat]) (fun i => get x (removelast i ++ [(last i 0 / n)%nat])).
(** the body of the scan, integrate.py 140-143, on a row of the previous column: the result must have the shape of the carry *)
Definition scan_step (y x : nd) (k : nat) : res nd :=
  bind (bop2 Rminus (uop1 (fun u => 4.0 ^ (k + 1) * u) x) y) (fun r =>
  if list_eq_dec Nat.eq_dec (shp r) (shp x) then Ok (uop1 (fun u => u / (4.0 ^ (k + 1) - 1.0)) r) else Err TypeError).
(** the carries of the scan over state[:-1]; jax traces the body even if there are no rows *)
Fixpoint scan_rows (state x : nd) (k n : nat) : res (list nd) :=
  match n with
  | O => bind (scan_step (row state k) x k) (fun _ => Ok [])
  | S n' => bind (scan_step (row state k) x k) (fun x' => bind (scan_rows state x' (k + 1) n') (fun l => Ok (x' :: l)))
  end.
(** np.concatenate([np.atleast_1d(x), new_state]) where new_state stacks arrays of the shape of x *)
Definition prepend (x : nd) (l : list nd) : res nd :=
  let h := atleast1 x in
  if list_eq_dec Nat.eq_dec (tl (shp h)) (shp x)
  then Ok (Nd ((hd 0 (shp h) + length l)%nat :: shp x)
            (fun i => if Nat.ltb (hd 0%nat i) (hd 0%nat (shp h)) then get h i else get (nth (hd 0 i - hd 0 (shp h))%nat l x) (tl i)))
  else Err TypeError.
(** integrate.py 68-160 (romb) as far as the first pass of the loop; [rest] stands for the later passes, see RombFn.v for numbers *)
Definition romb_nd (f : nd -> nd) (a b : nd) (divmax : nat) (rest : nd -> nd -> res nd) : res nd :=
  bind (bop2 Rminus b a) (fun intrange =>                                                  (* 134 *)
  bind (bop2 Rplus (f a) (f b)) (fun o =>
  let ordsum := uop1 (fun u => 0.5 * u) o in                                               (* 35, 135 *)
  bind (bop2 Rmult intrange ordsum) (fun result =>                                         (* 136 *)
  let state := repeat_last (atleast1 result) (divmax + 1) in                               (* 137 *)
  match divmax with
  | O => Err NameError                                                                     (* 160 *)
  | S _ =>
      let h := uop1 (fun u => u / INR 1) intrange in                                       (* 51-52 *)
      bind (bop2 Rplus a (uop1 (fun u => 0.5 * u) h)) (fun lox =>                          (* 53 *)
      bind (bop2 Rmult h (vec [0])) (fun hi =>
      bind (bop2 Rplus lox hi) (fun points =>                                              (* 54 *)
      let ordsum := uop1 (fun u => u + vsum (flat (f points))) ordsum in                   (* 55, 147 *)
      bind (bop2 Rmult intrange ordsum) (fun p =>
      let x := uop1 (fun u => u / INR 2) p in                                              (* 149 *)
      bind (scan_rows state x 0 (hd 0%nat (shp state) - 1)) (fun new_state =>              (* 150 *)
      bind (prepend x new_state) (fun new_state => rest state new_state))))))              (* 152-155 *)
  end))).
