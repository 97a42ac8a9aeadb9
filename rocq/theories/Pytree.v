(** * Python objects as pytrees: jax_cosmo/jax_utils.py and the classes registered with register_pytree_node_class *)
From Verif Require Import Np Redshift Bias Probes.

(** bias.py 11-58, redshift.py 62-146, probes.py 134-283: the registered container classes *)
Inductive cls :=
  | Constant_linear_bias | Inverse_growth_linear_bias | Des_y1_ia_bias
  | Smail_nz | Delta_nz | Kde_nz | Systematic_shift
  | WeakLensing | NumberCounts.
Definition is_nz (c : cls) : bool := match c with Smail_nz | Delta_nz | Kde_nz | Systematic_shift => true | _ => false end.

(** Python values.  An object carries self.params, self.config and, for redshift distributions,
    self._gals_per_arcmin2 and self._norm ([VNone] for the other classes).  A dict is a list of pairs. *)
Inductive val :=
  | VNum (r : R) | VArr (v : list R) | VNone | VBool (b : bool) | VStr (s : string)
  | VTuple (l : list val) | VList (l : list val)
  | VObj (c : cls) (params : list val) (config : list (string * val)) (gals norm : val).
Definition kwargs := list (string * val).

(** dict lookup and removal *)
Fixpoint lookup (k : string) (d : kwargs) : option val :=
  match d with [] => None | (k', v) :: d' => if String.eqb k k' then Some v else lookup k d' end.
Definition remove (k : string) (d : kwargs) : kwargs := filter (fun p => negb (String.eqb k (fst p))) d.
Definition has (k : string) (d : kwargs) : bool := match lookup k d with Some _ => true | None => false end.

(** Binding of a call f(args, **kw) to named parameters: the values bound to [names] in order (None: not given) and
    the remaining keywords.  Too many positional arguments or an argument given twice is a TypeError. *)
Fixpoint bind_args (names : list string) (args : list val) (kw : kwargs) : res (list (option val) * kwargs) :=
  match names with
  | [] => match args with [] => Ok ([], kw) | _ => Err TypeError end
  | n :: names' =>
      match args with
      | a :: args' => if has n kw then Err TypeError
                      else bind (bind_args names' args' kw) (fun p => Ok (Some a :: fst p, snd p))
      | [] => bind (bind_args names' [] (remove n kw)) (fun p => Ok (lookup n kw :: fst p, snd p))
      end
  end.
Definition default (d : val) (o : option val) : val := match o with Some v => v | None => d end.
(** a keyword that may not be repeated: f(name=v, **kw) *)
Definition kw_cons (k : string) (v : val) (kw : kwargs) : res kwargs := if has k kw then Err TypeError else Ok ((k, v) :: kw).

(** jax_utils.py 16-18 (container.__init__) *)
Definition container_init (c : cls) (args : list val) (kw : kwargs) : val := VObj c args kw VNone VNone.
(** redshift.py 17-21 and 89-92: gals_per_arcmin2 and zmax are keyword-only *)
Definition nz_init (c : cls) (args : list val) (kw : kwargs) : val :=
  VObj c args (("zmax"%string, default (VNum 10.0) (lookup "zmax" kw)) :: remove "zmax" (remove "gals_per_arcmin2" kw))
       (default (VNum 1.0) (lookup "gals_per_arcmin2" kw))
       (match c with Delta_nz => VNum 1.0 | _ => VNone end).
(** probes.py 241-244 *)
Definition nc_init (args : list val) (kw : kwargs) : res val :=
  bind (bind_args ["redshift_bins"; "bias"; "has_rsd"]%string args kw) (fun p =>
  match fst p with
  | [Some bins; Some b; rsd] =>
      bind (kw_cons "has_rsd" (default (VBool false) rsd) (snd p)) (fun cfg => Ok (container_init NumberCounts [bins; b] cfg))
  | _ => Err TypeError
  end).
(** probes.py 152-170 *)
Definition wl_init (args : list val) (kw : kwargs) : res val :=
  bind (bind_args ["redshift_bins"; "ia_bias"; "multiplicative_bias"; "sigma_e"]%string args kw) (fun p =>
  match fst p with
  | [Some bins; ia; m; se] =>
      let m := default (VNum 0.0) m in
      let ia_enabled := match default VNone ia with VNone => false | _ => true end in               (* 161-166 *)
      let params := match default VNone ia with VNone => [bins; m] | b => [bins; m; b] end in
      let kw := if has "ia_enabled" (snd p) then snd p else (snd p ++ [("ia_enabled"%string, VBool ia_enabled)])%list in (* 168-169 *)
      bind (kw_cons "sigma_e" (default (VNum 0.26) se) kw) (fun cfg => Ok (container_init WeakLensing params cfg))
  | _ => Err TypeError
  end).
(** cls( *args, **kw ) *)
Definition construct (c : cls) (args : list val) (kw : kwargs) : res val :=
  if is_nz c then Ok (nz_init c args kw)
  else match c with WeakLensing => wl_init args kw | NumberCounts => nc_init args kw | _ => Ok (container_init c args kw) end.

(** jax_utils.py 24-27, redshift.py 51-54 (tree_flatten): children and auxiliary data *)
Definition flatten (c : cls) (params : list val) (config : kwargs) (gals : val) : list val * kwargs :=
  (if is_nz c then [VTuple params; gals] else params, config).
(** jax_utils.py 29-31, redshift.py 56-59 (tree_unflatten) *)
Definition unflatten (c : cls) (config : kwargs) (children : list val) : res val :=
  if is_nz c then
    match children with
    | [VTuple args; gals] => bind (kw_cons "gals_per_arcmin2" gals config) (construct c args)
    | _ => Err TypeError
    end
  else construct c children config.

(** jax.tree_util: flatten to leaves and rebuild, or equivalently an identity tree_map.  Tuples, lists and registered
    objects are nodes, rebuilt from their rebuilt children; everything else is kept.  The auxiliary data is kept as is. *)
Fixpoint roundtrip (v : val) : res val :=
  let fix all (l : list val) : res (list val) :=
    match l with [] => Ok [] | x :: l' => bind (roundtrip x) (fun x' => bind (all l') (fun l'' => Ok (x' :: l''))) end in
  match v with
  | VTuple l => bind (all l) (fun l' => Ok (VTuple l'))
  | VList l => bind (all l) (fun l' => Ok (VList l'))
  | VObj c params config gals _ =>
      if is_nz c then bind (all params) (fun ps => bind (roundtrip gals) (fun g => unflatten c (snd (flatten c params config gals)) [VTuple ps; g]))
      else bind (all params) (unflatten c (snd (flatten c params config gals)))
  | _ => Ok v
  end.
Definition roundtrips (l : list val) : res (list val) :=
  (fix all (l : list val) : res (list val) :=
    match l with [] => Ok [] | x :: l' => bind (roundtrip x) (fun x' => bind (all l') (fun l'' => Ok (x' :: l''))) end) l.
(** n times *)
Fixpoint roundtrip_n (n : nat) (v : val) : res val := match n with O => Ok v | S n' => bind (roundtrip v) (roundtrip_n n') end.

(** redshift.py 28-32: calling a redshift distribution stores its normalisation on the object *)
Definition after_call (v : val) (norm : R) : val :=
  match v with VObj c ps cfg g VNone => if is_nz c then VObj c ps cfg g (VNum norm) else v | _ => v end.

(** the typed models of Redshift, Bias and Probes seen as Python objects *)
Definition val_of_norm (o : option R) : val := match o with Some r => VNum r | None => VNone end.
Fixpoint val_of_nz (d : nz) : val :=
  match d with
  | Nz (Smail a b z0) g zm n => VObj Smail_nz [VNum a; VNum b; VNum z0] [("zmax"%string, VNum zm)] (VNum g) (val_of_norm n)
  | Nz (Delta z0) g zm n => VObj Delta_nz [VNum z0] [("zmax"%string, VNum zm)] (VNum g) (val_of_norm n)
  | Nz (Kde zc w bw) g zm n => VObj Kde_nz [VArr zc; VArr w] [("zmax"%string, VNum zm); ("bw"%string, VNum bw)] (VNum g) (val_of_norm n)
  | Nz (Shift p b) g zm n => VObj Systematic_shift [val_of_nz p; VNum b] [("zmax"%string, VNum zm)] (VNum g) (val_of_norm n)
  end.
Definition val_of_bias (b : bias) : val :=
  match b with
  | constant_linear_bias b => VObj Constant_linear_bias [VNum b] [] VNone VNone
  | inverse_growth_linear_bias b => VObj Inverse_growth_linear_bias [VNum b] [] VNone VNone
  | des_y1_ia_bias A eta z0 => VObj Des_y1_ia_bias [VNum A; VNum eta; VNum z0] [] VNone VNone
  end.
