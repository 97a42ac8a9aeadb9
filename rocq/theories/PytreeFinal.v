(** * Round trips of the typed models and of WeakLensing *)
From Verif Require Import Np Redshift Bias Probes Pytree PytreeSpec PytreeProofs.

(** ** the typed models are made objects, and jit of a distribution is its round trip *)
Lemma val_of_nz_wf d : wf (val_of_nz d)
with val_of_fam_wf f g zm n : wf (val_of_nz (Nz f g zm n)).
Proof.
  - destruct d as [f g zm n]. apply val_of_fam_wf.
  - destruct f as [a b z0 | z0 | zc w bw | p b]; simpl; (apply wf_obj; [ | constructor | exists (VNum zm); eexists; split; [ reflexivity | split; reflexivity ] ]).
    + repeat constructor.
    + repeat constructor.
    + repeat constructor.
    + constructor; [ apply val_of_nz_wf | repeat constructor ].
Qed.
Lemma forget_nz d : forget (val_of_nz d) = val_of_nz (nz_jit d)
with forget_fam f g zm n : forget (val_of_nz (Nz f g zm n)) = val_of_nz (nz_jit (Nz f g zm n)).
Proof.
  - destruct d as [f g zm n]. apply forget_fam.
  - destruct f as [a b z0 | z0 | zc w bw | p b]; try reflexivity. simpl. f_equal. f_equal. apply forget_nz.
Qed.
Lemma roundtrip_nz d : roundtrip (val_of_nz d) = Ok (val_of_nz (nz_jit d)).
Proof. rewrite (roundtrip_wf _ (val_of_nz_wf d)). f_equal. apply forget_nz. Qed.
Lemma roundtrip_bias b : roundtrip (val_of_bias b) = Ok (val_of_bias b).
Proof. destruct b; reflexivity. Qed.

(** ** WeakLensing *)
Definition wl_cfg (cfg : kwargs) : Prop := exists se rest, cfg = ("sigma_e"%string, se) :: rest /\ has "ia_enabled" rest = true /\
  absent "redshift_bins" rest /\ absent "ia_bias" rest /\ absent "multiplicative_bias" rest /\ absent "sigma_e" rest.
Definition wl_tail (m : val) (ob : option val) : list val :=
  match m with VNone => [default (VNum 0.0) ob] | _ => [default (VNum 0.0) ob; m] end.
Lemma wl_unflatten bins m ob cfg : wl_cfg cfg ->
  unflatten WeakLensing cfg (bins :: m :: match ob with Some b => [b] | None => [] end) = Ok (VObj WeakLensing (bins :: wl_tail m ob) cfg VNone VNone).
Proof.
  intros (se & rest & -> & Hia & A1 & A2 & A3 & A4). unfold unflatten, construct. simpl is_nz. cbv iota. unfold wl_init.
  assert (B : bind_args ["redshift_bins"; "ia_bias"; "multiplicative_bias"; "sigma_e"]%string (bins :: m :: match ob with Some b => [b] | None => [] end) (("sigma_e"%string, se) :: rest) = Ok ([Some bins; Some m; ob; Some se], rest)).
  { simpl. unfold has. simpl. rewrite (lookup_absent _ _ A1), (lookup_absent _ _ A2). destruct ob as [b | ]; simpl.
    - unfold has. simpl. rewrite (lookup_absent _ _ A3). simpl. rewrite (remove_absent _ _ A4). reflexivity.
    - rewrite (lookup_absent _ _ A3). rewrite (remove_absent _ _ A3), (remove_absent _ _ A4). reflexivity. }
  rewrite B. unfold bind at 1. unfold fst, snd. rewrite Hia. cbv zeta. unfold kw_cons. rewrite A4. unfold bind. simpl default. unfold wl_tail, container_init. destruct m; reflexivity.
Qed.
Lemma lookup_app k d e : lookup k (d ++ e) = match lookup k d with Some v => Some v | None => lookup k e end.
Proof. induction d as [ | [k' v'] d IH]; [ reflexivity | ]. simpl. destruct (String.eqb k k'); [ reflexivity | exact IH ]. Qed.
Lemma wl_construct args kw v : construct WeakLensing args kw = Ok v ->
  exists bins m ob cfg, v = VObj WeakLensing (bins :: m :: match ob with Some b => [b] | None => [] end) cfg VNone VNone /\ wl_cfg cfg /\
    (forall u, u = bins \/ u = m \/ ob = Some u -> In u args \/ (exists k, In (k, u) kw) \/ u = VNum 0.0) /\ ob <> Some VNone.
Proof.
  intros E. unfold construct in E. simpl in E. unfold wl_init in E. destruct (bind_args _ _ _) as [p | ] eqn:B; [ | discriminate ]. unfold bind at 1 in E.
  pose proof (bind_args_vals _ _ _ _ B) as V. pose proof (bind_args_wf _ _ _ _ B) as A.
  destruct (fst p) as [ | [bins | ] [ | ia [ | m [ | se [ | ? ?]]]]] eqn:F; try discriminate. cbv zeta in E.
  set (ie := match default VNone ia with VNone => false | _ => true end) in *.
  set (kw' := if has "ia_enabled" (snd p) then snd p else (snd p ++ [("ia_enabled"%string, VBool ie)])%list) in *.
  assert (K : forall k, k <> "ia_enabled"%string -> has k kw' = has k (snd p)).
  { intros k ne. unfold kw'. destruct (has "ia_enabled" (snd p)); [ reflexivity | ]. unfold has. rewrite lookup_app. destruct (lookup k (snd p)); [ reflexivity | ]. simpl. apply String.eqb_neq in ne. now rewrite ne. }
  assert (KI : has "ia_enabled" kw' = true).
  { unfold kw'. destruct (has "ia_enabled" (snd p)) eqn:H; [ exact H | ]. unfold has in *. rewrite lookup_app. destruct (lookup "ia_enabled" (snd p)); [ discriminate | reflexivity ]. }
  assert (K4 : has "sigma_e" kw' = false) by (rewrite K by discriminate; apply A; simpl; auto).
  unfold kw_cons in E. rewrite K4 in E. unfold bind in E. injection E as <-. unfold container_init.
  assert (C : wl_cfg (("sigma_e"%string, default (VNum 0.26) se) :: kw')).
  { exists (default (VNum 0.26) se), kw'. split; [ reflexivity | split; [ exact KI | ]]. unfold absent. rewrite !K by discriminate. repeat split; apply A; simpl; tauto. }
  assert (Vb : In bins args \/ (exists k, In (k, bins) kw)) by (apply V; simpl; auto).
  assert (Vm : In (default (VNum 0.0) m) args \/ (exists k, In (k, default (VNum 0.0) m) kw) \/ default (VNum 0.0) m = VNum 0.0).
  { destruct m as [m | ]; simpl; [ | now right; right ]. destruct (V m) as [H | H]; [ simpl; auto | now left | now right; left ]. }
  destruct (default VNone ia) eqn:D; (match type of D with _ = VNone => exists bins, (default (VNum 0.0) m), None | _ = ?b => exists bins, (default (VNum 0.0) m), (Some b) end); eexists;
    (split; [ reflexivity | split; [ exact C | split; [ | discriminate ] ]]); intros u [-> | [-> | Hu]]; try tauto; try discriminate Hu; injection Hu as <-;
    (destruct ia as [i | ]; [ simpl in D; subst i; match goal with |- In ?u _ \/ _ => destruct (V u) as [H | H]; [ simpl; auto | now left | now right; left ] end | discriminate ]).
Qed.
Lemma wl_roundtrip args kw v : Forall made args -> Forall (fun p => made (snd p)) kw -> construct WeakLensing args kw = Ok v ->
  exists bins m ob cfg, v = VObj WeakLensing (bins :: m :: match ob with Some b => [b] | None => [] end) cfg VNone VNone /\
    roundtrip v = Ok (VObj WeakLensing (forget bins :: wl_tail (forget m) (option_map forget ob)) cfg VNone VNone).
Proof.
  intros FA FK E. destruct (wl_construct args kw v E) as (bins & m & ob & cfg & -> & C & V & _). exists bins, m, ob, cfg. split; [ reflexivity | ].
  assert (W : forall u, u = bins \/ u = m \/ ob = Some u -> wf u).
  { intros u Hu. destruct (V u Hu) as [H | [[k H] | ->]]; [ rewrite Forall_forall in FA; now apply made_wf, FA | rewrite Forall_forall in FK; apply made_wf; exact (FK _ H) | constructor ]. }
  rewrite roundtrip_eq. unfold flatten. simpl is_nz. cbv iota. unfold fst, snd.
  assert (Rt : roundtrips (bins :: m :: match ob with Some b => [b] | None => [] end) = Ok (forget bins :: forget m :: match option_map forget ob with Some b => [b] | None => [] end)).
  { unfold roundtrips. rewrite (roundtrip_wf bins), (roundtrip_wf m) by (apply W; auto). destruct ob as [b | ]; simpl; [ rewrite (roundtrip_wf b) by (apply W; auto) | ]; reflexivity. }
  rewrite Rt. unfold bind. now apply wl_unflatten.
Qed.
(** what survives: class, configuration and redshift bins *)
Lemma wl_survives args kw v : Forall made args -> Forall (fun p => made (snd p)) kw -> construct WeakLensing args kw = Ok v ->
  exists bins ps ps' cfg, v = VObj WeakLensing (bins :: ps) cfg VNone VNone /\
    exists bins', roundtrip v = Ok (VObj WeakLensing (bins' :: ps') cfg VNone VNone) /\ same bins bins'.
Proof.
  intros FA FK E. destruct (wl_roundtrip args kw v FA FK E) as (bins & m & ob & cfg & -> & Rt). do 4 eexists. split; [ reflexivity | ]. eexists. split; [ exact Rt | apply same_forget ].
Qed.
(** without intrinsic alignments the multiplicative bias becomes 0 and the old value moves to the next slot *)
Lemma wl_loses_m bins m : made bins -> made m -> m <> VNone ->
  exists cfg bins' m', construct WeakLensing [bins] [("multiplicative_bias"%string, m)] = Ok (VObj WeakLensing [bins; m] cfg VNone VNone) /\
    roundtrip (VObj WeakLensing [bins; m] cfg VNone VNone) = Ok (VObj WeakLensing [bins'; VNum 0.0; m'] cfg VNone VNone) /\ same bins bins' /\ same m m'.
Proof.
  intros Mb Mm nm. assert (E : construct WeakLensing [bins] [("multiplicative_bias"%string, m)] = Ok (VObj WeakLensing [bins; m] [("sigma_e"%string, VNum 0.26); ("ia_enabled"%string, VBool false)] VNone VNone)) by reflexivity.
  exists [("sigma_e"%string, VNum 0.26); ("ia_enabled"%string, VBool false)], (forget bins), (forget m). split; [ exact E | split; [ | split; apply same_forget ]].
  assert (W2 : roundtrips [bins; m] = Ok [forget bins; forget m]) by (unfold roundtrips; rewrite (roundtrip_wf bins (made_wf _ Mb)), (roundtrip_wf m (made_wf _ Mm)); reflexivity).
  rewrite roundtrip_eq. unfold flatten. simpl is_nz. cbv iota. unfold fst, snd. rewrite W2. unfold bind.
  rewrite (wl_unflatten (forget bins) (forget m) None).
  - unfold wl_tail. destruct m; try reflexivity. contradiction.
  - exists (VNum 0.26), [("ia_enabled"%string, VBool false)]. repeat split; reflexivity.
Qed.
(** with intrinsic alignments the two biases are exchanged *)
Lemma wl_swaps bins m b : made bins -> made m -> m <> VNone -> made b -> b <> VNone ->
  exists cfg bins' m' b', construct WeakLensing [bins; b; m] [] = Ok (VObj WeakLensing [bins; m; b] cfg VNone VNone) /\
    roundtrip (VObj WeakLensing [bins; m; b] cfg VNone VNone) = Ok (VObj WeakLensing [bins'; b'; m'] cfg VNone VNone) /\ same bins bins' /\ same m m' /\ same b b'.
Proof.
  intros Mb Mm nm Mi nb.
  assert (E : construct WeakLensing [bins; b; m] [] = Ok (VObj WeakLensing [bins; m; b] [("sigma_e"%string, VNum 0.26); ("ia_enabled"%string, VBool true)] VNone VNone)) by (destruct b; try reflexivity; contradiction).
  exists [("sigma_e"%string, VNum 0.26); ("ia_enabled"%string, VBool true)], (forget bins), (forget m), (forget b). split; [ exact E | split; [ | split; [ | split ]; apply same_forget ]].
  assert (W2 : roundtrips [bins; m; b] = Ok [forget bins; forget m; forget b]) by (unfold roundtrips; rewrite (roundtrip_wf bins (made_wf _ Mb)), (roundtrip_wf m (made_wf _ Mm)), (roundtrip_wf b (made_wf _ Mi)); reflexivity).
  rewrite roundtrip_eq. unfold flatten. simpl is_nz. cbv iota. unfold fst, snd. rewrite W2. unfold bind.
  rewrite (wl_unflatten (forget bins) (forget m) (Some (forget b))).
  - unfold wl_tail. destruct m; try reflexivity. contradiction.
  - exists (VNum 0.26), [("ia_enabled"%string, VBool true)]. repeat split; reflexivity.
Qed.
(** after two round trips the values are back where they were (without intrinsic alignments) *)
Lemma wl_twice bins m : made bins -> made m -> m <> VNone ->
  exists cfg bins' m', construct WeakLensing [bins] [("multiplicative_bias"%string, m)] = Ok (VObj WeakLensing [bins; m] cfg VNone VNone) /\
    roundtrip_n 2 (VObj WeakLensing [bins; m] cfg VNone VNone) = Ok (VObj WeakLensing [bins'; m'; VNum 0.0] cfg VNone VNone) /\ same bins bins' /\ same m m'.
Proof.
  intros Mb Mm nm. set (cfg := [("sigma_e"%string, VNum 0.26); ("ia_enabled"%string, VBool false)]).
  assert (CC : wl_cfg cfg) by (exists (VNum 0.26), [("ia_enabled"%string, VBool false)]; repeat split; reflexivity).
  exists cfg, (forget bins), (forget m). split; [ reflexivity | split; [ | split; apply same_forget ]].
  pose proof (made_wf _ Mb) as Wb. pose proof (made_wf _ Mm) as Wm.
  assert (R1 : roundtrip (VObj WeakLensing [bins; m] cfg VNone VNone) = Ok (VObj WeakLensing [forget bins; VNum 0.0; forget m] cfg VNone VNone)).
  { assert (W : roundtrips [bins; m] = Ok [forget bins; forget m]) by (unfold roundtrips; rewrite (roundtrip_wf bins), (roundtrip_wf m) by assumption; reflexivity).
    rewrite roundtrip_eq. unfold flatten. simpl is_nz. cbv iota. unfold fst, snd. rewrite W. unfold bind. rewrite (wl_unflatten (forget bins) (forget m) None cfg CC). unfold wl_tail. destruct m; try reflexivity. contradiction. }
  assert (R2 : roundtrip (VObj WeakLensing [forget bins; VNum 0.0; forget m] cfg VNone VNone) = Ok (VObj WeakLensing [forget bins; forget m; VNum 0.0] cfg VNone VNone)).
  { assert (W : roundtrips [forget bins; VNum 0.0; forget m] = Ok [forget bins; VNum 0.0; forget m]).
    { unfold roundtrips. rewrite (roundtrip_wf (forget bins)), (roundtrip_wf (forget m)) by now apply forget_wf. simpl. now rewrite !forget_forget. }
    rewrite roundtrip_eq. unfold flatten. simpl is_nz. cbv iota. unfold fst, snd. rewrite W. unfold bind. rewrite (wl_unflatten (forget bins) (VNum 0.0) (Some (forget m)) cfg CC). reflexivity. }
  unfold roundtrip_n. rewrite R1. unfold bind. rewrite R2. reflexivity.
Qed.
