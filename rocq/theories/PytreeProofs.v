(** * Proofs about the pytree round trip *)
From Verif Require Import Np Redshift Bias Probes Pytree PytreeSpec.

(** induction over nested values *)
Section ValInd.
Variable P : val -> Prop.
Hypothesis Hn : forall r, P (VNum r).
Hypothesis Ha : forall v, P (VArr v).
Hypothesis Ho : P VNone.
Hypothesis Hb : forall b, P (VBool b).
Hypothesis Hs : forall s, P (VStr s).
Hypothesis Ht : forall l, Forall P l -> P (VTuple l).
Hypothesis Hl : forall l, Forall P l -> P (VList l).
Hypothesis Hobj : forall c ps cfg g n, Forall P ps -> P g -> P (VObj c ps cfg g n).
Fixpoint val_ind' (v : val) : P v :=
  let fix all (l : list val) : Forall P l := match l with [] => Forall_nil _ | x :: l' => Forall_cons _ (val_ind' x) (all l') end in
  match v with
  | VNum r => Hn r | VArr v => Ha v | VNone => Ho | VBool b => Hb b | VStr s => Hs s
  | VTuple l => Ht l (all l) | VList l => Hl l (all l)
  | VObj c ps cfg g n => Hobj c ps cfg g n (all ps) (val_ind' g)
  end.
End ValInd.

(** the object with its caches as the constructor leaves them *)
Definition fresh_norm (c : cls) : val := match c with Delta_nz => VNum 1.0 | _ => VNone end.
Fixpoint forget (v : val) : val :=
  match v with
  | VTuple l => VTuple (map forget l)
  | VList l => VList (map forget l)
  | VObj c ps cfg g _ => VObj c (map forget ps) cfg (forget g) (fresh_norm c)
  | _ => v
  end.
Definition absent (k : string) (d : kwargs) : Prop := has k d = false.
Definition cfg_ok (c : cls) (ps : list val) (cfg : kwargs) (g : val) : Prop :=
  if is_nz c then exists z rest, cfg = ("zmax"%string, z) :: rest /\ absent "zmax" rest /\ absent "gals_per_arcmin2" rest
  else g = VNone /\ match c with
    | NumberCounts => exists bins b r rest, ps = [bins; b] /\ cfg = ("has_rsd"%string, r) :: rest /\ absent "has_rsd" rest /\ absent "redshift_bins" rest /\ absent "bias" rest
    | WeakLensing => False
    | _ => True
    end.
Inductive wf : val -> Prop :=
  | wf_num r : wf (VNum r) | wf_arr v : wf (VArr v) | wf_none : wf VNone | wf_bool b : wf (VBool b) | wf_str s : wf (VStr s)
  | wf_tuple l : Forall wf l -> wf (VTuple l)
  | wf_list l : Forall wf l -> wf (VList l)
  | wf_obj c ps cfg g n : Forall wf ps -> wf g -> cfg_ok c ps cfg g -> wf (VObj c ps cfg g n).

(** dicts *)
Lemma has_remove k d : has k (remove k d) = false.
Proof.
  unfold has. assert (E : lookup k (remove k d) = None); [ | now rewrite E ]. induction d as [ | [k' v] d IH]; [ reflexivity | ]. simpl. destruct (String.eqb k k') eqn:E; simpl; [ exact IH | now rewrite E ].
Qed.
Lemma lookup_remove_other k k' d : k <> k' -> lookup k (remove k' d) = lookup k d.
Proof.
  intros ne. induction d as [ | [k0 v] d IH]; [ reflexivity | ]. simpl. destruct (String.eqb_spec k' k0) as [<- | n0]; simpl.
  - rewrite IH. apply String.eqb_neq in ne. now rewrite ne.
  - now rewrite IH.
Qed.
Lemma absent_remove_other k k' d : absent k d -> absent k (remove k' d).
Proof.
  unfold absent, has. intros H. destruct (String.eqb_spec k k') as [<- | ne]; [ apply has_remove | ]. now rewrite lookup_remove_other.
Qed.
Lemma lookup_absent k d : absent k d -> lookup k d = None.
Proof. unfold absent, has. now destruct (lookup k d). Qed.
Lemma remove_absent k d : absent k d -> remove k d = d.
Proof.
  unfold absent, has. induction d as [ | [k' v] d IH]; [ reflexivity | ]. simpl. destruct (String.eqb k k') eqn:E; [ discriminate | ]. simpl. intros H. now rewrite IH.
Qed.
Lemma has_remove_other k k' d : k <> k' -> has k (remove k' d) = has k d.
Proof. intros. unfold has. now rewrite lookup_remove_other. Qed.

(** lists *)
Lemma roundtrips_ok l : Forall (fun v => wf v -> roundtrip v = Ok (forget v)) l -> Forall wf l -> roundtrips l = Ok (map forget l).
Proof.
  induction l as [ | x l IH]; intros H W; [ reflexivity | ]. inversion H as [ | ? ? Hx Hl]; subst. inversion W as [ | ? ? Wx Wl]; subst.
  unfold roundtrips in *. simpl. rewrite (Hx Wx), (IH Hl Wl). reflexivity.
Qed.
Lemma roundtrip_eq v : roundtrip v = match v with
  | VTuple l => bind (roundtrips l) (fun l' => Ok (VTuple l'))
  | VList l => bind (roundtrips l) (fun l' => Ok (VList l'))
  | VObj c params config gals _ =>
      bind (roundtrips (fst (flatten c params config gals))) (unflatten c (snd (flatten c params config gals)))
  | _ => Ok v end.
Proof.
  destruct v as [r | v | | b | s | l | l | c ps cfg g n]; try reflexivity. unfold flatten, fst, snd.
  assert (E0 : roundtrip (VObj c ps cfg g n) = if is_nz c then bind (roundtrips ps) (fun ps => bind (roundtrip g) (fun g => unflatten c cfg [VTuple ps; g])) else bind (roundtrips ps) (unflatten c cfg)) by reflexivity.
  rewrite E0. destruct (is_nz c); [ | reflexivity ].
  assert (E1 : roundtrips [VTuple ps; g] = bind (bind (roundtrips ps) (fun l' => Ok (VTuple l'))) (fun x' => bind (bind (roundtrip g) (fun x'' => Ok [x''])) (fun l'' => Ok (x' :: l'')))) by reflexivity.
  rewrite E1. destruct (roundtrips ps) as [ps' | e]; [ | reflexivity ]. simpl. destruct (roundtrip g); reflexivity.
Qed.

Lemma roundtrip_wf v : wf v -> roundtrip v = Ok (forget v).
Proof.
  induction v as [r | v | | b | s | l IH | l IH | c ps cfg g n IHp IHg] using val_ind'; intros W; try reflexivity.
  - rewrite roundtrip_eq. inversion W as [ | | | | | ? WL | | ]; subst. now rewrite (roundtrips_ok l IH WL).
  - rewrite roundtrip_eq. inversion W as [ | | | | | | ? WL | ]; subst. now rewrite (roundtrips_ok l IH WL).
  - inversion W as [ | | | | | | | ? ? ? ? ? WP WG C]; subst. rewrite roundtrip_eq. unfold flatten, cfg_ok in *. unfold fst, snd. destruct (is_nz c) eqn:Z.
    + assert (E : roundtrips [VTuple ps; g] = Ok [VTuple (map forget ps); forget g]).
      { unfold roundtrips. rewrite roundtrip_eq. rewrite (roundtrips_ok ps IHp WP). simpl. rewrite (IHg WG). reflexivity. }
      rewrite E. unfold bind. unfold unflatten. rewrite Z. destruct C as (z & rest & -> & A1 & A2).
      unfold kw_cons. replace (has "gals_per_arcmin2" (("zmax"%string, z) :: rest)) with (has "gals_per_arcmin2" rest) by reflexivity. rewrite A2.
      unfold bind, construct. rewrite Z. unfold nz_init. simpl. rewrite (remove_absent _ _ A2), (remove_absent _ _ A1). unfold fresh_norm. destruct c; try reflexivity.
    + rewrite (roundtrips_ok ps IHp WP). unfold bind, unflatten. rewrite Z. unfold construct. rewrite Z. destruct C as [-> C]. destruct c; try discriminate; try reflexivity; [ contradiction | ].
      destruct C as (bins & b & r & rest & -> & -> & A1 & A2 & A3). unfold nc_init. simpl.
      unfold has. simpl. rewrite (lookup_absent _ _ A2), (lookup_absent _ _ A3). simpl. rewrite (remove_absent _ _ A1). unfold kw_cons. rewrite A1. reflexivity.
Qed.
Lemma map_forget_forget l : Forall (fun v => forget (forget v) = forget v) l -> map forget (map forget l) = map forget l.
Proof. induction 1 as [ | x l H _ IH]; [ reflexivity | ]. simpl. now rewrite H, IH. Qed.
Lemma forget_forget v : forget (forget v) = forget v.
Proof. induction v as [r | v | | b | s | l IH | l IH | c ps cfg g n IHp IHg] using val_ind'; try reflexivity; simpl; rewrite map_forget_forget by assumption; [ reflexivity | reflexivity | now rewrite IHg ]. Qed.
Lemma Forall_map_wf l : Forall (fun v => wf v -> wf (forget v)) l -> Forall wf l -> Forall wf (map forget l).
Proof. induction 1 as [ | x l H _ IH]; intros W; [ constructor | ]. inversion W; subst. simpl. constructor; auto. Qed.
Lemma forget_wf v : wf v -> wf (forget v).
Proof.
  induction v as [r | v | | b | s | l IH | l IH | c ps cfg g n IHp IHg] using val_ind'; intros W; try exact W; simpl; inversion W; subst; constructor; try (apply Forall_map_wf; assumption); try (apply IHg; assumption).
  - match goal with H : cfg_ok _ _ _ _ |- _ => rename H into C end. unfold cfg_ok in *. destruct (is_nz c); [ exact C | ]. destruct C as [-> C]. split; [ reflexivity | ]. destruct c; try exact C.
    destruct C as (bins & b & r & rest & -> & Hc). exists (forget bins), (forget b), r, rest. split; [ reflexivity | exact Hc ].
Qed.
Lemma Forall2_map_same l : Forall (fun v => same v (forget v)) l -> Forall2 same l (map forget l).
Proof. induction 1; simpl; constructor; auto. Qed.
Lemma same_forget v : same v (forget v).
Proof. induction v as [r | v | | b | s | l IH | l IH | c ps cfg g n IHp IHg] using val_ind'; simpl; try apply same_refl; constructor; try now apply Forall2_map_same. exact IHg. Qed.

Lemma bind_args_wf names args kw r : bind_args names args kw = Ok r -> forall k, In k names -> absent k (snd r).
Proof.
  revert args kw r. induction names as [ | n names IH]; intros args kw r E k Hk; [ contradiction | ]. simpl in E. destruct args as [ | a args].
  - destruct (bind_args names [] (remove n kw)) as [p | ] eqn:B; [ | discriminate ]. simpl in E. injection E as <-. simpl. destruct Hk as [<- | Hk]; [ | now apply (IH _ _ _ B) ].
    assert (G : forall names args kw r k, bind_args names args kw = Ok r -> absent k kw -> absent k (snd r)).
    { clear. induction names as [ | n names IH]; intros args kw r k E H; simpl in E.
      - destruct args; [ injection E as <-; exact H | discriminate ].
      - destruct args as [ | a args].
        + destruct (bind_args names [] (remove n kw)) as [p | ] eqn:B; [ | discriminate ]. injection E as <-. simpl. eapply IH; [ exact B | now apply absent_remove_other ].
        + destruct (has n kw); [ discriminate | ]. destruct (bind_args names args kw) as [p | ] eqn:B; [ | discriminate ]. injection E as <-. simpl. eapply IH; [ exact B | exact H ]. }
    eapply G; [ exact B | apply has_remove ].
  - destruct (has n kw) eqn:Hh; [ discriminate | ]. destruct (bind_args names args kw) as [p | ] eqn:B; [ | discriminate ]. simpl in E. injection E as <-. simpl.
    destruct Hk as [<- | Hk]; [ | now apply (IH _ _ _ B) ].
    assert (G : forall names args kw r k, bind_args names args kw = Ok r -> absent k kw -> absent k (snd r)).
    { clear. induction names as [ | n names IH]; intros args kw r k E H; simpl in E.
      - destruct args; [ injection E as <-; exact H | discriminate ].
      - destruct args as [ | a args].
        + destruct (bind_args names [] (remove n kw)) as [p | ] eqn:B; [ | discriminate ]. injection E as <-. simpl. eapply IH; [ exact B | now apply absent_remove_other ].
        + destruct (has n kw); [ discriminate | ]. destruct (bind_args names args kw) as [p | ] eqn:B; [ | discriminate ]. injection E as <-. simpl. eapply IH; [ exact B | exact H ]. }
    eapply G; [ exact B | exact Hh ].
Qed.
Lemma lookup_in k d v : lookup k d = Some v -> In (k, v) d.
Proof. induction d as [ | [k' v'] d IH]; simpl; [ discriminate | ]. destruct (String.eqb_spec k k') as [<- | n]; [ intros [= ->]; now left | intros H; right; now apply IH ]. Qed.
Lemma remove_in k d p : In p (remove k d) -> In p d.
Proof. unfold remove. intros H. now apply filter_In in H. Qed.
Lemma bind_args_vals names args kw r : bind_args names args kw = Ok r -> forall v, In (Some v) (fst r) -> In v args \/ exists k, In (k, v) kw.
Proof.
  revert args kw r. induction names as [ | n names IH]; intros args kw r E v Hv; simpl in E.
  - destruct args; [ injection E as <-; contradiction | discriminate ].
  - destruct args as [ | a args].
    + destruct (bind_args names [] (remove n kw)) as [p | ] eqn:B; [ | discriminate ]. injection E as <-. simpl in Hv. destruct Hv as [Hv | Hv].
      * right. exists n. now apply lookup_in.
      * destruct (IH _ _ _ B v Hv) as [[] | [k Hk]]. right. exists k. now apply remove_in in Hk.
    + destruct (has n kw); [ discriminate | ]. destruct (bind_args names args kw) as [p | ] eqn:B; [ | discriminate ]. injection E as <-. simpl in Hv. destruct Hv as [Hv | Hv].
      * injection Hv as ->. left. now left.
      * destruct (IH _ _ _ B v Hv) as [Hi | Hi]; [ left; now right | now right ].
Qed.
Lemma construct_wf c args kw v : c <> WeakLensing -> Forall wf args -> Forall (fun p => wf (snd p)) kw -> construct c args kw = Ok v -> wf v.
Proof.
  intros nw WA WK E. unfold construct in E. destruct (is_nz c) eqn:Z.
  - injection E as <-. unfold nz_init. apply wf_obj; [ exact WA | | ].
    + destruct (lookup "gals_per_arcmin2" kw) as [g | ] eqn:L; simpl; [ | constructor ]. apply lookup_in in L. rewrite Forall_forall in WK. exact (WK _ L).
    + unfold cfg_ok. rewrite Z. eexists. eexists. split; [ reflexivity | split; [ apply has_remove | apply absent_remove_other, has_remove ]].
  - destruct c; try discriminate; try contradiction; try (injection E as <-; apply wf_obj; [ exact WA | constructor | split; [ reflexivity | exact I ]]).
    unfold nc_init in E. destruct (bind_args _ _ _) as [p | ] eqn:B; [ | discriminate ]. unfold bind at 1 in E.
    pose proof (bind_args_vals _ _ _ _ B) as V. pose proof (bind_args_wf _ _ _ _ B) as A.
    destruct (fst p) as [ | [bins | ] [ | [b | ] [ | rsd [ | ? ?]]]] eqn:F; try discriminate.
    unfold kw_cons in E. destruct (has "has_rsd" (snd p)) eqn:H; [ discriminate | ]. simpl in E. injection E as <-. unfold container_init.
    assert (WV : forall v, In (Some v) [Some bins; Some b; rsd] -> wf v).
    { intros v Hv. destruct (V v Hv) as [Hi | [k Hi]]; [ rewrite Forall_forall in WA; now apply WA | rewrite Forall_forall in WK; exact (WK _ Hi) ]. }
    apply wf_obj; [ | constructor | ].
    + repeat constructor; apply WV; simpl; auto.
    + split; [ reflexivity | ]. exists bins, b. eexists. eexists. split; [ reflexivity | split; [ reflexivity | split; [ exact H | split; apply A; simpl; auto ]]].
Qed.
Lemma after_call_wf v r : wf v -> wf (after_call v r).
Proof. intros W. destruct v as [ | | | | | | | c ps cfg g n]; try exact W. destruct n; try exact W. simpl. destruct (is_nz c); [ | exact W ]. inversion W; subst. now constructor. Qed.
Fixpoint made_wf v (H : made v) {struct H} : wf v :=
  let all := fix all (l : list val) (F : Forall made l) : Forall wf l :=
    match F with Forall_nil _ => Forall_nil _ | Forall_cons x Hx Hl => Forall_cons x (made_wf x Hx) (all _ Hl) end in
  let allk := fix allk (l : kwargs) (F : Forall (fun p => made (snd p)) l) : Forall (fun p => wf (snd p)) l :=
    match F in Forall _ l return Forall (fun p => wf (snd p)) l with Forall_nil _ => Forall_nil _ | Forall_cons x Hx Hl => Forall_cons x (made_wf _ Hx) (allk _ Hl) end in
  match H with
  | made_num r => wf_num r | made_arr v => wf_arr v | made_none => wf_none | made_bool b => wf_bool b | made_str s => wf_str s
  | made_tuple l F => wf_tuple l (all l F)
  | made_list l F => wf_list l (all l F)
  | made_new c args kw v nw FA FK E => construct_wf c args kw v nw (all args FA) (allk kw FK) E
  | made_called v r M => after_call_wf v r (made_wf v M)
  end.

(** C29 *)
Lemma roundtrip_n_wf n v : wf v -> roundtrip_n n v = Ok (match n with O => v | _ => forget v end).
Proof.
  revert v. induction n as [ | n IH]; intros v W; [ reflexivity | ]. simpl. rewrite (roundtrip_wf v W). simpl. rewrite (IH _ (forget_wf v W)). destruct n; [ reflexivity | now rewrite forget_forget ].
Qed.
Lemma roundtrip_same v n : made v -> exists w, roundtrip_n n v = Ok w /\ same v w.
Proof.
  intros H. rewrite (roundtrip_n_wf n v (made_wf v H)). eexists. split; [ reflexivity | ]. destruct n; [ apply same_refl | apply same_forget ].
Qed.
(** the fields of an object *)
Lemma roundtrip_fields c ps cfg g n m : made (VObj c ps cfg g n) -> exists ps' g' n', roundtrip_n m (VObj c ps cfg g n) = Ok (VObj c ps' cfg g' n') /\ Forall2 same ps ps' /\ same g g'.
Proof.
  intros H. rewrite (roundtrip_n_wf m _ (made_wf _ H)). destruct m.
  - exists ps, g, n. split; [ reflexivity | split; [ | apply same_refl ]]. induction ps; constructor; [ apply same_refl | ]. clear. induction ps; constructor; auto using same_refl.
  - exists (map forget ps), (forget g), (fresh_norm c). split; [ reflexivity | split; [ | apply same_forget ]]. clear. induction ps; constructor; auto using same_forget.
Qed.
