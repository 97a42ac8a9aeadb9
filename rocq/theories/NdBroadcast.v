(** * Broadcasting of arrays of any rank: chains of elementwise operations *)
From Verif Require Import Np NpLemmas Interp Nd NdSpec NzArr NzArrProofs PowerNd PowerNdSpec.

(** shapes read from the right: [t] stretches to [s] *)
Fixpoint under (t s : list nat) : Prop :=
  match t, s with [], _ => True | _, [] => False | m :: t', n :: s' => (m = n \/ m = 1%nat) /\ under t' s' end.
Definition fits (t s : list nat) : Prop := under (rev t) (rev s).

Lemma under_refl t : under t t.
Proof. induction t; simpl; auto. Qed.
Lemma under_app t w : under t (t ++ w).
Proof. induction t; simpl; auto. Qed.
Lemma under_trans t : forall u s, under t u -> under u s -> under t s.
Proof.
  induction t as [ | m t IH]; intros [ | n u] [ | p s]; simpl; try tauto. intros [H1 H2] [H3 H4]. split; [ | now apply (IH u) ].
  destruct H1 as [-> | ->]; tauto.
Qed.
Lemma under_antisym t : forall s, under t s -> under s t -> t = s.
Proof. induction t as [ | m t IH]; intros [ | n s]; simpl; try tauto. intros [H1 H2] [H3 H4]. f_equal; [ lia | now apply IH ]. Qed.
Lemma under_length t : forall s, under t s -> (length t <= length s)%nat.
Proof. induction t as [ | m t IH]; intros [ | n s]; simpl; try tauto; try lia. intros [_ H]. specialize (IH s H). lia. Qed.
Lemma bshape_rev_nil t : bshape_rev t [] = Some t.
Proof. destruct t; reflexivity. Qed.
Lemma join t : forall u s, under t s -> under u s -> exists v, bshape_rev t u = Some v /\ under v s /\ under t v /\ under u v.
Proof.
  induction t as [ | m t IH]; intros u s Ht Hu.
  { exists u. exact (conj eq_refl (conj Hu (conj I (under_refl u)))). }
  destruct u as [ | n u].
  { exists (m :: t). exact (conj eq_refl (conj Ht (conj (under_refl _) I))). }
  destruct s as [ | p s]; [ contradiction | ]. destruct Ht as [Hm Ht], Hu as [Hn Hu]. destruct (IH u s Ht Hu) as (v & E & Hv & Htv & Huv).
  cbn [bshape_rev]. rewrite E. destruct (Nat.eqb_spec m n) as [-> | N]; [ | destruct (Nat.eqb_spec m 1) as [-> | N1]; [ | destruct (Nat.eqb_spec n 1) as [-> | N2]; [ | lia ]]].
  - exists (n :: v). simpl. tauto.
  - exists (n :: v). simpl. tauto.
  - exists (m :: v). simpl. tauto.
Qed.
Lemma join_least t : forall u s v, bshape_rev t u = Some s -> under t v -> under u v -> under s v.
Proof.
  induction t as [ | m t IH]; intros u s v E Ht Hu; cbn [bshape_rev] in E; [ now injection E as <- | ].
  destruct u as [ | n u]; [ now injection E as <- | ]. destruct v as [ | p v]; [ contradiction | ]. destruct Ht as [Hm Ht], Hu as [Hn Hu].
  destruct (bshape_rev t u) as [r | ] eqn:Er; [ | discriminate ]. specialize (IH u r v Er Ht Hu).
  destruct (Nat.eqb m n); [ injection E as <-; simpl; tauto | ]. destruct (Nat.eqb m 1); [ injection E as <-; simpl; tauto | ].
  destruct (Nat.eqb n 1); [ injection E as <-; simpl; tauto | discriminate ].
Qed.
Lemma join_upper t : forall u s, bshape_rev t u = Some s -> under t s /\ under u s.
Proof.
  induction t as [ | m t IH]; intros u s E; cbn [bshape_rev] in E; [ injection E as <-; split; [ exact I | apply under_refl ] | ].
  destruct u as [ | n u]; [ injection E as <-; split; [ apply under_refl | exact I ] | ].
  destruct (bshape_rev t u) as [r | ] eqn:Er; [ | discriminate ]. destruct (IH u r Er) as [A B].
  destruct (Nat.eqb_spec m n) as [-> | ]; [ injection E as <-; simpl; tauto | ]. destruct (Nat.eqb_spec m 1) as [-> | ]; [ injection E as <-; simpl; tauto | ].
  destruct (Nat.eqb_spec n 1) as [-> | ]; [ injection E as <-; simpl; tauto | discriminate ].
Qed.

Lemma inside_length s i : inside s i -> length i = length s.
Proof. induction 1; simpl; [ reflexivity | now f_equal ]. Qed.

(** reading an index through two shapes *)
Definition red : list nat -> list nat -> list nat := map2 (fun d k => if Nat.eqb d 1 then 0%nat else k).
Lemma map2_app {A B C} (g : A -> B -> C) l : forall m l' m', length l = length m -> map2 g (l ++ l') (m ++ m') = map2 g l m ++ map2 g l' m'.
Proof. induction l as [ | x l IH]; intros [ | y m] l' m' H; try discriminate; simpl; [ reflexivity | ]. f_equal. apply IH. now injection H. Qed.
Lemma rev_map2 {A B C} (g : A -> B -> C) l : forall m, length l = length m -> rev (map2 g l m) = map2 g (rev l) (rev m).
Proof.
  induction l as [ | x l IH]; intros [ | y m] H; try discriminate; [ reflexivity | ]. cbn [map2 rev]. rewrite map2_app by (rewrite !rev_length; now injection H).
  rewrite IH by now injection H. reflexivity.
Qed.
Lemma red_firstn t : forall r, red t (firstn (length t) r) = red t r.
Proof. induction t as [ | m t IH]; intros [ | k r]; try reflexivity. unfold red in *. cbn. now rewrite IH. Qed.
Lemma rev_bidx t i : (length t <= length i)%nat -> rev (bidx t i) = red (rev t) (rev i).
Proof.
  intros L. unfold bidx. rewrite rev_map2 by (rewrite skipn_length; lia).
  rewrite <- (red_firstn (rev t) (rev i)). unfold red. f_equal. rewrite rev_length, firstn_rev. reflexivity.
Qed.
Lemma length_bidx t i : (length t <= length i)%nat -> length (bidx t i) = length t.
Proof. intros L. unfold bidx. rewrite length_map2, skipn_length. lia. Qed.
Lemma red_red t : forall v i, under t v -> (length v <= length i)%nat -> red t (red v i) = red t i.
Proof.
  induction t as [ | m t IH]; intros [ | n v] [ | k i] H L; simpl in *; try contradiction; try reflexivity; try lia.
  unfold red in *. cbn [map2]. destruct H as [Hm H]. rewrite IH by (exact H || lia). f_equal.
  destruct (Nat.eqb_spec m 1); [ reflexivity | ]. destruct (Nat.eqb_spec n 1); [ lia | reflexivity ].
Qed.
Lemma bidx_bidx t v i : fits t v -> (length v <= length i)%nat -> bidx t (bidx v i) = bidx t i.
Proof.
  intros H L. assert (L' : (length t <= length v)%nat) by (apply under_length in H; now rewrite !rev_length in H).
  rewrite <- (rev_involutive (bidx t (bidx v i))), <- (rev_involutive (bidx t i)). f_equal.
  rewrite rev_bidx by (rewrite length_bidx by exact L; exact L'). rewrite !rev_bidx by lia. apply red_red; [ exact H | rewrite !rev_length; exact L ].
Qed.

(** x stands for the values f on the indices of shape s *)
Definition nrep (s : list nat) (x : nd) (f : list nat -> R) : Prop := fits (shp x) s /\ forall i, inside s i -> get x (bidx (shp x) i) = f i.
Lemma nrep_ext s x f g : (forall i, inside s i -> f i = g i) -> nrep s x f -> nrep s x g.
Proof. intros E [H H']. split; [ exact H | ]. intros i Hi. rewrite H' by exact Hi. now apply E. Qed.
Lemma nrep_uop s h x f : nrep s x f -> nrep s (uop1 h x) (fun i => h (f i)).
Proof. intros [H H']. split; [ exact H | ]. intros i Hi. cbn [uop1 get shp]. now rewrite H'. Qed.
Lemma nrep_num s q : nrep s (num0 q) (fun _ => q).
Proof. split; [ exact I | reflexivity ]. Qed.
Lemma nrep_bop s h x y f g : nrep s x f -> nrep s y g ->
  exists z, bop2 h x y = Ok z /\ nrep s z (fun i => h (f i) (g i)) /\ fits (shp x) (shp z) /\ fits (shp y) (shp z).
Proof.
  intros [Fx Hx] [Fy Hy]. destruct (join (rev (shp x)) (rev (shp y)) (rev s) Fx Fy) as (v & E & Hv & Hxv & Hyv).
  unfold bop2, bshape. rewrite E. eexists. split; [ reflexivity | ]. unfold nrep, fits. cbn [shp get]. rewrite !rev_involutive.
  split; [ | split; assumption ]. split; [ exact Hv | ]. intros i Hi.
  assert (L : (length (rev v) <= length i)%nat). { rewrite (inside_length _ _ Hi), rev_length. apply under_length in Hv. now rewrite rev_length in Hv. }
  rewrite !bidx_bidx by (exact L || (unfold fits; rewrite rev_involutive; assumption)). now rewrite Hx, Hy.
Qed.
Lemma fits_trans t u s : fits t u -> fits u s -> fits t s.
Proof. apply under_trans. Qed.
(** an array that both operands' shapes stretch to has exactly their joint shape *)
Lemma exact_shape t u s v : bshape t u = Some s -> fits t v -> fits u v -> fits v s -> v = s.
Proof.
  unfold bshape. destruct (bshape_rev (rev t) (rev u)) as [r | ] eqn:E; [ | discriminate ]. intros H. injection H as <-. unfold fits. rewrite rev_involutive. intros A B C.
  rewrite <- (rev_involutive v). f_equal. apply under_antisym; [ exact C | ]. exact (join_least _ _ _ _ E A B).
Qed.
Lemma bshape_fits t u s : bshape t u = Some s -> fits t s /\ fits u s.
Proof.
  unfold bshape. destruct (bshape_rev (rev t) (rev u)) as [r | ] eqn:E; [ | discriminate ]. intros H. injection H as <-. unfold fits. rewrite rev_involutive. exact (join_upper _ _ _ E).
Qed.
Lemma nrep_self s x f : shp x = s -> nrep s x f -> forall i, inside s i -> get x i = f i.
Proof. intros E [_ H] i Hi. rewrite <- H by exact Hi. rewrite E. now rewrite bidx_self. Qed.

(** squeezing *)
Lemma unsqueeze_without s : forall i, inside s i -> unsqueeze s (without_units s i) = i.
Proof.
  induction s as [ | n s IH]; intros i H; inversion H as [ | ? k ? i' Hk Hi]; subst; [ reflexivity | ]. cbn [without_units unsqueeze].
  destruct (Nat.eqb_spec n 1) as [-> | N]; [ rewrite IH by exact Hi; f_equal; lia | ]. cbn [hd tl]. now rewrite IH.
Qed.
Lemma squeeze_holds s x f : shp x = s -> nrep s x f -> holds_on s (squeeze_nd x) f.
Proof.
  intros E H. split; [ now rewrite <- E | ]. intros i Hi. cbn [squeeze_nd get]. rewrite E, unsqueeze_without by exact Hi. exact (nrep_self s x f E H i Hi).
Qed.
Lemma squeezed_units j t : ~ In 1%nat t -> squeezed (repeat 1%nat j ++ t) = t.
Proof.
  intros N. induction j as [ | j IH]; [ | exact IH ]. cbn [repeat app]. induction t as [ | n t IH]; [ reflexivity | ]. cbn [squeezed filter]. simpl in N.
  destruct (Nat.eqb_spec n 1); [ tauto | ]. cbn [negb]. unfold squeezed in IH. rewrite IH by tauto. reflexivity.
Qed.
Lemma without_units_all t : forall i, ~ In 1%nat t -> inside t i -> without_units t i = i.
Proof.
  induction t as [ | n t IH]; intros i N H; inversion H as [ | ? k ? i' Hk Hi]; subst; [ reflexivity | ]. cbn [without_units]. simpl in N. destruct (Nat.eqb_spec n 1); [ tauto | ]. now rewrite IH by tauto.
Qed.
Lemma bidx_units j t : forall i, ~ In 1%nat t -> inside (repeat 1%nat j ++ t) i -> bidx t i = without_units (repeat 1%nat j ++ t) i.
Proof.
  induction j as [ | j IH]; intros i N H; cbn [repeat app] in *.
  { rewrite without_units_all by assumption. now apply bidx_self. }
  inversion H as [ | ? k ? i' Hk Hi]; subst. cbn [without_units Nat.eqb]. rewrite <- IH by assumption. unfold bidx. f_equal.
  pose proof (inside_length _ _ Hi) as L. rewrite app_length, repeat_length in L. cbn [length]. replace (Datatypes.S (length i') - length t)%nat with (Datatypes.S (length i' - length t)) by lia. reflexivity.
Qed.
Lemma nrep_squeezed s x f : units_first s -> shp x = s -> nrep s x f -> nrep s (squeeze_nd x) f.
Proof.
  intros (j & t & -> & N) E H. split; cbn [squeeze_nd shp get].
  { rewrite E, squeezed_units by exact N. unfold fits. rewrite rev_app_distr. apply under_app. }
  intros i Hi. rewrite E, squeezed_units by exact N. rewrite (bidx_units j t i N Hi), unsqueeze_without by exact Hi.
  exact (nrep_self _ x f E H i Hi).
Qed.
