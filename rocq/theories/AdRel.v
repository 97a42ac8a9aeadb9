(** * Curves of arrays against arrays of numbers

    A relation [rel] between curves R -> X and values Y, lifted to lists ([lr]) and to results that may raise ([rr]). *)
From Verif Require Import Np Core Integrate Probes AngularCl.

Definition respects {X Y} (rl : (R -> X) -> Y -> Prop) : Prop := forall f h y, (forall s, f s = h s) -> rl f y -> rl h y.
Inductive lr {X Y} (rl : (R -> X) -> Y -> Prop) : (R -> list X) -> list Y -> Prop :=
  | lr_nil f : (forall s, f s = []) -> lr rl f []
  | lr_cons f x fx y l : (forall s, f s = x s :: fx s) -> rl x y -> lr rl fx l -> lr rl f (y :: l).
Inductive rr {X Y} (rl : (R -> X) -> Y -> Prop) : (R -> res X) -> res Y -> Prop :=
  | rr_ok f x y : (forall s, f s = Ok (x s)) -> rl x y -> rr rl f (Ok y)
  | rr_err f e : (forall s, f s = Err e) -> rr rl f (Err e).
(** values that do not depend on the parameters *)
Definition same {X} (f : R -> X) (x : X) : Prop := forall s, f s = x.

Lemma lr_respects {X Y} (rl : (R -> X) -> Y -> Prop) : respects (lr rl).
Proof. intros f h y E Hl. revert h E. destruct Hl as [f H | f x fx q l H P Q]; intros h E; [ apply lr_nil | apply (lr_cons _ _ x fx); auto ]; intros s; now rewrite <- E. Qed.
Lemma rr_respects {X Y} (rl : (R -> X) -> Y -> Prop) : respects (rr rl).
Proof. intros f h y E Hl. revert h E. destruct Hl as [f x q H P | f e H]; intros h E; [ apply (rr_ok _ _ x); auto | apply rr_err ]; intros s; now rewrite <- E. Qed.
Lemma same_respects {X} : respects (@same X).
Proof. intros f h y E H s. now rewrite <- E. Qed.
Lemma lr_length {X Y} (rl : (R -> X) -> Y -> Prop) f l : lr rl f l -> forall s, length (f s) = length l.
Proof. induction 1 as [f H | f x fx y l H P Q IH]; intros s; rewrite H; [ reflexivity | cbn [length]; now rewrite IH ]. Qed.
Lemma lr_cons' {X Y} (rl : (R -> X) -> Y -> Prop) x fx y l : rl x y -> lr rl fx l -> lr rl (fun s => x s :: fx s) (y :: l).
Proof. intros P Q. now apply (lr_cons _ _ x fx). Qed.
Lemma lr_nil' {X Y} (rl : (R -> X) -> Y -> Prop) : lr rl (fun _ => []) [].
Proof. now apply lr_nil. Qed.
Lemma lr_map {X Y X' Y'} (rl : (R -> X) -> Y -> Prop) (rl' : (R -> X') -> Y' -> Prop) (F : R -> X -> X') (G : Y -> Y') f l :
  (forall x y, rl x y -> rl' (fun s => F s (x s)) (G y)) -> lr rl f l -> lr rl' (fun s => map (F s) (f s)) (map G l).
Proof.
  intros HF. induction 1 as [f H | f x fx y l H P Q IH]; [ apply lr_nil; intros s; now rewrite H | ].
  apply (lr_cons _ _ (fun s => F s (x s)) (fun s => map (F s) (fx s))); auto. intros s; now rewrite H.
Qed.
Lemma lr_mapc {Z X Y} (rl : (R -> X) -> Y -> Prop) (F : R -> Z -> X) (G : Z -> Y) L :
  (forall q, In q L -> rl (fun s => F s q) (G q)) -> lr rl (fun s => map (F s) L) (map G L).
Proof.
  intros HF. induction L as [ | q L IH]; [ apply lr_nil' | ]. cbn [map]. apply lr_cons'; [ apply HF; now left | ].
  apply IH. intros p Hp. apply HF. now right.
Qed.
Lemma lr_const {X} (L : list X) : lr same (fun _ => L) L.
Proof. induction L as [ | q L IH]; [ apply lr_nil' | ]. apply (lr_cons _ _ (fun _ => q) (fun _ => L)); auto. intros s; reflexivity. Qed.
Lemma lr_map2 {X Y X' Y' X2 Y2} (rl : (R -> X) -> Y -> Prop) (rl' : (R -> X') -> Y' -> Prop) (rl2 : (R -> X2) -> Y2 -> Prop)
    (F : R -> X -> X' -> X2) (G : Y -> Y' -> Y2) f l f' l' :
  (forall x y x' y', rl x y -> rl' x' y' -> rl2 (fun s => F s (x s) (x' s)) (G y y')) -> lr rl f l -> lr rl' f' l' ->
  lr rl2 (fun s => map2 (F s) (f s) (f' s)) (map2 G l l').
Proof.
  intros HF Hl. revert f' l'. induction Hl as [f H | f x fx y l H P Q IH]; intros f' l' Hl'; [ apply lr_nil; intros s; now rewrite H | ].
  destruct Hl' as [f' H' | f' x' fx' y' l' H' P' Q']; [ apply lr_nil; intros s; now rewrite H, H' | ].
  cbn [map2]. apply (lr_cons _ _ (fun s => F s (x s) (x' s)) (fun s => map2 (F s) (fx s) (fx' s))); auto.
  intros s; now rewrite H, H'.
Qed.
Lemma lr_nth {X Y} (rl : (R -> X) -> Y -> Prop) f l dx dy i : respects rl -> rl (fun _ => dx) dy -> lr rl f l -> rl (fun s => nth i (f s) dx) (nth i l dy).
Proof.
  intros HR HD Hl. revert i. induction Hl as [f H | f x fx y l H P Q IH]; intros i.
  - apply (HR (fun _ => dx)); [ intros s; rewrite H; now destruct i | now destruct i ].
  - destruct i as [ | i]; cbn [nth]; [ apply (HR x); [ intros s; now rewrite H | exact P ] | ].
    apply (HR (fun s => nth i (fx s) dx)); [ intros s; now rewrite H | apply IH ].
Qed.
Lemma lr_app {X Y} (rl : (R -> X) -> Y -> Prop) f l f' l' : lr rl f l -> lr rl f' l' -> lr rl (fun s => f s ++ f' s)%list (l ++ l')%list.
Proof.
  intros Hl Hl'. induction Hl as [f H | f x fx y l H P Q IH]; [ apply (lr_respects rl f'); [ intros s; now rewrite H | exact Hl' ] | ].
  cbn [app]. apply (lr_cons _ _ x (fun s => fx s ++ f' s)%list); auto. intros s; now rewrite H.
Qed.
Lemma lr_concat {X Y} (rl : (R -> X) -> Y -> Prop) f l : lr (lr rl) f l -> lr rl (fun s => concat (f s)) (concat l).
Proof.
  induction 1 as [f H | f x fx y l H P Q IH]; [ apply lr_nil; intros s; now rewrite H | ].
  cbn [concat]. apply (lr_respects rl (fun s => x s ++ concat (fx s))%list); [ intros s; now rewrite H | now apply lr_app ].
Qed.
Lemma lr_tl {X Y} (rl : (R -> X) -> Y -> Prop) f l : lr rl f l -> lr rl (fun s => tl (f s)) (tl l).
Proof. intros [f' H | f' x fx y l' H P Q]; [ apply lr_nil; intros s; now rewrite H | apply (lr_respects rl fx); [ intros s; now rewrite H | exact Q ] ]. Qed.
Lemma lr_skipn {X Y} (rl : (R -> X) -> Y -> Prop) n : forall f l, lr rl f l -> lr rl (fun s => skipn n (f s)) (skipn n l).
Proof.
  induction n as [ | n IH]; intros f l Hl; [ exact Hl | ]. destruct Hl as [f H | f x fx y l H P Q]; [ apply lr_nil; intros s; now rewrite H | ].
  cbn [skipn]. apply (lr_respects rl (fun s => skipn n (fx s))); [ intros s; now rewrite H | now apply IH ].
Qed.
Lemma lr_removelast {X Y} (rl : (R -> X) -> Y -> Prop) f l : lr rl f l -> lr rl (fun s => removelast (f s)) (removelast l).
Proof.
  induction 1 as [f H | f x fx y l H P Q IH]; [ apply lr_nil; intros s; now rewrite H | ].
  destruct Q as [fx H' | fx x' fx' y' l' H' P' Q']; [ apply lr_nil; intros s; now rewrite H, H' | ].
  change (removelast (y :: y' :: l')) with (y :: removelast (y' :: l')).
  apply (lr_cons _ _ x (fun s => removelast (fx s))); auto. intros s. rewrite H, H'. reflexivity.
Qed.
Lemma lr_evens_both {X Y} (rl : (R -> X) -> Y -> Prop) f l : lr rl f l -> lr rl (fun s => evens (f s)) (evens l) /\ forall x y, rl x y -> lr rl (fun s => evens (x s :: f s)) (evens (y :: l)).
Proof.
  induction 1 as [f H | f x fx y l H P Q [IH1 IH2]]; [ split; [ | intros x y P ] | split; [ | intros x' y' P' ]].
  - apply lr_nil; intros s; now rewrite H.
  - apply (lr_cons _ _ x (fun _ => [])); [ intros s; now rewrite H | exact P | apply lr_nil' ].
  - apply (lr_respects rl (fun s => evens (x s :: fx s))); [ intros s; now rewrite H | now apply IH2 ].
  - cbn [evens]. apply (lr_cons _ _ x' (fun s => evens (fx s))); [ intros s; now rewrite H | exact P' | exact IH1 ].
Qed.
Lemma lr_evens {X Y} (rl : (R -> X) -> Y -> Prop) f l : lr rl f l -> lr rl (fun s => evens (f s)) (evens l).
Proof. intros Hl. now apply lr_evens_both. Qed.
Lemma lr_odds {X Y} (rl : (R -> X) -> Y -> Prop) f l : lr rl f l -> lr rl (fun s => odds (f s)) (odds l).
Proof. intros Hl. now apply lr_evens, lr_tl. Qed.
Lemma lr_repeat {X Y} (rl : (R -> X) -> Y -> Prop) x y n : rl x y -> lr rl (fun s => repeat (x s) n) (repeat y n).
Proof. intros P. induction n as [ | n IH]; [ apply lr_nil' | cbn [repeat]; now apply lr_cons' ]. Qed.
Lemma lr_fold {X Y X' Y'} (rl : (R -> X) -> Y -> Prop) (rl' : (R -> X') -> Y' -> Prop) (F : R -> X -> X' -> X') (G : Y -> Y' -> Y') f l z z' :
  respects rl' -> (forall x y u v, rl x y -> rl' u v -> rl' (fun s => F s (x s) (u s)) (G y v)) -> rl' z z' -> lr rl f l ->
  rl' (fun s => fold_right (F s) (z s) (f s)) (fold_right G z' l).
Proof.
  intros HR HF HZ. induction 1 as [f H | f x fx y l H P Q IH]; [ apply (HR z); [ intros s; now rewrite H | exact HZ ] | ].
  cbn [fold_right]. apply (HR (fun s => F s (x s) (fold_right (F s) (z s) (fx s)))); [ intros s; now rewrite H | now apply HF ].
Qed.
Lemma lr_tab {X Y} (rl : (R -> X) -> Y -> Prop) (F : R -> nat -> X) (G : nat -> Y) n : (forall i, (i < n)%nat -> rl (fun s => F s i) (G i)) -> lr rl (fun s => tab n (F s)) (tab n G).
Proof. intros HF. apply lr_mapc. intros i Hi. apply in_seq in Hi. apply HF. lia. Qed.
Lemma lr_stack1 {X Y} (rl : (R -> X) -> Y -> Prop) dx dy n f l : respects rl -> rl (fun _ => dx) dy -> lr (lr rl) f l -> lr (lr rl) (fun s => stack1 dx n (f s)) (stack1 dy n l).
Proof.
  intros HR HD Hl. unfold stack1. apply lr_tab. intros i _. apply (lr_map (lr rl) rl (fun _ r => nth i r dx) (fun r => nth i r dy)); [ | exact Hl ].
  intros x y Hx. now apply lr_nth.
Qed.

Lemma rr_bind {X Y X' Y'} (rl : (R -> X) -> Y -> Prop) (rl' : (R -> X') -> Y' -> Prop) f r (F : R -> X -> res X') (G : Y -> res Y') :
  rr rl f r -> (forall x y, rl x y -> rr rl' (fun s => F s (x s)) (G y)) -> rr rl' (fun s => bind (f s) (F s)) (bind r G).
Proof.
  intros [f' x y H P | f' e H] HF; cbn [bind]; [ | apply rr_err; intros s; now rewrite H ].
  apply (rr_respects rl' (fun s => F s (x s))); [ intros s; now rewrite H | now apply HF ].
Qed.
Lemma rr_ok' {X Y} (rl : (R -> X) -> Y -> Prop) x y : rl x y -> rr rl (fun s => Ok (x s)) (Ok y).
Proof. intros P. now apply (rr_ok _ _ x). Qed.
Lemma rr_err' {X Y} (rl : (R -> X) -> Y -> Prop) e : rr rl (fun _ => Err e) (Err e).
Proof. now apply rr_err. Qed.
Lemma rr_same {X} (r : res X) : rr same (fun _ => r) r.
Proof. destruct r as [x | e]; [ apply (rr_ok _ _ (fun _ => x)); [ reflexivity | intros s; reflexivity ] | apply rr_err' ]. Qed.
(** bind of a result that does not depend on the parameters *)
Lemma rr_bindc {Z X Y} (rl : (R -> X) -> Y -> Prop) (r : res Z) (F : R -> Z -> res X) (G : Z -> res Y) :
  (forall z, r = Ok z -> rr rl (fun s => F s z) (G z)) -> rr rl (fun s => bind r (F s)) (bind r G).
Proof. intros HF. destruct r as [z | e]; cbn [bind]; [ now apply HF | apply rr_err' ]. Qed.
Lemma rr_mapM {Z X Y} (rl : (R -> X) -> Y -> Prop) (F : R -> Z -> res X) (G : Z -> res Y) L :
  (forall q, In q L -> rr rl (fun s => F s q) (G q)) -> rr (lr rl) (fun s => mapM (F s) L) (mapM G L).
Proof.
  intros HF. induction L as [ | q L IH]; [ apply (rr_ok' (lr rl) (fun _ => [])), lr_nil' | ]. cbn [mapM].
  apply (rr_bind rl (lr rl)); [ apply HF; now left | ]. intros x y P.
  apply (rr_bind (lr rl) (lr rl) _ _ (fun s ys => Ok (x s :: ys))); [ apply IH; intros p Hp; apply HF; now right | ].
  intros xs ys Q. apply (rr_ok' (lr rl) (fun s => x s :: xs s)). now apply lr_cons'.
Qed.
Lemma rr_bcast {X Y X' Y' X2 Y2} (rl : (R -> X) -> Y -> Prop) (rl' : (R -> X') -> Y' -> Prop) (rl2 : (R -> X2) -> Y2 -> Prop)
    (F : X -> X' -> X2) (G : Y -> Y' -> Y2) f l f' l' :
  (forall x y x' y', rl x y -> rl' x' y' -> rl2 (fun s => F (x s) (x' s)) (G y y')) -> lr rl f l -> lr rl' f' l' ->
  rr (lr rl2) (fun s => bcast F (f s) (f' s)) (bcast G l l').
Proof.
  intros HF Hl Hl'. destruct (Nat.eqb (length l) (length l')) eqn:EL.
  { apply (rr_respects _ (fun s => Ok (map2 F (f s) (f' s)))).
    - intros s. unfold bcast. now rewrite (lr_length rl f l Hl), (lr_length rl' f' l' Hl'), EL.
    - unfold bcast. rewrite EL. apply rr_ok'. now apply (lr_map2 rl rl' rl2 (fun _ => F) G). }
  assert (Hm := fun y x (P : rl' x y) => lr_map rl rl2 (fun s q => F q (x s)) (fun q => G q y) f l (fun a b Q => HF a b x y Q P) Hl).
  assert (Hm' := fun y x (P : rl x y) => lr_map rl' rl2 (fun s q => F (x s) q) (fun q => G y q) f' l' (fun a b Q => HF x y a b P Q) Hl').
  assert (EF : forall s, bcast F (f s) (f' s) = match f s, f' s with _, [y] => Ok (map (fun x => F x y) (f s)) | [x], _ => Ok (map (fun y => F x y) (f' s)) | _, _ => Err TypeError end).
  { intros s. unfold bcast. now rewrite (lr_length rl f l Hl), (lr_length rl' f' l' Hl'), EL. }
  apply (rr_respects _ _ _ _ (fun s => eq_sym (EF s))). unfold bcast. rewrite EL. clear EF.
  destruct Hl' as [f' H' | f' x' fx' y' l' H' P' Q'].
  - destruct Hl as [f H | f x fx y l H P Q]; [ cbn in EL; discriminate | ].
    destruct Q as [fx Hx | fx x2 fx2 y2 l2 Hx P2 Q2].
    + apply (rr_respects _ (fun s => Ok (map (fun y0 => F (x s) y0) (f' s)))); [ intros s; now rewrite H, Hx, H' | apply rr_ok', Hm', P ].
    + apply rr_err. intros s. now rewrite H, Hx, H'.
  - destruct Q' as [fx' Hx' | fx' x2' fx2' y2' l2' Hx' P2' Q2'].
    + apply (rr_respects _ (fun s => Ok (map (fun x0 => F x0 (x' s)) (f s)))); [ intros s; rewrite H', Hx'; now destruct (f s) as [ | ? [ | ? ?]] | ].
      specialize (Hm y' x' P'). destruct l as [ | ? [ | ? ?]]; apply rr_ok', Hm.
    + destruct Hl as [f H | f x fx y l H P Q]; [ apply rr_err; intros s; now rewrite H, H', Hx' | ].
      destruct Q as [fx Hx | fx x2 fx2 y2 l2 Hx P2 Q2].
      * apply (rr_respects _ (fun s => Ok (map (fun y0 => F (x s) y0) (f' s)))); [ intros s; now rewrite H, Hx, H', Hx' | apply rr_ok', Hm', P ].
      * apply rr_err. intros s. now rewrite H, Hx, H', Hx'.
Qed.
Lemma rr_cases {X Y} (rl : (R -> X) -> Y -> Prop) f r : rr rl f r -> (exists x y, r = Ok y /\ (forall s, f s = Ok (x s)) /\ rl x y) \/ (exists e, r = Err e /\ forall s, f s = Err e).
Proof. intros [f' x y E P | f' e E]; [ left; now exists x, y | right; now exists e ]. Qed.
