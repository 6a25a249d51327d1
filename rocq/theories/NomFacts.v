(** Facts about the parser combinators. *)
From Coq Require Import Lia ZifyBool ZifyNat ZifyN.
From Verif Require Import Str Regex State Nom Facts RegexFacts.

(** ** Inversion: what a success means *)

Lemma rbind_ok : forall {A B} (r : res A) (f : A -> res B) b,
  rbind r f = Ok b -> exists a, r = Ok a /\ f a = Ok b.
Proof. intros A B [a| |] f b H; try discriminate. eauto. Qed.

Lemma act_done : forall {A} (f : pst -> res (pst * A)) s i s' r a,
  act f s i = Ok (s', Done r a) -> r = i /\ f s = Ok (s', a).
Proof.
  unfold act. intros. apply rbind_ok in H as ([s1 a1] & H1 & H2). inversion H2; subst. auto.
Qed.

Lemma ret_done : forall {A} (x : A) s i s' r a,
  ret x s i = Ok (s', Done r a) -> s' = s /\ r = i /\ a = x.
Proof. unfold ret. intros. inversion H; subst; auto. Qed.

Lemma bind_done : forall {A B} (p : P A) (f : A -> P B) s i s' r b,
  bind p f s i = Ok (s', Done r b) ->
  exists s1 i1 a, p s i = Ok (s1, Done i1 a) /\ f a s1 i1 = Ok (s', Done r b).
Proof.
  unfold bind. intros. apply rbind_ok in H as ([s1 r1] & H1 & H2).
  destruct r1; try discriminate. eauto 6.
Qed.

Lemma pmap_done : forall {A B} (p : P A) (f : A -> B) s i s' r b,
  pmap p f s i = Ok (s', Done r b) -> exists a, p s i = Ok (s', Done r a) /\ b = f a.
Proof.
  unfold pmap. intros. apply bind_done in H as (s1 & i1 & a & H1 & H2).
  apply ret_done in H2 as (-> & -> & ->). eauto.
Qed.

Lemma complete_done : forall {A} (p : P A) s i s' r a,
  complete p s i = Ok (s', Done r a) -> p s i = Ok (s', Done r a).
Proof.
  unfold complete. intros A p s i s' r a H.
  apply rbind_ok in H as ([s1 r1] & H1 & H2). destruct r1; inversion H2; subst; auto.
Qed.

Lemma complete_error : forall {A} (p : P A) s i s',
  complete p s i = Ok (s', Error) -> (p s i = Ok (s', Error) \/ p s i = Ok (s', Incomplete)).
Proof.
  unfold complete. intros A p s i s' H. apply rbind_ok in H as ([s1 r1] & H1 & H2). destruct r1; inversion H2; subst; auto.
Qed.

Lemma alt_done : forall {A} (p q : P A) s i s' r a,
  alt p q s i = Ok (s', Done r a) ->
  p s i = Ok (s', Done r a) \/
  exists s1, p s i = Ok (s1, Error) /\ q s1 i = Ok (s', Done r a).
Proof.
  unfold alt. intros. apply rbind_ok in H as ([s1 r1] & H1 & H2).
  destruct r1; inversion H2; subst; eauto.
Qed.

Lemma opt_done : forall {A} (p : P A) s i s' r a,
  opt p s i = Ok (s', Done r a) ->
  (exists x, a = Some x /\ p s i = Ok (s', Done r x)) \/
  (a = None /\ r = i /\ p s i = Ok (s', Error)).
Proof.
  unfold opt. intros. apply rbind_ok in H as ([s1 r1] & H1 & H2).
  destruct r1; inversion H2; subst; eauto.
Qed.

Lemma tag_done : forall t s i s' r a,
  tag t s i = Ok (s', Done r a) -> s' = s /\ a = t /\ i = t ++ r.
Proof.
  unfold tag. intros. destruct (Nat.ltb (blen i) (blen t)); [discriminate|].
  destruct (starts_with t i) eqn:E; [|discriminate]. inversion H; subst.
  apply starts_with_app in E as (r & ->).
  repeat split; auto. rewrite skipn_app, skipn_all, Nat.sub_diag. auto.
Qed.

Lemma re_find_done : forall re s i s' r a,
  re_find re s i = Ok (s', Done r a) -> s' = s /\ i = a ++ r /\ lang re a.
Proof.
  unfold re_find. intros. destruct (re_match re i) as [[m rest]|] eqn:E; inversion H; subst.
  apply re_match_sound in E as [-> L]. auto.
Qed.

Lemma span_spec : forall f i a b, span f i = (a, b) -> a = take_wh f i /\ b = drop_while f i.
Proof.
  induction i; simpl; intros a0 b H.
  - inversion H; auto.
  - destruct (f a); [|inversion H; auto]. destruct (span f i) as [x y] eqn:E. inversion H; subst.
    destruct (IHi _ _ eq_refl) as [-> ->]. auto.
Qed.

Lemma span_eq : forall f i, span f i = (take_wh f i, drop_while f i).
Proof. intros. destruct (span f i) eqn:E. apply span_spec in E as [-> ->]. auto. Qed.

Lemma take_while_done : forall f s i s' r a,
  take_while f s i = Ok (s', Done r a) ->
  s' = s /\ i = a ++ r /\ a = take_wh f i /\ r = drop_while f i.
Proof.
  unfold take_while. intros. rewrite span_eq in H. inversion H; subst.
  rewrite take_drop. auto.
Qed.

Lemma take_while1_done : forall f s i s' r a,
  take_while1 f s i = Ok (s', Done r a) ->
  s' = s /\ i = a ++ r /\ a = take_wh f i /\ r = drop_while f i /\ a <> [].
Proof.
  unfold take_while1. intros. rewrite span_eq in H. pose proof (take_drop f i) as T.
  destruct (take_wh f i) eqn:E; inversion H; subst.
  rewrite <- T at 1. repeat split; auto. discriminate.
Qed.

(** ** Computation: how a success is obtained *)

Lemma bind_ok : forall {A B} (p : P A) (f : A -> P B) s i s1 i1 a,
  p s i = Ok (s1, Done i1 a) -> bind p f s i = f a s1 i1.
Proof. intros. unfold bind. rewrite H. auto. Qed.

Lemma bind_err : forall {A B} (p : P A) (f : A -> P B) s i s1,
  p s i = Ok (s1, Error) -> bind p f s i = Ok (s1, Error).
Proof. intros. unfold bind. rewrite H. auto. Qed.

Lemma bind_inc : forall {A B} (p : P A) (f : A -> P B) s i s1,
  p s i = Ok (s1, Incomplete) -> bind p f s i = Ok (s1, Incomplete).
Proof. intros. unfold bind. rewrite H. auto. Qed.

Lemma pmap_ok : forall {A B} (p : P A) (f : A -> B) s i s1 i1 a,
  p s i = Ok (s1, Done i1 a) -> pmap p f s i = Ok (s1, Done i1 (f a)).
Proof. intros. unfold pmap. erewrite bind_ok by eauto. reflexivity. Qed.

Lemma pmap_err : forall {A B} (p : P A) (f : A -> B) s i s1,
  p s i = Ok (s1, Error) -> pmap p f s i = Ok (s1, Error).
Proof. intros. unfold pmap. erewrite bind_err by eauto. reflexivity. Qed.

Lemma alt_ok : forall {A} (p q : P A) s i s1 i1 a,
  p s i = Ok (s1, Done i1 a) -> alt p q s i = Ok (s1, Done i1 a).
Proof. intros. unfold alt. rewrite H. auto. Qed.

Lemma alt_err : forall {A} (p q : P A) s i s1,
  p s i = Ok (s1, Error) -> alt p q s i = q s1 i.
Proof. intros. unfold alt. rewrite H. auto. Qed.

Lemma complete_ok : forall {A} (p : P A) s i s1 i1 a,
  p s i = Ok (s1, Done i1 a) -> complete p s i = Ok (s1, Done i1 a).
Proof. intros. unfold complete. rewrite H. auto. Qed.

Lemma complete_err : forall {A} (p : P A) s i s1,
  p s i = Ok (s1, Error) \/ p s i = Ok (s1, Incomplete) -> complete p s i = Ok (s1, Error).
Proof. intros. unfold complete. destruct H as [H|H]; rewrite H; auto. Qed.

Lemma opt_ok : forall {A} (p : P A) s i s1 i1 a,
  p s i = Ok (s1, Done i1 a) -> opt p s i = Ok (s1, Done i1 (Some a)).
Proof. intros. unfold opt. rewrite H. auto. Qed.

Lemma opt_err : forall {A} (p : P A) s i s1,
  p s i = Ok (s1, Error) -> opt p s i = Ok (s1, Done i None).
Proof. intros. unfold opt. rewrite H. auto. Qed.

Lemma blen_app : forall a b, blen (a ++ b) = (blen a + blen b)%nat.
Proof. induction a; simpl; intros; auto. rewrite IHa. lia. Qed.

Lemma tag_ok : forall t s r, tag t s (t ++ r) = Ok (s, Done r t).
Proof.
  intros. unfold tag. rewrite blen_app.
  assert (Nat.ltb (blen t + blen r) (blen t) = false) as -> by (apply Nat.ltb_ge; lia).
  assert (starts_with t (t ++ r) = true) as -> by (apply starts_with_app; eauto).
  rewrite skipn_app, skipn_all, Nat.sub_diag. auto.
Qed.

(** a tag does not match: Error or Incomplete, no effect *)
Lemma tag_fail : forall t s i, starts_with t i = false ->
  tag t s i = Ok (s, Error) \/ tag t s i = Ok (s, Incomplete).
Proof. intros. unfold tag. rewrite H. destruct (Nat.ltb _ _); auto. Qed.

Lemma ctag_fail : forall t s i, starts_with t i = false -> complete (tag t) s i = Ok (s, Error).
Proof. intros. apply complete_err. apply tag_fail; auto. Qed.

Lemma ctag_ok : forall t s r, complete (tag t) s (t ++ r) = Ok (s, Done r t).
Proof. intros. apply complete_ok. apply tag_ok. Qed.

Lemma re_find_ok : forall re s m rest, re_match re (m ++ rest) = Some (m, rest) ->
  re_find re s (m ++ rest) = Ok (s, Done rest m).
Proof. intros. unfold re_find. rewrite H. auto. Qed.

Lemma re_find_err : forall re s i, re_match re i = None -> re_find re s i = Ok (s, Error).
Proof. intros. unfold re_find. rewrite H. auto. Qed.

(** inversion of all success hypotheses *)
Ltac pinv1 :=
  match goal with
  | H : bind _ _ _ _ = Ok (_, Done _ _) |- _ =>
      apply bind_done in H; destruct H as (?s & ?i & ?a & ?H & ?H)
  | H : pmap _ _ _ _ = Ok (_, Done _ _) |- _ =>
      apply pmap_done in H; destruct H as (?a & ?H & ?E)
  | H : complete _ _ _ = Ok (_, Done _ _) |- _ => apply complete_done in H
  | H : ret _ _ _ = Ok (_, Done _ _) |- _ => apply ret_done in H; destruct H as (? & ? & ?)
  | H : act _ _ _ = Ok (_, Done _ _) |- _ => apply act_done in H; destruct H as (? & ?H)
  | H : tag _ _ _ = Ok (_, Done _ _) |- _ => apply tag_done in H; destruct H as (? & ? & ?)
  | H : re_find _ _ _ = Ok (_, Done _ _) |- _ =>
      apply re_find_done in H; destruct H as (? & ? & ?L)
  end.
Ltac pinv := repeat pinv1; subst.
