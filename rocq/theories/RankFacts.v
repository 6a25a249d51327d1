(** * The order of the kinds of errors: proofs *)
From Coq Require Import Lia ZifyBool ZifyNat ZifyN.
From Verif Require Import Str Types Ast State Nom Keys Grammar Api Facts NomFacts Effects ParseFacts RankSpec.

Lemma first_other : forall l e, mixed_first l -> other_kind e -> mixed_first (l ++ [e]).
Proof.
  intros l e H O. assert (A : forall es, Forall other_kind es -> Forall other_kind (es ++ [e])). { intros. apply Forall_app. auto. }
  induction H; cbn [app]; [apply Mf_rest|apply Mf_last|apply Mf_next]; auto.
Qed.
Lemma vlast_cons : forall A (a b : A) l, vlast (a :: b :: l) = vlast (b :: l).
Proof.
  intros A a b l. destruct (exists_last (l := b :: l)) as (x & c & E); [discriminate|]. rewrite E. change (a :: x ++ [c]) with ((a :: x) ++ [c]).
  rewrite !vlast_app. reflexivity.
Qed.
Lemma first_mixed : forall l k n, mixed_first l -> match vlast l with Some (EMixedArray k0 _) => starts_with k0 k = false | Some _ => False | None => True end ->
  mixed_first (l ++ [EMixedArray k n]).
Proof.
  assert (Z : forall es, Forall other_kind es -> forall k, match vlast es with Some (EMixedArray k0 _) => starts_with k0 k = false | Some _ => False | None => True end -> es = []).
  { intros es F k M. destruct es as [|x es] using rev_ind; auto. exfalso. clear IHes. rewrite vlast_app in M. apply Forall_app in F as [_ F]. inversion F; subst.
    destruct x; auto. eapply H1; reflexivity. }
  intros l k n H. induction H as [es F|k0 n0 es F|k0 n0 k1 n1 es P H IH]; intros M.
  - rewrite (Z _ F _ M). apply Mf_last. constructor.
  - assert (E : es = []).
    { destruct es as [|x es]; auto. apply (Z _ F k). rewrite vlast_cons in M. exact M. }
    subst. cbn [app]. apply Mf_next; [|apply Mf_last; constructor]. intros z ->. cbn in M. assert (X : starts_with k0 (k0 ++ z) = true) by (apply starts_with_app; eauto). congruence.
  - rewrite vlast_cons in M. cbn [app] in *. apply Mf_next; auto.
Qed.
Lemma first_swap : forall l a b, other_kind a -> other_kind b -> mixed_first (l ++ [a]) -> mixed_first (l ++ [b]).
Proof.
  intros l a b A B H. apply first_other; auto. clear B b.
  assert (F : forall es, Forall other_kind (es ++ [a]) -> Forall other_kind es). { intros es X. apply Forall_app in X. tauto. }
  remember (l ++ [a]) as x eqn:E. revert l E. induction H as [es X|k n es X|k n k' n' es P H IH]; intros l E.
  - subst. apply Mf_rest. auto.
  - destruct l as [|c l]; inversion E; subst; [destruct (A k n); auto|]. apply Mf_last. auto.
  - destruct l as [|c l]; [inversion E|]. destruct l as [|d l]; [inversion E; subst; destruct (A k' n'); auto|]. inversion E; subst.
    apply Mf_next; auto.
Qed.
Definition ranked (s s' : pst) : Prop := mixed_first s.(p_errors) -> mixed_first s'.(p_errors).
Lemma ranked_push : forall s s' e, s'.(p_errors) = vpush s.(p_errors) e -> other_kind e -> ranked s s'.
Proof. intros s s' e E O M. rewrite E. apply first_other; auto. Qed.
Lemma ranked_toml : pres ranked toml_p.
Proof.
  apply (pres_toml ranked); try (intros; unfold ranked; solve [auto]).
  all: try (intros; eapply ranked_push; [reflexivity|intros ? ?; discriminate]).
  - intros s k M H. apply first_mixed; auto.
  - intros s c s' H. apply insert_effect in H as [(fk & v & ->)|(m & ->)]; [|intros X; exact X].
    eapply ranked_push; [reflexivity|intros ? ?; discriminate].
  - intros s e _ (l & tk & line & kvs & k & x & E & ->) M. rewrite E in M. cbn [p_errors set_errors].
    eapply first_swap; [| |exact M]; intros ? ?; discriminate.
  - intros w1 w2 k l s s' t H. apply std_table_effect in H as [_ [(kc & ts & ti & tk & ->)|(kc & ts & ti & m & ->)]]; [|intros X; exact X].
    eapply ranked_push; [reflexivity|intros ? ?; discriminate].
  - intros w1 w2 k l s s' t H. apply array_table_effect in H as [_ [(kc & ts & ti & m & tk & ->)|(kc & ts & ti & m & ->)]]; [|intros X; exact X].
    eapply ranked_push; [reflexivity|intros ? ?; discriminate].
Qed.
Lemma mixed_arrays_first : forall p i s r, parse p i = Ok (s, r) -> mixed_first p.(p_errors) -> mixed_first s.(p_errors).
Proof. intros p i s r H M. destruct (parse_inv _ _ _ _ H) as (s1 & rest & t & T & EI & -> & L). apply ranked_toml in T. apply T in M. exact M. Qed.
Lemma mixed_new : forall ovf i s r, parse (new_parser ovf) i = Ok (s, r) -> mixed_first s.(p_errors).
Proof. intros ovf i s r H. eapply mixed_arrays_first; [exact H|]. apply Mf_rest. constructor. Qed.

(** ** After an error of another kind *)
Definition over (s : pst) : Prop := exists l e, s.(p_errors) = l ++ [e] /\ other_kind e.
Definition quiet (s s' : pst) : Prop := over s -> over s' /\ forall k n, In (EMixedArray k n) s'.(p_errors) -> In (EMixedArray k n) s.(p_errors).
Lemma quiet_same : forall s s', s'.(p_errors) = s.(p_errors) -> quiet s s'.
Proof. intros s s' E (l & e & L & O). rewrite E. split; auto. exists l, e. rewrite E. auto. Qed.
Lemma quiet_push : forall s s' e, s'.(p_errors) = vpush s.(p_errors) e -> other_kind e -> quiet s s'.
Proof.
  intros s s' e E O _. split; [exists s.(p_errors), e; auto|]. intros k n I. rewrite E in I. apply in_app_or in I as [I|[I|[]]]; auto. destruct (O _ _ I).
Qed.
Lemma quiet_toml : pres quiet toml_p.
Proof.
  apply (pres_toml quiet); try (intros; apply quiet_same; reflexivity).
  all: try (intros; eapply quiet_push; [reflexivity|intros ? ?; discriminate]).
  - intros a b c X Y O. destruct (X O) as [O1 X1]. destruct (Y O1) as [O2 X2]. auto.
  - intros s k M (l & e & L & O). exfalso. unfold may_mix in M. rewrite L, vlast_app in M. destruct e; auto. eapply O; reflexivity.
  - intros s c s' H. apply insert_effect in H as [(fk & v & ->)|(m & ->)]; [|apply quiet_same; reflexivity].
    eapply quiet_push; [reflexivity|intros ? ?; discriminate].
  - intros s e _ (l & tk & line & kvs & k & x & E & ->) M. cbn [p_errors set_errors]. split.
    + eexists l, _. split; [reflexivity|intros ? ?; discriminate].
    + intros k0 n I. rewrite E. apply in_app_or in I as [I|[I|[]]]; [|discriminate]. apply in_or_app. auto.
  - intros w1 w2 k l s s' t H. apply std_table_effect in H as [_ [(kc & ts & ti & tk & ->)|(kc & ts & ti & m & ->)]]; [|apply quiet_same; reflexivity].
    eapply quiet_push; [reflexivity|intros ? ?; discriminate].
  - intros w1 w2 k l s s' t H. apply array_table_effect in H as [_ [(kc & ts & ti & m & tk & ->)|(kc & ts & ti & m & ->)]]; [|apply quiet_same; reflexivity].
    eapply quiet_push; [reflexivity|intros ? ?; discriminate].
Qed.
Lemma mixed_silent : forall p i s r l e, parse p i = Ok (s, r) -> p.(p_errors) = l ++ [e] -> other_kind e ->
  forall k n, In (EMixedArray k n) s.(p_errors) -> In (EMixedArray k n) p.(p_errors).
Proof.
  intros p i s r l e H L O. destruct (parse_inv _ _ _ _ H) as (s1 & rest & t & T & EI & -> & X). apply quiet_toml in T.
  apply T. exists l, e. auto.
Qed.
