(** Documents whose table headers have dotted names. *)
From Coq Require Import Lia ZifyBool ZifyNat ZifyN.
From Verif Require Import Str Regex Types Ast State Nom Keys Grammar Api Facts Spec.
From Verif Require Import RegexFacts NomFacts TypesFacts DateFacts NumFacts StringFacts ScalarFacts.
From Verif Require Import LineFacts FlatFacts RoundTrip WalkFacts IdFacts WriteFacts ApiSpec ApiFacts DocSpec MixSpec PathFacts NestFacts SectFacts LookFacts DotSpec.

(** ** The specification functions on a document with one more line *)
Fixpoint cur_from (p : list str) (l : list hline) : list str :=
  match l with
  | [] => p
  | HHead _ _ n m _ _ _ :: l' => cur_from (head_path n m) l'
  | _ :: l' => cur_from p l'
  end.
Definition hcur (l : list hline) : list str := cur_from [] l.
Lemma heads_app : forall a b, heads (a ++ b) = heads a ++ heads b.
Proof. induction a as [|[] a IH]; intros b; cbn [app heads]; rewrite ?IH; auto. Qed.
Lemma cur_app : forall a b p, cur_from p (a ++ b) = cur_from (cur_from p a) b.
Proof. induction a as [|[] a IH]; intros b p; cbn [app cur_from]; auto. Qed.
Lemma entries_app : forall a b p, entries_from p (a ++ b) = entries_from p a ++ entries_from (cur_from p a) b.
Proof. induction a as [|[] a IH]; intros b p; cbn [app cur_from entries_from]; rewrite ?IH; auto. Qed.
Lemma named_app : forall q a b p, named_in q p (a ++ b) = named_in q p a ++ named_in q (cur_from p a) b.
Proof. induction a as [|[] a IH]; intros b p; cbn [app cur_from named_in]; rewrite ?IH, ?app_assoc; auto. Qed.

Lemma heads_snoc : forall l d, heads (l ++ [d]) = heads l ++ match d with HHead _ _ n m _ _ _ => [head_path n m] | _ => [] end.
Proof. intros. rewrite heads_app. destruct d; reflexivity. Qed.
Lemma cur_snoc : forall l d, hcur (l ++ [d]) = match d with HHead _ _ n m _ _ _ => head_path n m | _ => hcur l end.
Proof. intros. unfold hcur. rewrite cur_app. destruct d; reflexivity. Qed.
Lemma entries_snoc : forall l d, entries (l ++ [d]) = entries l ++ match d with HPair _ k _ _ v _ _ _ => [(hcur l, k, v)] | _ => [] end.
Proof. intros. unfold entries. rewrite entries_app. destruct d; reflexivity. Qed.
Definition new_names (q p : list str) (d : hline) : list str :=
  match d with
  | HPair _ k _ _ _ _ _ _ => if list_eq_dec (list_eq_dec N.eq_dec) p q then [k] else []
  | HHead _ _ n m _ _ _ => match next_name q (head_path n m) with Some x => [x] | None => [] end
  | HBlank _ _ => []
  end.
Lemma named_snoc : forall q l d, named_in q [] (l ++ [d]) = named_in q [] l ++ new_names q (hcur l) d.
Proof. intros. rewrite named_app. destruct d; cbn [named_in new_names]; rewrite ?app_nil_r; auto. Qed.

Lemma next_name_iff : forall q p n, next_name q p = Some n <-> exists r, p = q ++ n :: r.
Proof.
  induction q as [|a q IH]; intros p n; destruct p as [|b p]; cbn [next_name app].
  - split; [discriminate|intros [r H]; discriminate H].
  - split; [intros H; inversion H; eauto|intros [r H]; inversion H; auto].
  - split; [discriminate|intros [r H]; discriminate H].
  - destruct (same_key a b) eqn:E.
    + apply same_key_eq in E. subst b. rewrite IH. split; intros [r H]; exists r; congruence.
    + split; [discriminate|]. intros [r H]. inversion H; subst. rewrite same_key_refl in E. discriminate.
Qed.

Definition reached (l : list hline) (q : list str) : Prop := q = [] \/ table_of l q.
Lemma cur_reached : forall l, reached l (hcur l).
Proof.
  induction l as [|d l IH] using rev_ind; [left; reflexivity|]. rewrite cur_snoc.
  assert (K : reached l (hcur l) -> reached (l ++ [d]) (hcur l)).
  { intros [H|[x H]]; [left; auto|right; exists x; rewrite heads_snoc; apply in_or_app; auto]. }
  destruct d; auto. right. exists []. rewrite heads_snoc. apply in_or_app. right. rewrite app_nil_r. left; auto.
Qed.
Lemma table_of_snoc : forall l d q, table_of l q -> table_of (l ++ [d]) q.
Proof. intros l d q [x H]. exists x. rewrite heads_snoc. apply in_or_app; auto. Qed.
Lemma reached_snoc : forall l d q, reached l q -> reached (l ++ [d]) q.
Proof. intros l d q [H|H]; [left; auto|right; apply table_of_snoc; auto]. Qed.
Lemma entries_reached : forall l p k v, In (p, k, v) (entries l) -> reached l p.
Proof.
  induction l as [|d l IH] using rev_ind; intros p k v H; [destruct H|]. rewrite entries_snoc in H. apply in_app_or in H as [H|H].
  - apply reached_snoc. eauto.
  - destruct d; cbn [In] in H; try tauto. destruct H as [H|[]]. inversion H; subst. apply reached_snoc, cur_reached.
Qed.
Lemma table_of_front : forall l q r, table_of l (q ++ r) -> table_of l q.
Proof. intros l q r [x H]. exists (r ++ x). rewrite <- app_assoc in H. auto. Qed.

(** the names of a table *)
Lemma named_iff : forall l q n, In n (named_in q [] l) <-> table_of l (q ++ [n]) \/ exists v, In (q, n, v) (entries l).
Proof.
  induction l as [|d l IH] using rev_ind; intros q n.
  - cbn. split; [tauto|]. intros [[x []]|[v []]].
  - rewrite named_snoc, in_app_iff, IH, entries_snoc. unfold table_of. rewrite heads_snoc. destruct d as [w c|w0 k w1 w2 v t w3 c|w0 w1 n0 m w2 w3 c]; cbn [new_names].
    + rewrite !app_nil_r. cbn [In]. tauto.
    + rewrite app_nil_r. destruct (list_eq_dec (list_eq_dec N.eq_dec) (hcur l) q) as [->|N].
      * cbn [In]. split.
        -- intros [[H|[v' H]]|[->|[]]]; auto; right; [exists v'|exists v]; apply in_or_app; auto. right; left; auto.
        -- intros [H|[v' H]]; auto. apply in_app_or in H as [H|[H|[]]]; [left; right; eauto|]. inversion H; subst. auto.
      * cbn [In]. split.
        -- intros [[H|[v' H]]|[]]; auto. right. exists v'. apply in_or_app; auto.
        -- intros [H|[v' H]]; auto. apply in_app_or in H as [H|[H|[]]]; [left; right; eauto|]. inversion H; subst. congruence.
    + rewrite app_nil_r. split.
      * intros [[[x H]|H]|H]; auto; left.
        -- exists x. apply in_or_app; auto.
        -- destruct (next_name q (head_path n0 m)) as [y|] eqn:E; [|destruct H]. destruct H as [<-|[]].
           apply next_name_iff in E as [r E]. exists r. apply in_or_app. right. left. rewrite E, <- app_assoc. reflexivity.
      * intros [[x H]|H]; auto. apply in_app_or in H as [H|[H|[]]]; [left; left; eauto|]. right.
        assert (E : next_name q (head_path n0 m) = Some n) by (apply next_name_iff; exists x; rewrite H, <- app_assoc; reflexivity).
        rewrite E. left; auto.
Qed.
Lemma table_keys_in : forall l q n, In n (table_keys q l) <-> In n (named_in q [] l).
Proof. intros. unfold table_keys. rewrite first_keys_in. simpl. tauto. Qed.
Lemma unreached_keys : forall l q, ~ reached l q -> table_keys q l = [].
Proof.
  intros l q N. destruct (table_keys q l) as [|n r] eqn:E; auto. exfalso. apply N.
  assert (H : In n (table_keys q l)) by (rewrite E; left; auto). apply table_keys_in, named_iff in H as [H|[v H]].
  - right. eapply table_of_front; eauto.
  - eapply entries_reached; eauto.
Qed.

Lemma hdistinct_prefix : forall a b, hdistinct (a ++ b) -> hdistinct a.
Proof.
  intros a b [A B C]. unfold entries in *. rewrite entries_app in A, C. rewrite map_app in A. rewrite heads_app in B.
  constructor.
  - apply nodup_front in A; auto.
  - apply nodup_front in B; auto.
  - intros p k v I [x H]. apply (C p k v); [apply in_or_app; auto|]. exists x. rewrite heads_app. apply in_or_app; auto.
Qed.
Lemma parents_prefix : forall a b, parents_empty (a ++ b) -> parents_empty a.
Proof.
  intros a b H l1 l2 w0 w1 n m w2 w3 c p x E P N. apply (H l1 (l2 ++ b) w0 w1 n m w2 w3 c p x); auto. rewrite E, <- app_assoc. reflexivity.
Qed.

(** ** Addresses *)
Definition aq (q : list str) : addr := match q with [] => ([], []) | n :: r => (n, map PKey r) end.
Lemma aq_text : forall q, atext (aq q) = dotted_name q.
Proof.
  destruct q as [|n q]; [reflexivity|]. cbn [aq]. revert n. induction q as [|k q IH]; intros n.
  - unfold atext. cbn [fst snd map]. apply app_nil_r.
  - change (dotted_name (n :: k :: q)) with (n ++ lit "." ++ dotted_name (k :: q)). rewrite <- IH.
    unfold atext. cbn [fst snd map]. rewrite path_cons. cbn [step_text]. rewrite <- app_assoc. auto.
Qed.
Lemma aq_good : forall q, q <> [] -> Forall key_name q -> good_addr (aq q).
Proof.
  intros [|n q] N F; [congruence|]. inversion F; subst. split; auto. cbn [aq snd]. apply Forall_forall. intros x I.
  apply in_map_iff in I as (k & <- & I). rewrite Forall_forall in H2. apply H2; auto.
Qed.
Definition steps (a : addr) : list pstep := PKey (fst a) :: snd a.
Lemma aq_steps : forall q r, q <> [] -> steps (ext (aq q) r) = map PKey q ++ r.
Proof. intros [|n q] r N; [congruence|]. reflexivity. Qed.
Lemma keys_prefix : forall a b r r', map PKey a ++ r = map PKey b ++ r' -> (exists t, a = b ++ t) \/ (exists t, b = a ++ t).
Proof.
  induction a as [|x a IH]; intros b r r' H; [right; exists b; auto|]. destruct b as [|y b]; [left; exists (x :: a); auto|].
  cbn [map app] in H. inversion H; subst. destruct (IH b r r') as [[t ->]|[t ->]]; auto; [left|right]; exists t; auto.
Qed.
Lemma aq_ext : forall q b r, q <> [] -> b <> [] -> aq q = ext (aq b) r -> exists t, q = b ++ t.
Proof.
  intros q b r N N2 E. assert (H : map PKey q ++ [] = map PKey b ++ r).
  { rewrite <- (aq_steps q) by auto. rewrite <- (aq_steps b) by auto. rewrite ext_nil. congruence. }
  rewrite app_nil_r in H. revert b r H N2 N E. induction q as [|x q IH]; intros b r H N2 N E; [congruence|].
  destruct b as [|y b]; [congruence|]. cbn [map app] in H. inversion H; subst. destruct b as [|z b]; [exists q; auto|].
  destruct q as [|w q]; [discriminate|]. destruct (IH (z :: b) r) as [t ->]; auto; try discriminate.
  - unfold ext. cbn [aq fst snd]. cbn [map app] in H2. inversion H2; subst. reflexivity.
  - exists t. auto.
Qed.

Definition dpre (q : list str) : str := match q with [] => [] | _ => dotted_name q ++ lit "." end.
Definition dpar (q : list str) : str := match q with [] => root_key | _ => dotted_name q end.
Lemma dotted_snoc : forall q k, dotted_name (q ++ [k]) = dpre q ++ k.
Proof.
  induction q as [|n q IH]; intros k; [reflexivity|]. destruct q as [|x q].
  - change ([n] ++ [k]) with [n; k]. cbn [dotted_name dpre]. rewrite <- app_assoc. auto.
  - change ((n :: x :: q) ++ [k]) with (n :: (x :: q) ++ [k]).
    assert (E : forall z, z <> [] -> dotted_name (n :: z) = n ++ lit "." ++ dotted_name z) by (intros [|? ?] Z; [congruence|reflexivity]).
    unfold dpre in *. rewrite !E by discriminate. rewrite IH. rewrite <- !app_assoc. auto.
Qed.
Lemma dpar_snoc : forall q k, dpar (q ++ [k]) = dotted_name (q ++ [k]).
Proof. intros [|n q] k; reflexivity. Qed.
Lemma dpar_dotted : forall q, q <> [] -> dpar q = dotted_name q.
Proof. intros [|n q] N; [congruence|reflexivity]. Qed.
Lemma dotted_ne : forall q, q <> [] -> Forall key_name q -> dotted_name q <> [].
Proof. intros q N F. rewrite <- aq_text. apply atext_ne, aq_good; auto. Qed.
Lemma dotted_root : forall q, Forall key_name q -> dotted_name q <> root_key.
Proof. intros [|n q] F; [discriminate|]. rewrite <- aq_text. apply atext_root, aq_good; auto. discriminate. Qed.
Lemma dpar_ne : forall q, Forall key_name q -> dpar q <> [].
Proof. intros [|n q] F; [discriminate|]. apply dotted_ne; auto. discriminate. Qed.
Lemma dotted_inj : forall p q, p <> [] -> q <> [] -> Forall key_name p -> Forall key_name q -> dotted_name p = dotted_name q -> p = q.
Proof.
  intros p q P Q FP FQ E. rewrite <- !aq_text in E. apply atext_inj in E; auto using aq_good.
  destruct p as [|n p], q as [|n' q]; try congruence. cbn [aq] in E. inversion E as [[E1 E2]]. f_equal. clear - E2. revert q E2.
  induction p as [|x p IH]; intros [|y q] E; try discriminate E; auto. cbn [map] in E. inversion E; subst. f_equal. auto.
Qed.
Lemma dpar_inj : forall p q, Forall key_name p -> Forall key_name q -> dpar p = dpar q -> p = q.
Proof.
  intros p q FP FQ E. destruct p as [|n p], q as [|n' q]; auto.
  - exfalso. apply (dotted_root (n' :: q)); auto.
  - exfalso. apply (dotted_root (n :: p)); auto.
  - apply dotted_inj; auto; discriminate.
Qed.
Lemma dpar_step : forall q n, Forall key_name q -> (if str_eqb (dpar q) root_key then n else dpar q ++ lit "." ++ n) = dpar (q ++ [n]).
Proof.
  intros q n F. rewrite dpar_snoc, dotted_snoc. destruct q as [|a q]; [cbn [dpar dpre]; rewrite str_eqb_refl; auto|].
  destruct (str_eqb (dpar (a :: q)) root_key) eqn:E; [apply str_eqb_eq in E; exfalso; apply (dotted_root (a :: q)); auto|].
  unfold dpre, dpar. rewrite <- app_assoc. auto.
Qed.
Lemma bare_not_root : forall n, key_name n -> str_eqb n root_key = false.
Proof.
  intros n B. destruct (str_eqb n root_key) eqn:E; auto. apply str_eqb_eq in E. exfalso. apply (dotted_root [n]); [|exact E].
  constructor; auto.
Qed.

(** ** Reading a header *)
Lemma subkeys_loop : forall more s n w r, Forall (fun x : str * str * str => blanks (fst (fst x)) /\ blanks (snd (fst x)) /\ key_name (snd x)) more ->
  blanks w -> (length (concat (map more_text more) ++ w ++ lit "]" ++ r) < n)%nat ->
  exists ks, many_loop n table_subkey s (concat (map more_text more) ++ w ++ lit "]" ++ r) =
    Ok (fold_left (fun s k => push_key (KStr k) s) (map snd more) s, Done (w ++ lit "]" ++ r) ks) /\ map wk_key ks = map snd more.
Proof.
  induction more as [|[[a b] k] more IH]; intros s n w r F W L.
  - cbn [map concat app fold_left]. exists []. split; auto. destruct n; [lia|].
    cbn [map concat app] in L. pose proof (subkeys_none s w 93 r W ltac:(simpl; lia) ltac:(lia)) as H. unfold table_subkeys, many0 in H.
    change (lit "]" ++ r) with (93 :: r). cbn [many_loop] in *. destruct (w ++ 93 :: r) as [|x y] eqn:Q; auto. rewrite <- Q in *.
    destruct (table_subkey s (w ++ 93 :: r)) as [[s1 [r1 k1| |]]| |]; cbn [rbind] in *; try discriminate H; auto.
    destruct (Nat.eqb (length r1) (length (w ++ 93 :: r))); auto.
    destruct (many_loop _ table_subkey s1 r1) as [[s2 [r2 k2| |]]| |]; discriminate H.
  - inversion F as [|? ? (A & B & K) F']; subst. cbn [fst snd] in *. destruct n as [|n]; [lia|].
    assert (TX : concat (map more_text ((a, b, k) :: more)) ++ w ++ lit "]" ++ r =
       a ++ lit "." ++ b ++ k ++ concat (map more_text more) ++ w ++ lit "]" ++ r).
    { cbn [map concat]. unfold more_text at 1. cbn [fst snd]. rewrite <- !app_assoc. auto. }
    rewrite TX in *. set (T := concat (map more_text more) ++ w ++ lit "]" ++ r) in *.
    assert (NB : match T with [] => True | c :: _ => ~ bare_char c end).
    { unfold T. destruct more as [|[[a' b'] k'] more].
      - cbn [map concat app]. apply (blanks_app_head (fun c => ~ bare_char c)); auto; unfold bare_char; simpl; lia.
      - cbn [map concat]. unfold more_text at 1. cbn [fst snd]. rewrite <- !app_assoc. inversion F' as [|? ? (A' & _ & _) _]; subst. cbn [fst] in A'.
        apply (blanks_app_head (fun c => ~ bare_char c)); auto; unfold bare_char; simpl; lia. }
    destruct (IH (push_key (KStr k) s) n w r F' W) as (ks & E & M).
    { fold T. rewrite !app_length in L. cbn [length] in L. change (length (lit ".")) with 1%nat in L. fold T in L. lia. }
    fold T in E. exists ({| wk_ws := {| ws1 := a; ws2 := b |}; wk_key := k |} :: ks). split.
    2:{ cbn [map wk_key snd]. congruence. }
    cbn [many_loop]. destruct (a ++ lit "." ++ b ++ k ++ T) as [|x y] eqn:Q.
    { exfalso. destruct a; discriminate Q. }
    rewrite <- Q. unfold table_subkey at 1.
    erewrite bind_ok by (apply ws_ok; auto; simpl; lia). erewrite bind_ok by apply tag_ok.
    pose proof (key_head k K) as (c & u & EK & C).
    erewrite bind_ok.
    2:{ apply ws_ok; auto. rewrite EK. simpl. unfold bare_char in C. lia. }
    erewrite bind_ok by (apply key_p_bare; auto). cbn [rbind ret].
    assert (Nat.eqb (length T) (length (a ++ lit "." ++ b ++ k ++ T)) = false) as ->.
    { apply Nat.eqb_neq. rewrite !app_length. change (length (lit ".")) with 1%nat. lia. }
    rewrite E. reflexivity.
Qed.

Lemma fold_push : forall ks s, p_keychain (fold_left (fun s k => push_key (KStr k) s) ks s) = p_keychain s ++ map KStr ks /\
  set_keychain (p_keychain s) (fold_left (fun s k => push_key (KStr k) s) ks s) = s.
Proof.
  induction ks as [|k ks IH]; intros s; cbn [fold_left map].
  - rewrite app_nil_r. split; auto. destruct s; reflexivity.
  - destruct (IH (push_key (KStr k) s)) as [A B]. rewrite A. split.
    + change (p_keychain (push_key (KStr k) s)) with (vpush (p_keychain s) (KStr k)). unfold vpush. rewrite <- app_assoc. auto.
    + assert (X : forall kc x, set_keychain (p_keychain s) (set_keychain kc x) = set_keychain (p_keychain s) x) by reflexivity.
      rewrite <- (X (p_keychain (push_key (KStr k) s))), B. destruct s; reflexivity.
Qed.

Lemma dot_read : forall w1 n more w2 r s, blanks w1 -> key_name n ->
  Forall (fun x : str * str * str => blanks (fst (fst x)) /\ blanks (snd (fst x)) /\ key_name (snd x)) more -> blanks w2 ->
  exists ks, map wk_key ks = map snd more /\ forall s' tt,
  std_table_act w1 w2 n ks (fold_left (fun s k => push_key (KStr k) s) (head_path n more) s) = Ok (s', tt) ->
  table_p s ((lit "[" ++ w1 ++ n ++ concat (map more_text more) ++ w2 ++ lit "]") ++ r) = Ok (s', Done r tt).
Proof.
  intros w1 n more w2 r s W1 B F W2.
  destruct (subkeys_loop more (push_key (KStr n) s) (S (length (concat (map more_text more) ++ w2 ++ lit "]" ++ r))) w2 r F W2 ltac:(lia)) as (ks & E & M).
  exists ks. split; auto. intros s' tt A. rewrite <- !app_assoc. unfold table_p. rewrite alt_err with (s1 := s).
  - apply complete_ok. unfold std_table. erewrite bind_ok by apply tag_ok.
    erewrite bind_ok.
    2:{ apply ws_ok; auto. apply key_head in B as (c & u & -> & C). simpl. unfold bare_char in C. lia. }
    erewrite bind_ok.
    2:{ apply key_p_bare; auto. destruct more as [|[[a' b'] k'] more].
      - cbn [map concat app]. apply (blanks_app_head (fun c => ~ bare_char c)); auto; unfold bare_char; simpl; lia.
      - cbn [map concat]. unfold more_text at 1. cbn [fst snd]. rewrite <- !app_assoc. inversion F as [|? ? (A' & _ & _) _]; subst. cbn [fst] in A'.
        apply (blanks_app_head (fun c => ~ bare_char c)); auto; unfold bare_char; simpl; lia. }
    erewrite bind_ok by exact E.
    erewrite bind_ok. 2:{ apply (ws_ok w2 (lit "]" ++ r)); auto. simpl; lia. }
    erewrite bind_ok by apply tag_ok. unfold act. cbn [head_path fold_left] in A. rewrite A. reflexivity.
  - set (T := concat (map more_text more) ++ w2 ++ lit "]" ++ r) in *.
    unfold array_table. assert (S : starts_with (lit "[[") (lit "[" ++ w1 ++ n ++ T) = false).
    { pose proof (bare_blank_head w1 n T (fun c => c <> 91) W1 B) as Q.
      destruct (w1 ++ n ++ T) as [|c x]; [exfalso; apply Q; try lia; unfold bare_char; intros; lia|].
      change (lit "[" ++ c :: x) with (91 :: c :: x). change (starts_with (lit "[[") (91 :: c :: x)) with ((91 =? 91) && ((91 =? c) && starts_with [] x)).
      destruct (N.eqb_spec 91 c); [|reflexivity]. exfalso. assert (c <> 91); [|congruence]. apply Q; try lia. unfold bare_char. intros; lia. }
    apply complete_err. destruct (tag_fail _ s _ S) as [X|X].
    + left. apply bind_err; exact X.
    + right. apply bind_inc; exact X.
Qed.

(** ** The entries of the tables on a path *)
Definition dent (m : vmap) (q : list str) : option hash_value := hget (dpar q) m.
Definition hval (h : option hash_value) : option cell := match h with Some hv => hv.(hv_value) | None => None end.
Definition hkids (h : option hash_value) : list str := match h with Some (HashValue _ (Keys l)) => l | _ => [] end.

Definition tabs_ok (m : vmap) (q names : list str) : Prop :=
  (exists pv l, dent m q = Some (HashValue pv (Keys l))) /\
  forall a n b, names = a ++ n :: b -> b <> [] ->
    (In n (hkids (dent m (q ++ a))) /\ exists pv l, dent m (q ++ a ++ [n]) = Some (HashValue pv (Keys l))) \/
    (~ In n (hkids (dent m (q ++ a))) /\ dent m (q ++ a ++ [n]) = None).

Lemma app_bare : forall a b : list str, Forall key_name (a ++ b) -> Forall key_name a /\ Forall key_name b.
Proof. intros a b H. apply Forall_app; auto. Qed.
Lemma bare_app : forall a b : list str, Forall key_name a -> Forall key_name b -> Forall key_name (a ++ b).
Proof. intros a b H K. apply Forall_app; auto. Qed.
Lemma bare_part : forall (names a : list str) n b, Forall key_name names -> names = a ++ n :: b -> Forall key_name a /\ key_name n /\ Forall key_name b.
Proof. intros names a n b F ->. apply app_bare in F as [A B]. inversion B; subst. auto. Qed.

Lemma ait_run : forall ks q m first, Forall key_name q -> Forall key_name (map wk_key ks) -> tabs_ok m q (map wk_key ks) ->
  exists m', ait_loop m ks first (dpar q) = Ok m' /\
    (forall a n b, map wk_key ks = a ++ n :: b ->
       dent m' (q ++ a) = Some (HashValue (hval (dent m (q ++ a))) (Keys (fst (vinsert (hkids (dent m (q ++ a))) n))))) /\
    (forall x, (forall a n b, map wk_key ks = a ++ n :: b -> x <> dpar (q ++ a)) -> hget x m' = hget x m).
Proof.
  induction ks as [|k ks IH]; intros q m first FQ FK [(pv & l & R) T].
  { exists m. split; [reflexivity|]. split; auto. intros a n b E. destruct a; discriminate E. }
  cbn [map] in *. inversion FK as [|? ? BK FK']; subst. cbn [ait_loop]. unfold dent in R at 1. rewrite R. cbn [hv_subkeys hv_value].
  destruct (vinsert l (wk_key k)) as [l' ins] eqn:VI. cbn [rbind]. set (n := wk_key k) in *.
  set (m1 := hput (dpar q) (HashValue pv (Keys l')) m).
  destruct ks as [|k2 ks].
  - exists m1. split; auto. split.
    + intros a n' b E. destruct a as [|y a]; [|destruct a; discriminate E]. cbn [app map] in E. injection E as <- _. rewrite app_nil_r.
      unfold dent, m1. rewrite hget_hput_same, R. cbn [hval hkids hv_value]. rewrite VI. auto.
    + intros x H. unfold m1. apply hget_hput_other. intros Q. apply (H [] n []); auto. rewrite app_nil_r. auto.
  - rewrite dpar_step by auto.
    set (m2 := if ins then hput (dpar (q ++ [n])) hv_none_keys m1 else m1).
    assert (FQN : Forall key_name (q ++ [n])) by (apply bare_app; auto).
    assert (NE : dpar q <> dpar (q ++ [n])).
    { intros E. apply dpar_inj in E; auto. apply (f_equal (@length str)) in E. rewrite app_length in E. cbn [length] in E. lia. }
    assert (INS : ins = negb (vcontains l n)) by (unfold vinsert in VI; destruct (vcontains l n); inversion VI; auto).
    assert (M2q : hget (dpar q) m2 = Some (HashValue pv (Keys l'))).
    { unfold m2. destruct ins; [rewrite hget_hput_other by auto|]; apply hget_hput_same. }
    assert (M2x : forall x, x <> dpar q -> x <> dpar (q ++ [n]) -> hget x m2 = hget x m).
    { intros x X1 X2. unfold m2. destruct ins; [rewrite hget_hput_other by auto|]; apply hget_hput_other; auto. }
    assert (M2n : (ins = true /\ dent m (q ++ [n]) = None /\ dent m2 (q ++ [n]) = Some hv_none_keys) \/
                  (ins = false /\ dent m2 (q ++ [n]) = dent m (q ++ [n]) /\ exists pv l, dent m (q ++ [n]) = Some (HashValue pv (Keys l)))).
    { destruct (T [] n (map wk_key (k2 :: ks)) eq_refl ltac:(discriminate)) as [[I X]|[I X]]; rewrite app_nil_r in *; cbn [app] in *;
        unfold dent in I at 1; rewrite R in I; cbn [hkids] in I.
      - right. apply vcontains_in in I. rewrite I in INS. subst ins. split; auto. split; auto. unfold dent, m2. apply hget_hput_other; auto.
      - left. assert (vcontains l n = false) as Z. { destruct (vcontains l n) eqn:Z; auto. apply vcontains_in in Z. contradiction. }
        rewrite Z in INS. subst ins. split; auto. split; auto. unfold dent, m2. apply hget_hput_same. }
    assert (DEEP : forall a, a <> [] -> Forall key_name a -> dent m2 ((q ++ [n]) ++ a) = dent m ((q ++ [n]) ++ a)).
    { intros a N FA. apply M2x; intros E; apply dpar_inj in E; auto using bare_app; apply (f_equal (@length str)) in E; rewrite !app_length in E;
        cbn [length] in E; destruct a; cbn [length] in E; congruence || lia. }
    assert (SAME : forall a, Forall key_name a -> hval (dent m2 ((q ++ [n]) ++ a)) = hval (dent m ((q ++ [n]) ++ a)) /\
        hkids (dent m2 ((q ++ [n]) ++ a)) = hkids (dent m ((q ++ [n]) ++ a))).
    { intros a FA. destruct a as [|y a]; [|rewrite DEEP by (auto; discriminate); auto]. rewrite app_nil_r.
      destruct M2n as [(_ & -> & ->)|(_ & -> & _)]; auto. }
    destruct (IH (q ++ [n]) m2 false FQN FK') as (m' & E & H1 & H2).
    { split.
      - destruct M2n as [(_ & _ & ->)|(_ & -> & X)]; auto. unfold hv_none_keys. eauto.
      - intros a n' b E NB. destruct (bare_part _ a n' b FK' E) as (BA & BN & _).
        destruct (T (n :: a) n' b) as [[I X]|[I X]]; auto; [cbn [app]; congruence| |].
        + left. replace (q ++ n :: a) with ((q ++ [n]) ++ a) in * by (rewrite <- app_assoc; auto).
          destruct (SAME a BA) as [_ ->]. split; auto. rewrite DEEP.
          * replace ((q ++ [n]) ++ a ++ [n']) with (q ++ (n :: a) ++ [n']) by (rewrite <- app_assoc; auto). auto.
          * destruct a; discriminate.
          * apply bare_app; auto.
        + right. replace (q ++ n :: a) with ((q ++ [n]) ++ a) in * by (rewrite <- app_assoc; auto).
          destruct (SAME a BA) as [_ ->]. split; auto. rewrite DEEP.
          * replace ((q ++ [n]) ++ a ++ [n']) with (q ++ (n :: a) ++ [n']) by (rewrite <- app_assoc; auto). auto.
          * destruct a; discriminate.
          * apply bare_app; auto. }
    exists m'. split; [exact E|]. split.
    + intros a n' b EQ. destruct a as [|y a].
      * cbn [app] in EQ. injection EQ as <- _. rewrite app_nil_r. unfold dent at 1. rewrite H2.
        -- rewrite M2q. unfold dent. rewrite R. cbn [hval hkids hv_value]. rewrite VI. auto.
        -- intros a n' b' EQ X. destruct (bare_part _ a n' b' FK' EQ) as (BA & _ & _). apply dpar_inj in X; auto using bare_app.
           apply (f_equal (@length str)) in X. rewrite !app_length in X. cbn [length] in X. lia.
      * cbn [app] in EQ. injection EQ as <- EQ. specialize (H1 a n' b EQ). destruct (bare_part _ a n' b FK' EQ) as (BA & _ & _).
        replace (q ++ n :: a) with ((q ++ [n]) ++ a) by (rewrite <- app_assoc; auto). rewrite H1.
        destruct (SAME a BA) as [-> ->]. auto.
    + intros x X. rewrite H2.
      * apply M2x.
        -- specialize (X [] n (map wk_key (k2 :: ks)) eq_refl). rewrite app_nil_r in X. auto.
        -- apply (X [n] (wk_key k2) (map wk_key ks)). reflexivity.
      * intros a n' b EQ. specialize (X (n :: a) n' b). rewrite <- app_assoc. apply X. cbn [app]. congruence.
Qed.

Lemma gatk_std_eq : forall m k k2 rest v fk pk, gatk_std m (k :: k2 :: rest) v fk pk =
  if str_eqb k root_key then gatk_std m (k2 :: rest) v fk pk
  else gatk_std m (k2 :: rest) (v && negb (key_has_value m (fk ++ k))) ((fk ++ k) ++ lit ".") (match rest with [] => fk ++ k | _ => pk end).
Proof. reflexivity. Qed.
Lemma gatk_std_run : forall m names q pk, Forall key_name names -> names <> [] ->
  (forall a b, names = a ++ b -> a <> [] -> b <> [] -> key_has_value m (dpar (q ++ a)) = false) ->
  gatk_std m names true (dpre q) pk = (true, dpre (q ++ removelast names), match removelast names with [] => pk | r => dpar (q ++ r) end).
Proof.
  intros m. induction names as [|n names IH]; intros q pk F N H; [congruence|]. inversion F as [|? ? B F']; subst.
  destruct names as [|n2 names].
  - cbn [gatk_std removelast]. rewrite app_nil_r. auto.
  - rewrite gatk_std_eq, bare_not_root by auto.
    assert (E : dpre q ++ n = dpar (q ++ [n])) by (rewrite dpar_snoc, dotted_snoc; auto).
    rewrite E. rewrite (H [n] (n2 :: names)) by (auto; discriminate). cbn [andb negb].
    assert (E2 : dpar (q ++ [n]) ++ lit "." = dpre (q ++ [n])) by (rewrite dpar_snoc; unfold dpre; destruct (q ++ [n]) eqn:Q; auto; destruct q; discriminate).
    rewrite E2. rewrite IH; auto; [|discriminate|].
    + change (removelast (n :: n2 :: names)) with (n :: removelast (n2 :: names)).
      rewrite <- !app_assoc. cbn [app]. destruct names as [|n3 names]; [reflexivity|].
      change (removelast (n2 :: n3 :: names)) with (n2 :: removelast (n3 :: names)). cbv iota. rewrite <- ?app_assoc. reflexivity.
    + intros a b EQ NA NB. rewrite <- app_assoc. apply (H (n :: a) b); auto; [cbn [app]; congruence|discriminate].
Qed.
Lemma gatk_dotted : forall ovf m t, Forall key_name (map wk_key t) -> t <> [] ->
  (forall a b, map wk_key t = a ++ b -> a <> [] -> key_has_value m (dotted_name a) = false) ->
  get_array_table_key ovf m [TStandard t] [0] = Ok (true, dotted_name (map wk_key t), dpar (removelast (map wk_key t))).
Proof.
  intros ovf m t F N H. unfold get_array_table_key. cbn [length gatk_loop vindex nth_error rbind skipn].
  assert (NM : map wk_key t <> []) by (destruct t; [congruence|discriminate]).
  unfold get_last_keys.
  assert (SK : forall v pk, gatk_std m (root_key :: map wk_key t) v [] pk = gatk_std m (map wk_key t) v [] pk).
  { intros v0 pk0. destruct (map wk_key t); [congruence|]. rewrite gatk_std_eq, str_eqb_refl. auto. }
  assert (LK : last (root_key :: map wk_key t) [] = last (map wk_key t) []).
  { destruct (map wk_key t); [congruence|reflexivity]. }
  rewrite SK, LK.
  pose proof (gatk_std_run m (map wk_key t) [] root_key F NM) as E. cbn [app dpre] in E. rewrite E.
  - assert (D : dpre (removelast (map wk_key t)) ++ last (map wk_key t) [] = dotted_name (map wk_key t)).
    { rewrite <- dotted_snoc. rewrite <- app_removelast_last by auto. auto. }
    rewrite D. rewrite (H (map wk_key t) []) by (auto; rewrite app_nil_r; auto). cbn [andb negb].
    destruct (removelast (map wk_key t)); reflexivity.
  - intros a b EQ NA NB. rewrite dpar_dotted by auto. eapply H; eauto.
Qed.
(** the name of the current table, whatever the map is *)
Lemma gatk_std_name : forall m names q v pk, Forall key_name names -> names <> [] ->
  exists v' pk', gatk_std m names v (dpre q) pk = (v', dpre (q ++ removelast names), pk').
Proof.
  intros m. induction names as [|n names IH]; intros q v pk F N; [congruence|]. inversion F as [|? ? B F']; subst.
  destruct names as [|n2 names].
  - cbn [gatk_std removelast]. rewrite app_nil_r. eauto.
  - rewrite gatk_std_eq, bare_not_root by auto.
    assert (E : dpre q ++ n = dpar (q ++ [n])) by (rewrite dpar_snoc, dotted_snoc; auto). rewrite E.
    assert (E2 : dpar (q ++ [n]) ++ lit "." = dpre (q ++ [n])) by (rewrite dpar_snoc; unfold dpre; destruct (q ++ [n]) eqn:Q; auto; destruct q; discriminate).
    rewrite E2. edestruct (IH (q ++ [n])) as (v' & pk' & X); auto; [discriminate|]. rewrite X. rewrite <- app_assoc. eauto.
Qed.
Lemma gatk_name : forall ovf m t r, Forall key_name (map wk_key t) -> t <> [] ->
  exists v pk, get_array_table_key ovf m (TStandard t :: r) [0] = Ok (v, dotted_name (map wk_key t), pk).
Proof.
  intros ovf m t r F N. unfold get_array_table_key. cbn [length gatk_loop vindex nth_error rbind skipn].
  assert (NM : map wk_key t <> []) by (destruct t; [congruence|discriminate]).
  unfold get_last_keys.
  assert (SK : forall v pk, gatk_std m (root_key :: map wk_key t) v [] pk = gatk_std m (map wk_key t) v [] pk).
  { intros v0 pk0. destruct (map wk_key t); [congruence|]. rewrite gatk_std_eq, str_eqb_refl. auto. }
  assert (LK : last (root_key :: map wk_key t) [] = last (map wk_key t) []).
  { destruct (map wk_key t); [congruence|reflexivity]. }
  rewrite SK, LK.
  destruct (gatk_std_name m (map wk_key t) [] true root_key F NM) as (v & pk & E). cbn [app dpre] in E. rewrite E.
  assert (D : dpre (removelast (map wk_key t)) ++ last (map wk_key t) [] = dotted_name (map wk_key t)).
  { rewrite <- dotted_snoc. rewrite <- app_removelast_last by auto. auto. }
  rewrite D. eauto.
Qed.

(** ** The effect of a header *)
Definition htabs (p : list str) (s : pst) : Prop :=
  match p with
  | [] => s.(p_last_table) = None /\ s.(p_tables) = [] /\ s.(p_tindex) = []
  | _ => exists t, s.(p_last_table) = Some (TStandard t) /\ s.(p_tables) = [TStandard t] /\ s.(p_tindex) = [0] /\ map wk_key t = p
  end.

(** at most one table is on the stack *)
Definition one_table (s : pst) : Prop :=
  (s.(p_tables) = [] /\ s.(p_tindex) = []) \/ exists t, s.(p_tables) = [TStandard t] /\ s.(p_tindex) = [0].
Lemma htabs_one : forall p s, htabs p s -> one_table s.
Proof.
  intros [|x p] s H; cbn [htabs] in H.
  - left. tauto.
  - right. destruct H as (t & _ & A & B & _). eauto.
Qed.

Lemma drop_keys : forall names s, s.(p_keychain) = [] ->
  keychain_drop (length names) (fold_left (fun s k => push_key (KStr k) s) names s) = Ok s.
Proof.
  intros names s K. destruct (fold_push names s) as [A B]. unfold keychain_drop. rewrite A, K. cbn [app]. rewrite map_length.
  rewrite Nat.ltb_irrefl, Nat.sub_diag. cbn [firstn]. rewrite <- K, B. auto.
Qed.

Lemma dot_act : forall w1 w2 n ks s, let P := n :: map wk_key ks in
  s.(p_keychain) = [] -> one_table s -> Forall key_name P -> tabs_ok s.(p_map) [] P ->
  (forall a b, P = a ++ b -> a <> [] -> key_has_value s.(p_map) (dotted_name a) = false) ->
  key_has_children_with_values s.(p_map) (dpar (removelast P)) = Ok false ->
  (dent s.(p_map) P = None \/ exists l, dent s.(p_map) P = Some (HashValue None (Keys l))) ->
  hget [] s.(p_map) = None ->
  exists s' t, std_table_act w1 w2 n ks (fold_left (fun s k => push_key (KStr k) s) P s) = Ok (s', t) /\
    s'.(p_keychain) = [] /\ s'.(p_atypes) = s.(p_atypes) /\ s'.(p_errors) = s.(p_errors) /\ s'.(p_array_error) = false /\
    htabs P s' /\
    (forall a x b, P = a ++ x :: b ->
       dent s'.(p_map) a = Some (HashValue (hval (dent s.(p_map) a)) (Keys (fst (vinsert (hkids (dent s.(p_map) a)) x))))) /\
    (exists id, dent s'.(p_map) P = Some (HashValue (Some (Cell id TTable)) (Keys (hkids (dent s.(p_map) P))))) /\
    (forall y, y <> dpar P -> (forall a x b, P = a ++ x :: b -> y <> dpar a) -> hget y s'.(p_map) = hget y s.(p_map)).
Proof.
  intros w1 w2 n ks s P K TA F TO NV NC OLD H0. set (w := {| wk_ws := {| ws1 := w1; ws2 := w2 |}; wk_key := n |}).
  set (t := w :: ks). assert (MT : map wk_key t = P) by reflexivity. set (res := TStandard t).
  unfold std_table_act. change (table_new {| ws1 := w1; ws2 := w2 |} n ks) with t. fold res.
  assert (LP : S (length ks) = length P) by (unfold P; cbn [length]; rewrite map_length; auto). rewrite LP, drop_keys by auto.
  cbn [rbind]. cbv zeta.
  assert (LT : (if is_top_std_table (p_tables s) || equal_key_length res (p_tables s) then (vpop (p_tables s), vpop (p_tindex s))
     else (p_tables s, p_tindex s)) = ([], [])).
  { destruct TA as [[-> ->]|(t' & -> & ->)]; reflexivity. }
  rewrite LT. change (vlast (@nil table_type)) with (@None table_type). cbv iota beta.
  change (vpush [] res) with [TStandard t]. change (vpush [] 0) with [0]. change (vlast (@nil table_type)) with (@None table_type). cbv iota beta.
  rewrite gatk_dotted by (rewrite ?MT; auto; discriminate). rewrite MT.
  cbn [rbind negb]. rewrite NC. cbn [rbind].
  assert (PN : P <> []) by discriminate. rewrite <- (dpar_dotted P) by auto.
  assert (EF : (match hget (dpar P) (p_map s) with
     | Some (HashValue (Some c) _) => match c.(c_val) with TTable => true | _ => false end | _ => false end) = false).
  { unfold dent in OLD. destruct OLD as [->|[l ->]]; auto. }
  rewrite EF. cbv iota beta.
  destruct (ait_run t [] (p_map s) true (Forall_nil _)) as (m1 & E1 & A1 & B1); [rewrite MT; auto|rewrite MT; auto|].
  rewrite MT in A1, B1. cbn [app] in A1, B1. cbn [dpar] in E1.
  assert (IM : add_implicit_tables (p_ovf s) (p_map s) [] [] res = Ok m1).
  { unfold add_implicit_tables. cbn [get_array_table_key length gatk_loop rbind negb].
    change (vlast (@nil table_type)) with (@None table_type). cbv iota beta. change ([] ++ root_key) with root_key.
    rewrite str_eqb_refl. cbn [Nat.sub skipn]. exact E1. }
  rewrite IM. cbn [rbind]. set (lastk := last P []).
  unfold add_to_table_set, get_key_parent. cbn [length gkp_loop rbind].
  rewrite B1.
  2:{ intros a x b E Q. destruct (bare_part _ a x b F E) as (BA & _ & _). symmetry in Q. apply dpar_ne in Q; auto. }
  rewrite H0. cbn [rbind].
  assert (SPL : P = removelast P ++ [lastk]) by (apply app_removelast_last; auto).
  assert (BR : Forall key_name (removelast P)) by (rewrite SPL in F; apply app_bare in F; tauto).
  assert (PNE : forall a x b, P = a ++ x :: b -> dpar a <> dpar P).
  { intros a x b E Q. destruct (bare_part _ a x b F E) as (BA & _ & _). apply dpar_inj in Q; auto. subst a.
    apply (f_equal (@length str)) in E. rewrite app_length in E. cbn [length] in E. lia. }
  assert (TP : hget (dpar P) m1 = dent (p_map s) P).
  { apply B1. intros a x b E Q. eapply PNE; eauto. }
  cbv [new_cell]. cbv iota beta. cbn [c_id].
  set (m2 := match hget (dpar P) m1 with
    | Some hv => hput (dpar P) (HashValue (Some {| c_id := p_next s; c_val := TTable |}) (hv_subkeys hv)) m1
    | None => hput (dpar P) (hv_table_keys (p_next s)) m1 end).
  assert (M2P : dent m2 P = Some (HashValue (Some (Cell (p_next s) TTable)) (Keys (hkids (dent (p_map s) P))))).
  { unfold m2, dent at 1. rewrite TP. destruct OLD as [->|[l ->]]; rewrite hget_hput_same; reflexivity. }
  assert (M2x : forall y, y <> dpar P -> hget y m2 = hget y m1).
  { intros y N. unfold m2. destruct (hget (dpar P) m1); apply hget_hput_other; auto. }
  assert (PR : hget (dpar (removelast P)) m2 = Some (HashValue (hval (dent (p_map s) (removelast P)))
      (Keys (fst (vinsert (hkids (dent (p_map s) (removelast P))) lastk))))).
  { rewrite M2x by (eapply PNE; eauto). apply (A1 (removelast P) lastk []); auto. }
  rewrite PR. cbn [hv_subkeys hv_value rbind]. rewrite vinsert_twice.
  eexists. exists res. split; [reflexivity|]. cbn [p_keychain p_atypes p_errors p_array_error set_last_table set_array_error set_map set_tables set_next set_keychain p_map].
  split; auto. split; auto. split; auto. split; auto. split; [|split; [|split]].
  - unfold P at 1. exists t. cbn. auto.
  - intros a x b E. unfold dent at 1. destruct (list_eq_dec N.eq_dec (dpar a) (dpar (removelast P))) as [Q|Q].
    + destruct (bare_part _ a x b F E) as (BA & _ & _). apply dpar_inj in Q; auto. subst a. rewrite hget_hput_same.
      rewrite SPL in E at 1. apply app_inv_head in E. inversion E; subst. auto.
    + rewrite hget_hput_other by auto. rewrite M2x by (eapply PNE; eauto). apply (A1 a x b E).
  - exists s.(p_next). unfold dent at 1. rewrite hget_hput_other; [exact M2P|]. intros Q. symmetry in Q. eapply PNE; eauto.
  - intros y N1 N2. rewrite hget_hput_other by (eapply N2; eauto). rewrite M2x by auto. apply B1; auto.
Qed.

(** ** The state after the lines [l] *)
Inductive hknown (l : list hline) : addr -> Prop :=
| HK_table : forall q, q <> [] -> table_of l q -> hknown l (aq q)
| HK_val : forall p k v r w, In (p, k, v) (entries l) -> good_path r -> at_path v r = Some w -> hknown l (ext (aq (p ++ [k])) r).

Definition opened (l : list hline) (q : list str) (pv : option cell) : Prop :=
  (In q (heads l) /\ exists id, pv = Some (Cell id TTable)) \/ (~ In q (heads l) /\ pv = None).

Record hmap (l : list hline) (cs : list cell) (m : vmap) : Prop := {
  hm_tab : forall q, reached l q -> exists pv, dent m q = Some (HashValue pv (Keys (table_keys q l))) /\ opened l q pv;
  hm_cells : Forall2 (fun c (x : list str * str * value) => to_val c.(c_val) = Ok (snd x) /\
      forall p y, tat c p = Some y ->
        good_path p /\ hget (dotted_name (fst (fst x) ++ [snd (fst x)]) ++ path_text p) m = held y) cs (entries l);
  hm_only : forall x hv, hget x m = Some hv -> x = root_key \/ exists a, hknown l a /\ x = atext a }.

Record hdinv (ers : list parse_error) (l : list hline) (cs : list cell) (s : pst) : Prop := {
  hn_keys : s.(p_keychain) = [];
  hn_types : s.(p_atypes) = [];
  hn_errors : s.(p_errors) = ers;
  hn_aerr : s.(p_array_error) = false;
  hn_tables : htabs (hcur l) s;
  hn_map : hmap l cs s.(p_map) }.

(** before a header *)
Record hpre (ers : list parse_error) (l : list hline) (cs : list cell) (s : pst) : Prop := {
  hp_keys : s.(p_keychain) = [];
  hp_types : s.(p_atypes) = [];
  hp_errors : s.(p_errors) = ers;
  hp_tables : one_table s;
  hp_map : hmap l cs s.(p_map) }.
Lemma hdinv_pre : forall ers l cs s, hdinv ers l cs s -> hpre ers l cs s.
Proof. intros ers l cs s [A B C D E F]. constructor; auto. eapply htabs_one; eauto. Qed.

Record hbare (l : list hline) : Prop := {
  hb_heads : Forall (Forall key_name) (heads l);
  hb_keys : Forall (fun x : list str * str * value => key_name (snd (fst x))) (entries l) }.
Lemma hok_bare : forall l, Forall hline_ok l -> hbare l.
Proof.
  induction l as [|d l IH] using rev_ind; intros H; [repeat constructor|].
  apply Forall_app in H as [H D]. inversion D as [|? ? OK _]; subst. destruct (IH H) as [A B].
  constructor; [rewrite heads_snoc|rewrite entries_snoc]; apply Forall_app; split; auto.
  - destruct d as [| |w0 w1 n m w2 w3 c]; try apply Forall_nil. destruct OK as (_ & _ & BN & BM & _). apply Forall_cons; [|apply Forall_nil].
    unfold head_path. constructor; auto. clear - BM. induction BM as [|x m (_ & _ & X) BM IH]; constructor; auto.
  - destruct d; try apply Forall_nil. destruct OK as (_ & BK & _). apply Forall_cons; [exact BK|apply Forall_nil].
Qed.
Lemma hbare_prefix : forall l d, hbare (l ++ [d]) -> hbare l.
Proof.
  intros l d [B1 B2]. rewrite heads_snoc in B1. rewrite entries_snoc in B2. apply Forall_app in B1 as [B1 _].
  apply Forall_app in B2 as [B2 _]. constructor; auto.
Qed.
Lemma bare_table_of : forall l q, hbare l -> table_of l q -> Forall key_name q.
Proof. intros l q [A _] [x H]. rewrite Forall_forall in A. apply A in H. apply app_bare in H. tauto. Qed.
Lemma bare_reached : forall l q, hbare l -> reached l q -> Forall key_name q.
Proof. intros l q B [->|H]; [apply Forall_nil|eapply bare_table_of; eauto]. Qed.
Lemma bare_entry : forall l p k v, hbare l -> In (p, k, v) (entries l) -> Forall key_name (p ++ [k]).
Proof.
  intros l p k v B I. apply bare_app.
  - eapply bare_reached; eauto. eapply entries_reached; eauto.
  - destruct B as [_ B]. rewrite Forall_forall in B. apply (B _) in I. constructor; auto.
Qed.
Lemma snoc_ne : forall (p : list str) k, p ++ [k] <> [].
Proof. intros [|x p] k; discriminate. Qed.
Lemma hknown_good : forall l a, hbare l -> hknown l a -> good_addr a.
Proof.
  intros l a B [q N T|p k v r w I G W].
  - apply aq_good; auto. eapply bare_table_of; eauto.
  - apply good_ext; auto. apply aq_good; [apply snoc_ne|]. eapply bare_entry; eauto.
Qed.
Lemma hknown_snoc : forall l d a, hknown l a -> hknown (l ++ [d]) a.
Proof.
  intros l d a [q N T|p k v r w I G W]; [apply HK_table; auto; apply table_of_snoc; auto|].
  eapply HK_val; eauto. rewrite entries_snoc. apply in_or_app; auto.
Qed.

(** two values do not share an address, nor do a value and a table *)
Lemma apart : forall l p k v r p' k' v' r', hdistinct l -> In (p, k, v) (entries l) -> In (p', k', v') (entries l) ->
  ext (aq (p ++ [k])) r = ext (aq (p' ++ [k'])) r' -> p = p' /\ k = k'.
Proof.
  intros l p k v r p' k' v' r' [_ _ D] I I' E. apply (f_equal steps) in E. rewrite !aq_steps in E by apply snoc_ne.
  assert (X : forall p k v p' k' v' t, In (p, k, v) (entries l) -> In (p', k', v') (entries l) -> p ++ [k] = (p' ++ [k']) ++ t -> p = p' /\ k = k').
  { clear - D. intros p k v p' k' v' t I I' E. destruct t as [|x t] using rev_ind.
    - rewrite app_nil_r in E. apply app_inj_tail in E. auto.
    - exfalso. rewrite app_assoc in E. apply app_inj_tail in E as [E _]. apply (D _ _ _ I').
      destruct (entries_reached _ _ _ _ I) as [H|H]; [subst p; destruct p'; discriminate H|]. rewrite E in H. eapply table_of_front; eauto. }
  apply keys_prefix in E as [[t E]|[t E]]; [eauto|]. destruct (X _ _ _ _ _ _ _ I' I E); auto.
Qed.
Lemma apart_table : forall l p k v r q, hdistinct l -> In (p, k, v) (entries l) -> q <> [] -> table_of l q -> aq q <> ext (aq (p ++ [k])) r.
Proof.
  intros l p k v r q [_ _ D] I N T E. apply aq_ext in E as [t ->]; auto using snoc_ne. apply (D _ _ _ I). eapply table_of_front; eauto.
Qed.

Lemma hfresh : forall l cs m w0 k w1 w2 v t w3 c, hmap l cs m -> hbare (l ++ [HPair w0 k w1 w2 v t w3 c]) ->
  hdistinct (l ++ [HPair w0 k w1 w2 v t w3 c]) -> fresh m (dotted_name (hcur l ++ [k])).
Proof.
  intros l cs m w0 k w1 w2 v t w3 c MI B DI x U. set (d := HPair w0 k w1 w2 v t w3 c) in *.
  destruct (hget x m) as [hv|] eqn:H; auto. exfalso.
  assert (L : In (hcur l, k, v) (entries (l ++ [d]))) by (rewrite entries_snoc; apply in_or_app; right; left; auto).
  assert (GA : good_addr (aq (hcur l ++ [k]))) by (apply aq_good; [apply snoc_ne|eapply bare_entry; eauto]).
  rewrite <- aq_text in U. apply (hm_only _ _ _ MI) in H as [H|(a & K & ->)].
  - subst x. apply under_root in U; auto.
  - assert (K' : hknown (l ++ [d]) a) by (apply hknown_snoc; auto).
    apply under_ext in U as [r E]; auto. 2:{ eapply hknown_good; eauto. }
    destruct K as [q N T|p k' v' r' w I G W].
    + eapply apart_table; eauto. apply table_of_snoc; auto.
    + assert (L' : In (p, k', v') (entries (l ++ [d]))) by (rewrite entries_snoc; apply in_or_app; auto).
      destruct (apart _ _ _ _ _ _ _ _ _ DI L' L E) as [-> ->].
      destruct DI as [D _ _]. rewrite entries_snoc, map_app in D. cbn [map fst] in D. apply NoDup_remove_2 in D. rewrite app_nil_r in D.
      apply D. apply (in_map fst) in I. exact I.
Qed.

Lemma hcur_vctx : forall ers l cs s, hdinv ers l cs s -> hbare l -> vctx s [] (dpre (hcur l)) (dpar (hcur l)).
Proof.
  intros ers l cs s [K T E AE TA MI] B. assert (BC : Forall key_name (hcur l)) by (eapply bare_reached; eauto; apply cur_reached).
  constructor; [auto|intros x []|].
  intros s2 F W G. pose proof F as [F2 F3 F4 F5 F6]. destruct (hcur l) as [|n p] eqn:NW; cbn [htabs] in TA.
  - destruct TA as (TA & TB & TC). unfold keyval_keys. rewrite F4, TA. destruct (chain_parent _ G) as [P Q].
    destruct (get_keychain_key (p_keychain s2)) as [a b] eqn:X. cbn [snd] in P. cbn [dpre dpar app].
    assert (a = chain (p_keychain s2)) as -> by (injection X as <- _; reflexivity). subst b.
    unfold parent_of. destruct (removelast (p_keychain s2)) as [|x y]; [auto|].
    destruct (chain (x :: y)) eqn:Z; [exfalso; apply Q; auto; discriminate|]. reflexivity.
  - destruct TA as (t & TA & TB & TC & TD). unfold keyval_keys. rewrite F4, TA, F2, TB, F3, TC.
    rewrite <- TD in BC. assert (NT : t <> []) by (destruct t; [discriminate TD|discriminate]).
    unfold vpush. cbn [app]. destruct (gatk_name (p_ovf s2) (p_map s2) t [TStandard t] BC NT) as (v & pk & X).
    assert (NE : dotted_name (map wk_key t) <> []).
    { apply dotted_ne; auto. rewrite TD. discriminate. }
    erewrite full_key_in by eauto. cbn [rbind]. rewrite TD. reflexivity.
Qed.

(** ** A key/value line *)
Lemma hcur_fullctx : forall ers l cs s, hdinv ers l cs s -> hbare l -> fullctx s [] (dpre (hcur l)).
Proof.
  intros ers l cs s [K T E AE TA MI] B. assert (BC : Forall key_name (hcur l)) by (eapply bare_reached; eauto; apply cur_reached).
  intros s2 F W G. pose proof F as [F2 F3 F4 F5 F6]. destruct (hcur l) as [|n p] eqn:NW; cbn [htabs] in TA.
  - destruct TA as (TA & TB & TC). rewrite F2, TB, F3, TC. destruct (chain_parent _ G) as [P Q]. exists true, [].
    unfold get_full_key. cbn [get_array_table_key rbind].
    destruct (get_keychain_key (p_keychain s2)) as [a b] eqn:X. cbn [snd] in P. cbn [dpre app].
    assert (a = chain (p_keychain s2)) as -> by (injection X as <- _; reflexivity). subst b. reflexivity.
  - destruct TA as (t & TA & TB & TC & TD). rewrite F2, TB, F3, TC.
    rewrite <- TD in BC. assert (NT : t <> []) by (destruct t; [discriminate TD|discriminate]).
    destruct (gatk_name (p_ovf s2) (p_map s2) t [] BC NT) as (v & pk & X).
    assert (NE : dotted_name (map wk_key t) <> []).
    { apply dotted_ne; auto. rewrite TD. discriminate. }
    erewrite full_key_in by eauto. rewrite TD. eauto.
Qed.

Lemma hstep_line_notes : forall ers l cs s w0 k w1 w2 v t w3 c r,
  hdinv ers l cs s -> hbare (l ++ [HPair w0 k w1 w2 v t w3 c]) -> hdistinct (l ++ [HPair w0 k w1 w2 v t w3 c]) ->
  line_start r -> blanks w0 -> key_name k -> blanks w1 -> blanks w2 -> writes v t -> blanks w3 -> com_ok c ->
  exists s' cl ers', expression_p s (hline_text (HPair w0 k w1 w2 v t w3 c) ++ r) =
    Ok (s', Done r {| e_ws := {| ws1 := w0; ws2 := w3 |};
         e_keyval := Some (KeyVal k {| ws1 := w1; ws2 := w2 |} cl); e_table := None; e_comment := c |}) /\
    hdinv ers' (l ++ [HPair w0 k w1 w2 v t w3 c]) (cs ++ [cl]) s' /\
    notes (dotted_name (hcur l ++ [k])) (vfaults v) s.(p_line) s'.(p_line) s.(p_errors) ers'.
Proof.
  intros ers l cs s w0 k w1 w2 v t w3 c r DI B' DS R W0 BK W1 W2 SP W3 CO.
  assert (B : hbare l) by (eapply hbare_prefix; eauto).
  pose proof (hcur_vctx ers l cs s DI B) as VC. pose proof (cur_reached l) as RT.
  assert (BT : Forall key_name (hcur l)) by (eapply bare_reached; eauto).
  pose proof DI as [KC TY ER AE TA MI].
  pose proof (hfresh _ _ _ _ _ _ _ _ _ _ _ MI B' DS) as FR.
  set (d := HPair w0 k w1 w2 v t w3 c) in *. remember (hcur l) as tt eqn:NW. set (sp := push_key (KStr k) s).
  assert (KP : p_keychain sp = [KStr k]). { unfold sp, push_key, vpush. cbn. rewrite KC. auto. }
  set (A := dotted_name (tt ++ [k])) in *.
  assert (CH : dpre tt ++ chain (p_keychain sp) = A). { rewrite KP, chain_one. unfold A. rewrite dotted_snoc. auto. }
  assert (GC : good_chain [KStr k]). { exists k, []. split; auto. apply key_ne; auto. }
  destruct (writes_val v t SP sp (w3 ++ com_text c ++ r) [] (dpre tt) (dpar tt)) as (s1 & cl & E & RD & NT).
  { apply ends_after; auto. } { eapply vctx_keep; eauto. } { rewrite KP. auto. } { rewrite CH. exact FR. }
  { right. eapply fullctx_keep; eauto. rewrite NW. eapply hcur_fullctx; eauto. }
  rewrite CH in RD, NT. pose proof RD as [[F0 FC FT] V GD PE HI ON MS]. change (p_map sp) with (p_map s) in *.
  assert (BA : Forall key_name (tt ++ [k])) by (apply bare_app; auto).
  assert (GA : good_addr (aq (tt ++ [k]))) by (apply aq_good; auto using snoc_ne).
  destruct (hm_tab _ _ _ MI tt RT) as (pv & PX & PV). unfold dent in PX.
  assert (PNU : ~ under A (dpar tt)). { intros U. apply FR in U. congruence. }
  assert (K1 : keyval_keys s1 = Ok (A, dpar tt)).
  { rewrite (vx_keys _ _ _ _ VC s1).
    - rewrite FC, CH, KP. reflexivity.
    - destruct F0. constructor; auto.
    - intros x [].
    - rewrite FC, KP. auto. }
  assert (PS : hget (dpar tt) (p_map s1) = Some (HashValue pv (Keys (table_keys tt l)))) by (rewrite MS; auto).
  set (hvA := HashValue (Some cl) (tkids (c_val cl))).
  set (hvP := HashValue pv (Keys (fst (vinsert (table_keys tt l) k)))).
  set (m := hput (dpar tt) hvP (hput A hvA (p_map s1))).
  assert (PA : dpar tt <> A) by (intros Q; apply PNU; rewrite Q; left; auto).
  assert (INS : insert_keyval_into_map s1 cl = Ok (set_map m s1)).
  { rewrite (insert_at _ _ _ _ K1 PE). fold hvA. unfold update_parent. rewrite hget_hput_other by auto.
    rewrite PS. cbn [hv_subkeys hv_value]. rewrite FC, KP. reflexivity. }
  exists (pop_key (set_map m s1)), cl, s1.(p_errors). split; [|split; [|exact NT]].
  { cbn [hline_text]. apply line_read1 with (s1 := s1); auto.
    - destruct (vhead_solid _ (vhead_app _ (w3 ++ com_text c ++ r) (writes_head _ _ SP))) as (_ & _ & NB & _). auto.
    - destruct F0. cbn in *. congruence. }
  assert (GM : forall x, hget x m = if list_eq_dec N.eq_dec x (dpar tt) then Some hvP
     else if list_eq_dec N.eq_dec x A then Some hvA else hget x (p_map s1)).
  { intros x. unfold m. destruct (list_eq_dec N.eq_dec x (dpar tt)) as [->|N1]; [apply hget_hput_same|].
    rewrite hget_hput_other by auto. destruct (list_eq_dec N.eq_dec x A) as [->|N2]; [apply hget_hput_same|].
    apply hget_hput_other; auto. }
  assert (KEEP : forall x hv, hget x (p_map s) = Some hv -> x <> dpar tt -> hget x m = Some hv).
  { intros x hv H N. rewrite GM. destruct (list_eq_dec N.eq_dec x (dpar tt)); [congruence|].
    assert (NU : ~ under A x). { intros U. apply FR in U. congruence. }
    destruct (list_eq_dec N.eq_dec x A) as [->|_]; [exfalso; apply NU; left; auto|]. rewrite MS; auto. }
  assert (ENS : entries (l ++ [d]) = entries l ++ [(tt, k, v)]) by (rewrite entries_snoc, <- NW; reflexivity).
  assert (HDS : heads (l ++ [d]) = heads l) by (rewrite heads_snoc; apply app_nil_r).
  constructor.
  - cbn. rewrite FC, KP. reflexivity.
  - cbn. rewrite FT. auto.
  - reflexivity.
  - cbn. destruct F0. cbn in *. congruence.
  - rewrite cur_snoc. unfold d. rewrite <- NW. destruct F0 as [X2 X3 X4 X5 X6]. change (p_tables sp) with (p_tables s) in X2.
    change (p_tindex sp) with (p_tindex s) in X3. change (p_last_table sp) with (p_last_table s) in X4.
    destruct tt as [|n p]; cbn [htabs pop_key set_keychain set_map p_last_table p_tables p_tindex] in *; rewrite X2, X3, X4; auto.
  - change (p_map (pop_key (set_map m s1))) with m. constructor.
    + (* tables *) intros q RQ.
      assert (RQ' : reached l q) by (destruct RQ as [RQ|[x RQ]]; [left; auto|right; exists x; rewrite HDS in RQ; auto]).
      assert (OPq : forall pv, opened l q pv -> opened (l ++ [d]) q pv) by (intros pv0; unfold opened; rewrite HDS; auto).
      unfold table_keys. rewrite named_snoc. unfold d. cbn [new_names]. rewrite <- NW.
      destruct (list_eq_dec (list_eq_dec N.eq_dec) tt q) as [Q|Q].
      * subst q. exists pv. split; auto. unfold dent. rewrite GM. destruct (list_eq_dec N.eq_dec (dpar tt) (dpar tt)); [|congruence].
        unfold hvP, table_keys. rewrite vinsert_first. auto.
      * destruct (hm_tab _ _ _ MI q RQ') as (pv' & X & Y). exists pv'. split; auto. rewrite app_nil_r. apply KEEP; auto.
        intros Z. apply dpar_inj in Z; auto. eapply bare_reached; eauto.
    + (* values *) rewrite ENS. apply Forall2_app.
      * eapply forall2_impl; [|exact (hm_cells _ _ _ MI)]. intros c0 [[t' k'] v'] [X1 X2]. cbn [fst snd] in *. split; auto.
        intros p y TT. destruct (X2 p y TT) as [X3 X4]. split; auto. unfold held in *. apply KEEP; auto.
        intros X. rewrite X, PX in X4. injection X4 as X4 _. destruct (to_val_sub _ _ _ _ X1 TT) as (w & X5 & _).
        destruct PV as [[_ [id ->]]|[_ ->]]; [|discriminate X4]. injection X4 as X4. subst y. discriminate X5.
      * constructor; [|constructor]. cbn [fst snd]. split; auto. intros p y TT. split; [eapply GD; eauto|]. fold A.
        rewrite GM. destruct p as [|z p].
        -- cbn [tat] in TT. injection TT as <-. change (path_text []) with (@nil N). rewrite app_nil_r.
           destruct (list_eq_dec N.eq_dec A (dpar tt)); [congruence|]. destruct (list_eq_dec N.eq_dec A A); [reflexivity|congruence].
        -- destruct (list_eq_dec N.eq_dec (A ++ path_text (z :: p)) (dpar tt)) as [Q|_].
           { exfalso. apply PNU. rewrite <- Q. apply under_path. }
           destruct (list_eq_dec N.eq_dec (A ++ path_text (z :: p)) A) as [Q|_].
           { exfalso. apply path_ne in Q; auto. discriminate. }
           apply HI; auto. discriminate.
    + (* nothing else *) intros x hv H. rewrite GM in H. destruct (list_eq_dec N.eq_dec x (dpar tt)) as [->|N1].
      { apply (hm_only _ _ _ MI) in PX as [PX|(a & Ka & PX)]; auto. right. exists a. split; auto. apply hknown_snoc; auto. }
      assert (NEW : forall p y, tat cl p = Some y -> hknown (l ++ [d]) (ext (aq (tt ++ [k])) p)).
      { intros p y TT. destruct (to_val_sub _ _ _ _ V TT) as (w & _ & X). eapply HK_val; eauto. rewrite ENS. apply in_or_app. right. left; auto. }
      destruct (list_eq_dec N.eq_dec x A) as [->|N2].
      { right. exists (ext (aq (tt ++ [k])) []). split; [eapply NEW; reflexivity|]. rewrite atext_ext, aq_text. symmetry. apply app_nil_r. }
      apply ON in H as [H|[H|(p & y & N & TT & ->)]]; [congruence| |].
      * apply (hm_only _ _ _ MI) in H as [H|(a & Ka & H)]; auto. right. exists a. split; auto. apply hknown_snoc; auto.
      * right. exists (ext (aq (tt ++ [k])) p). split; [eapply NEW; eauto|]. rewrite atext_ext, aq_text. auto.
Qed.

Lemma hstep_line : forall ers l cs s w0 k w1 w2 v t w3 c r,
  hdinv ers l cs s -> Forall hline_ok (l ++ [HPair w0 k w1 w2 v t w3 c]) -> hdistinct (l ++ [HPair w0 k w1 w2 v t w3 c]) ->
  line_start r ->
  exists s' cl, expression_p s (hline_text (HPair w0 k w1 w2 v t w3 c) ++ r) =
    Ok (s', Done r {| e_ws := {| ws1 := w0; ws2 := w3 |};
         e_keyval := Some (KeyVal k {| ws1 := w1; ws2 := w2 |} cl); e_table := None; e_comment := c |}) /\
    hdinv ers (l ++ [HPair w0 k w1 w2 v t w3 c]) (cs ++ [cl]) s'.
Proof.
  intros ers l cs s w0 k w1 w2 v t w3 c r DI OK DS R. pose proof OK as OK2. apply Forall_app in OK2 as [OKL OKD].
  inversion OKD as [|? ? OD _]; subst. destruct OD as (W0 & BK & W1 & W2 & SP & W3 & CO). apply spells_writes in SP as [SP NF].
  destruct (hstep_line_notes ers l cs s w0 k w1 w2 v t w3 c r) as (s' & cl & ers' & E & DI' & NT); auto using hok_bare.
  exists s', cl. split; auto. rewrite NF in NT. apply notes_none in NT. pose proof (hn_errors _ _ _ _ DI). congruence.
Qed.

(** ** A header *)
(** the entry of a table on the path of a header, before it is read *)
Lemma entry_at : forall l cs m w0 w1 n more w2 w3 c q r, hmap l cs m -> hbare (l ++ [HHead w0 w1 n more w2 w3 c]) ->
  hdistinct (l ++ [HHead w0 w1 n more w2 w3 c]) -> head_path n more = q ++ r ->
  (reached l q /\ exists pv, dent m q = Some (HashValue pv (Keys (table_keys q l))) /\ opened l q pv) \/
  (~ reached l q /\ dent m q = None /\ table_keys q l = []).
Proof.
  intros l cs m w0 w1 n more w2 w3 c q r MI B DS E. set (d := HHead w0 w1 n more w2 w3 c) in *.
  assert (HDS : heads (l ++ [d]) = heads l ++ [head_path n more]) by (rewrite heads_snoc; reflexivity).
  assert (TQ : table_of (l ++ [d]) q). { exists r. rewrite HDS, <- E. apply in_or_app. right. left; auto. }
  assert (BQ : Forall key_name q) by (eapply bare_table_of; eauto).
  assert (RD : reached l q \/ ~ reached l q).
  { destruct q as [|x q]; [left; left; auto|].
    assert (DEC : forall h, (exists y, h = (x :: q) ++ y) \/ ~ exists y, h = (x :: q) ++ y).
    { intros h. destruct (list_eq_dec (list_eq_dec N.eq_dec) (firstn (length (x :: q)) h) (x :: q)) as [F|F].
      - left. exists (skipn (length (x :: q)) h). rewrite <- F at 1. symmetry. apply firstn_skipn.
      - right. intros [y ->]. apply F. rewrite firstn_app, Nat.sub_diag, firstn_all. apply app_nil_r. }
    assert (X : (exists h, In h (heads l) /\ exists y, h = (x :: q) ++ y) \/ ~ exists h, In h (heads l) /\ exists y, h = (x :: q) ++ y).
    { clear - DEC. induction (heads l) as [|h hs [(h' & I & Y)|N]].
      - right. intros (h & [] & _).
      - left. exists h'. split; auto. right; auto.
      - destruct (DEC h) as [Y|Y]; [left; exists h; split; auto; left; auto|]. right. intros (h' & [<-|I] & Z); [auto|]. apply N. eauto. }
    destruct X as [(h & I & y & ->)|X]; [left; right; exists y; auto|]. right. intros [H|[y H]]; [discriminate|]. apply X. eauto. }
  destruct RD as [RQ|NR].
  - left. split; auto. apply (hm_tab _ _ _ MI q RQ).
  - right. split; auto. split; [|apply unreached_keys; auto]. unfold dent. destruct (hget (dpar q) m) as [hv|] eqn:H; auto. exfalso.
    assert (NQ : q <> []) by (intros ->; apply NR; left; auto). rewrite dpar_dotted in H by auto. rewrite <- aq_text in H.
    assert (GQ : good_addr (aq q)) by (apply aq_good; auto).
    apply (hm_only _ _ _ MI) in H as [H|(a & K & H)]; [apply atext_root in H; auto|].
    apply atext_inj in H; auto. 2:{ eapply hknown_good; [exact B|]. apply hknown_snoc; eauto. }
    destruct K as [q' N' T'|p k v r' w I G W].
    + apply NR. right. assert (q = q') as ->; auto. apply dotted_inj; auto. { eapply bare_table_of; [exact B|]. apply table_of_snoc; auto. }
      rewrite <- !aq_text. congruence.
    + eapply apart_table; eauto. rewrite entries_snoc. apply in_or_app; eauto.
Qed.

Lemma hstep_head : forall ers l cs s w0 w1 n more w2 w3 c r,
  hpre ers l cs s -> hbare (l ++ [HHead w0 w1 n more w2 w3 c]) -> hline_ok (HHead w0 w1 n more w2 w3 c) ->
  hdistinct (l ++ [HHead w0 w1 n more w2 w3 c]) -> parents_empty (l ++ [HHead w0 w1 n more w2 w3 c]) -> line_start r ->
  exists s' tt, expression_p s (hline_text (HHead w0 w1 n more w2 w3 c) ++ r) =
    Ok (s', Done r {| e_ws := {| ws1 := w0; ws2 := w3 |}; e_keyval := None; e_table := Some tt; e_comment := c |}) /\
    hdinv ers (l ++ [HHead w0 w1 n more w2 w3 c]) cs s'.
Proof.
  intros ers l cs s w0 w1 n more w2 w3 c r DI B' OKd DS PE R. assert (B : hbare l) by (eapply hbare_prefix; eauto).
  destruct OKd as (W0 & W1 & BN & BM & W2 & W3 & CO). pose proof DI as [KC TY ER TA MI].
  pose proof (fun q r => entry_at _ _ _ _ _ _ _ _ _ _ q r MI B' DS) as EA.
  set (d := HHead w0 w1 n more w2 w3 c) in *. set (P := head_path n more) in *.
  assert (HDS : heads (l ++ [d]) = heads l ++ [P]) by (rewrite heads_snoc; reflexivity).
  assert (ENS : entries (l ++ [d]) = entries l) by (rewrite entries_snoc; apply app_nil_r).
  assert (NP : ~ In P (heads l)).
  { pose proof (hd_heads _ DS) as D2. rewrite HDS in D2. apply NoDup_remove_2 in D2. rewrite app_nil_r in D2. auto. }
  assert (BP : Forall key_name P).
  { apply (bare_table_of (l ++ [d])); auto. exists []. rewrite app_nil_r, HDS. apply in_or_app. right. left; auto. }
  assert (TOFP : forall a b, P = a ++ b -> table_of (l ++ [d]) a).
  { intros a b E. exists b. rewrite HDS, <- E. apply in_or_app. right. left; auto. }
  assert (NAME : forall a x b, P = a ++ x :: b -> (In x (table_keys a l) <-> reached l (a ++ [x]))).
  { intros a x b E. rewrite table_keys_in, named_iff. split.
    - intros [H|[v H]]; [right; auto|]. exfalso. apply (hd_apart _ DS a x v); [rewrite ENS; auto|]. apply (TOFP _ b). rewrite <- app_assoc. auto.
    - intros [H|H]; auto. destruct a; discriminate H. }
  assert (KIDS : forall a b, P = a ++ b -> hkids (dent (p_map s) a) = table_keys a l).
  { intros a b E. destruct (EA a b E) as [(_ & pv & -> & _)|(_ & -> & ->)]; reflexivity. }
  assert (NOV : forall a b, P = a ++ b -> a <> [] -> key_has_value (p_map s) (dotted_name a) = false).
  { intros a b E N. rewrite <- dpar_dotted by auto. unfold key_has_value. fold (dent (p_map s) a).
    destruct (EA a b E) as [(_ & pv & -> & [[_ [id ->]]|[_ ->]])|(_ & -> & _)]; reflexivity. }
  destruct (dot_read w1 n more w2 (w3 ++ com_text c ++ r) s W1 BN BM W2) as (ks & MK & RD).
  assert (PK : n :: map wk_key ks = P) by (unfold P, head_path; congruence).
  assert (H0 : hget [] (p_map s) = None).
  { destruct (hget [] (p_map s)) as [hv|] eqn:H; auto. exfalso. apply (hm_only _ _ _ MI) in H as [H|(a & K & H)]; [discriminate|].
    apply (atext_ne a); auto. eapply hknown_good; eauto. }
  assert (SPL : P = removelast P ++ [last P []]) by (apply app_removelast_last; discriminate).
  assert (CHV : key_has_children_with_values (p_map s) (dpar (removelast P)) = Ok false).
  { unfold key_has_children_with_values. destruct (str_eqb (dpar (removelast P)) root_key) eqn:Q; auto.
    assert (NR : removelast P <> []) by (intros X; rewrite X, str_eqb_refl in Q; discriminate).
    fold (dent (p_map s) (removelast P)).
    destruct (EA _ _ SPL) as [(_ & pv & -> & _)|(_ & -> & _)]; auto. cbn [hv_subkeys]. f_equal.
    apply not_true_iff_false. intros H. apply existsb_exists in H as (ck & I & H).
    assert (X : dpar (removelast P) ++ lit "." ++ ck = dpar (removelast P ++ [ck])).
    { rewrite dpar_snoc, dotted_snoc. unfold dpre, dpar. destruct (removelast P); [congruence|]. rewrite <- app_assoc. auto. }
    rewrite X in H. apply table_keys_in, named_iff in I as [I|[v I]].
    - destruct (hm_tab _ _ _ MI (removelast P ++ [ck]) (or_intror I)) as (pv' & Y & OP). unfold key_has_value in H. unfold dent in Y. rewrite Y in H.
      cbn [hv_value] in H. destruct OP as [[_ [id ->]]|[_ ->]]; discriminate H.
    - apply (PE l [] w0 w1 n more w2 w3 c _ _ eq_refl SPL NR ck v I). }
  destruct (dot_act w1 w2 n ks s) as (s' & tt & E & E1 & E2 & E3 & E4 & E5 & A1 & (id & A2) & A3); auto; rewrite ?PK in *; auto.
  { split.
    - destruct (EA [] P eq_refl) as [(_ & pv & -> & _)|(X & _)]; [eauto|exfalso; apply X; left; auto].
    - intros a x b EQ NB. cbn [app]. rewrite (KIDS a (x :: b) EQ), (NAME a x b EQ).
      destruct (EA (a ++ [x]) b) as [(X & pv & Y & _)|(X & Y & _)]; [rewrite <- app_assoc; auto|left; eauto|right; auto]. }
  { destruct (EA P [] ltac:(rewrite app_nil_r; auto)) as [(_ & pv & -> & [[X _]|[_ ->]])|(_ & -> & _)]; auto; [contradiction|]. eauto. }
  exists s', tt. split.
  { replace (hline_text d) with (w0 ++ (lit "[" ++ w1 ++ n ++ concat (map more_text more) ++ w2 ++ lit "]") ++ w3 ++ com_text c)
      by (unfold d; cbn [hline_text]; rewrite <- !app_assoc; reflexivity).
    apply header_tail; auto.
    intros x. simpl. lia. }
  assert (VALS : forall p k v r' hv, In (p, k, v) (entries l) -> good_path r' -> hget (dotted_name (p ++ [k]) ++ path_text r') (p_map s) = Some hv ->
     hget (dotted_name (p ++ [k]) ++ path_text r') (p_map s') = Some hv).
  { intros p k v r' hv I G H. rewrite A3; auto.
    - intros Q. rewrite dpar_dotted in Q by discriminate. rewrite <- !aq_text, <- atext_ext in Q.
      apply atext_inj in Q; [| |apply aq_good; auto; discriminate].
      + symmetry in Q. revert Q. apply (apart_table (l ++ [d]) p k v); auto; [rewrite ENS; auto|discriminate|]. apply (TOFP P []). rewrite app_nil_r; auto.
      + apply good_ext; auto. apply aq_good; [apply snoc_ne|eapply bare_entry; eauto].
    - intros a x b EQ Q. assert (GX : good_addr (ext (aq (p ++ [k])) r')).
      { apply good_ext; auto. apply aq_good; [apply snoc_ne|eapply bare_entry; eauto]. }
      rewrite <- aq_text, <- atext_ext in Q. destruct a as [|y a]; [apply atext_root in Q; auto|].
      destruct (bare_part _ _ x b BP EQ) as (BA & _ & _).
      rewrite dpar_dotted in Q by discriminate. rewrite <- aq_text in Q. apply atext_inj in Q; [|auto|apply aq_good; auto; discriminate].
      symmetry in Q. revert Q. apply (apart_table (l ++ [d]) p k v); auto; [rewrite ENS; auto|discriminate|]. apply (TOFP (y :: a) (x :: b)). auto. }
  constructor; try congruence.
  - rewrite cur_snoc. exact E5.
  - constructor.
    + (* tables *) intros q RQ.
      assert (TK : table_keys q (l ++ [d]) = match next_name q P with Some x => fst (vinsert (table_keys q l) x) | None => table_keys q l end).
      { unfold table_keys. rewrite named_snoc. unfold d. cbn [new_names]. fold P. destruct (next_name q P); [rewrite vinsert_first; auto|rewrite app_nil_r; auto]. }
      rewrite TK. destruct (next_name q P) as [x|] eqn:NX.
      * apply next_name_iff in NX as [b EQ]. rewrite (A1 q x b EQ), (KIDS q (x :: b) EQ). eexists. split; [reflexivity|].
        assert (QP : q <> P). { intros ->. apply (f_equal (@length str)) in EQ. rewrite app_length in EQ. cbn [length] in EQ. lia. }
        unfold opened. rewrite HDS. destruct (EA q (x :: b) EQ) as [(_ & pv & -> & [[X [id' ->]]|[X ->]])|(X & -> & _)]; cbn [hval hv_value].
        -- left. split; [apply in_or_app; auto|eauto].
        -- right. split; auto. intros Y. apply in_app_or in Y as [Y|[Y|[]]]; auto.
        -- right. split; auto. intros Y. apply in_app_or in Y as [Y|[Y|[]]]; auto. apply X. right. exists []. rewrite app_nil_r. auto.
      * destruct (list_eq_dec (list_eq_dec N.eq_dec) q P) as [->|QP].
        -- rewrite A2. rewrite (KIDS P []) by (rewrite app_nil_r; auto). eexists. split; [reflexivity|]. left. split; [|eauto].
           rewrite HDS. apply in_or_app. right. left; auto.
        -- assert (NPRE : forall y, P <> q ++ y).
           { intros [|x y] EQ; [rewrite app_nil_r in EQ; auto|]. assert (next_name q P = Some x) by (apply next_name_iff; eauto). congruence. }
           assert (RQ' : reached l q).
           { destruct RQ as [RQ|[y RQ]]; [left; auto|]. rewrite HDS in RQ. apply in_app_or in RQ as [RQ|[RQ|[]]]; [right; exists y; auto|].
             exfalso. eapply NPRE; eauto. }
           assert (BQ : Forall key_name q) by (eapply bare_reached; eauto).
           destruct (hm_tab _ _ _ MI q RQ') as (pv & X & Y). exists pv. split.
           ++ unfold dent. rewrite A3; auto.
              ** intros Q. apply dpar_inj in Q; auto.
              ** intros a x b EQ Q. destruct (bare_part _ a x b BP EQ) as (BA & _ & _). apply dpar_inj in Q; auto. subst a. eapply NPRE; eauto.
           ++ unfold opened in *. rewrite HDS. destruct Y as [[Y Z]|[Y Z]]; [left|right]; split; auto.
              ** apply in_or_app; auto.
              ** intros W. apply in_app_or in W as [W|[W|[]]]; auto.
    + (* values *) rewrite ENS. pose proof (hm_cells _ _ _ MI) as F2. clear - F2 VALS.
      assert (G : forall es cs, (forall e, In e es -> In e (entries l)) ->
        Forall2 (fun c (x : list str * str * value) => to_val c.(c_val) = Ok (snd x) /\ forall p y, tat c p = Some y ->
        good_path p /\ hget (dotted_name (fst (fst x) ++ [snd (fst x)]) ++ path_text p) (p_map s) = held y) cs es ->
        Forall2 (fun c (x : list str * str * value) => to_val c.(c_val) = Ok (snd x) /\ forall p y, tat c p = Some y ->
        good_path p /\ hget (dotted_name (fst (fst x) ++ [snd (fst x)]) ++ path_text p) (p_map s') = held y) cs es).
      { intros es cs0 IN F. induction F as [|c0 [[p k] v] cs1 es [X1 X2] F IH]; constructor.
        - cbn [fst snd] in *. split; auto. intros r' y TT. destruct (X2 r' y TT) as [X3 X4]. split; auto. unfold held in *.
          eapply VALS; eauto. apply IN. left; eauto.
        - apply IH. intros e I. apply IN. right; auto. }
      apply G; auto.
    + (* nothing else *) intros y hv H.
      destruct (list_eq_dec N.eq_dec y root_key) as [->|NR]; auto.
      assert (KN : forall a b, P = a ++ b -> y = dpar a -> exists a', hknown (l ++ [d]) a' /\ y = atext a').
      { intros a b EQ ->. destruct a as [|x a]; [exfalso; apply NR; reflexivity|]. exists (aq (x :: a)). split; [|rewrite aq_text; auto].
        apply HK_table; [discriminate|]. eapply TOFP; eauto. }
      destruct (list_eq_dec N.eq_dec y (dpar P)) as [Q|Q]; [right; apply (KN P []); auto; rewrite app_nil_r; auto|].
      assert (DEC : (exists a x b, P = a ++ x :: b /\ y = dpar a) \/ forall a x b, P = a ++ x :: b -> y <> dpar a).
      { clear. assert (G : forall P (f : list str -> str), (exists a x b, P = a ++ x :: b /\ y = f a) \/ forall a (x : str) b, P = a ++ x :: b -> y <> f a).
        { clear. induction P as [|z P IH]; intros f; [right; intros [|] x b E; discriminate E|].
          destruct (list_eq_dec N.eq_dec y (f [])) as [E|E]; [left; exists [], z, P; auto|].
          destruct (IH (fun a => f (z :: a))) as [(a & x & b & EP & E2)|N].
          { left. exists (z :: a), x, b. split; auto. rewrite EP. reflexivity. }
          right. intros [|u a] x b EQ; [auto|]. cbn [app] in EQ. inversion EQ; subst. eapply N; eauto. }
        apply G. }
      destruct DEC as [(a & x & b & EQ & Y)|N]; [right; eapply KN; eauto|].
      rewrite A3 in H by auto. apply (hm_only _ _ _ MI) in H as [H|(a & Ka & H)]; auto. right. exists a. split; auto. apply hknown_snoc; auto.
Qed.

Lemma hstep_blank : forall ers l cs s w c r, hdinv ers l cs s -> hline_ok (HBlank w c) -> line_start r ->
  expression_p s (hline_text (HBlank w c) ++ r) =
    Ok (s, Done r {| e_ws := {| ws1 := w; ws2 := [] |}; e_keyval := None; e_table := None; e_comment := c |}) /\
  hdinv ers (l ++ [HBlank w c]) cs s.
Proof.
  intros ers l cs s w c r [KC TY ER AE TA MI] OK R. split; [apply (istep_blank s w c OK r R)|].
  assert (HDS : heads (l ++ [HBlank w c]) = heads l) by (rewrite heads_snoc; apply app_nil_r).
  assert (ENS : entries (l ++ [HBlank w c]) = entries l) by (rewrite entries_snoc; apply app_nil_r).
  constructor; auto.
  - rewrite cur_snoc. auto.
  - destruct MI as [M1 M2 M3]. constructor.
    + intros q RQ. unfold table_keys, opened. rewrite named_snoc, HDS. cbn [new_names]. rewrite app_nil_r. apply M1.
      destruct RQ as [RQ|[x RQ]]; [left; auto|right; exists x; rewrite HDS in RQ; auto].
    + rewrite ENS. auto.
    + intros x hv H. apply M3 in H as [H|(a & K & H)]; auto. right. exists a. split; auto. apply hknown_snoc; auto.
Qed.

(** ** Whole documents *)
(** what is read from a line *)
Definition hmirrors (d : hline) (e : expression) : Prop :=
  ex_src e = hline_text d /\
  match d with
  | HPair w0 k w1 w2 v t w3 c => exists cl, e = {| e_ws := {| ws1 := w0; ws2 := w3 |};
      e_keyval := Some (KeyVal k {| ws1 := w1; ws2 := w2 |} cl); e_table := None; e_comment := c |}
  | _ => e.(e_keyval) = None
  end.
Definition hline_read (x : str * hline) (e : nl_expression) : Prop :=
  e.(ne_nl) = fst x /\ hmirrors (snd x) e.(ne_expr).
Lemma hstep_any : forall ers l cs s d r, hdinv ers l cs s -> Forall hline_ok (l ++ [d]) -> hdistinct (l ++ [d]) -> parents_empty (l ++ [d]) ->
  line_start r -> exists s' e, expression_p s (hline_text d ++ r) = Ok (s', Done r e) /\ hdinv ers (l ++ [d]) (cs ++ ecell e) s' /\ hmirrors d e.
Proof.
  intros ers l cs s d r DI OK DS PH R.
  enough (X : exists s' e, expression_p s (hline_text d ++ r) = Ok (s', Done r e) /\
    hdinv ers (l ++ [d]) (cs ++ ecell e) s' /\ match d with
  | HPair w0 k w1 w2 v t w3 c => exists cl, e = {| e_ws := {| ws1 := w0; ws2 := w3 |};
      e_keyval := Some (KeyVal k {| ws1 := w1; ws2 := w2 |} cl); e_table := None; e_comment := c |}
  | _ => e.(e_keyval) = None
  end).
  { destruct X as (s' & e & E & I & M). exists s', e. split; auto. split; auto. split; auto.
    apply reads_expression in E. apply app_inv_tail in E. auto. }
  destruct d as [w c|w0 k w1 w2 v t w3 c|w0 w1 n m w2 w3 c].
  - assert (D : hline_ok (HBlank w c)) by (apply Forall_app in OK as [_ OK]; inversion OK; auto).
    destruct (hstep_blank ers l cs s w c r DI D R) as [E I]. exists s. eexists. split; [exact E|]. cbn [ecell e_keyval]. rewrite app_nil_r. auto.
  - destruct (hstep_line ers l cs s w0 k w1 w2 v t w3 c r DI OK DS R) as (s' & cl & E & I). exists s'. eexists. split; [exact E|]. cbn [ecell e_keyval kv_val]. eauto.
  - assert (D : hline_ok (HHead w0 w1 n m w2 w3 c)) by (apply Forall_app in OK as [_ OK]; inversion OK; auto).
    destruct (hstep_head ers l cs s w0 w1 n m w2 w3 c r (hdinv_pre _ _ _ _ DI) (hok_bare _ OK) D DS PH R) as (s' & tt & E & I). exists s'. eexists. split; [exact E|].
    cbn [ecell e_keyval]. rewrite app_nil_r. auto.
Qed.
Lemma hdinv_lines : forall ers l cs s n, hdinv ers l cs s -> hdinv ers l cs (add_lines n s).
Proof.
  intros ers l cs s n [A B C D E F]. constructor; auto.
Qed.
Lemma hdoc_start : forall l, Forall (fun x : str * hline => line_end (fst x) /\ hline_ok (snd x)) l -> line_start (hdoc_text l).
Proof.
  intros [|[nl it] l] H; [left; auto|]. inversion H; subst. destruct H2 as [H2 _].
  right. exists nl. eexists. split; auto. unfold hdoc_text. cbn [map concat fst snd]. rewrite <- app_assoc. reflexivity.
Qed.
Lemma hdoc_loop : forall ers ls l cs s n, hdinv ers l cs s -> Forall hline_ok l ->
  Forall (fun x : str * hline => line_end (fst x) /\ hline_ok (snd x)) ls ->
  hdistinct (l ++ map snd ls) -> parents_empty (l ++ map snd ls) -> (length (hdoc_text ls) < n)%nat ->
  exists s' es, many_loop n nl_expression_p s (hdoc_text ls) = Ok (s', Done [] es) /\
    hdinv ers (l ++ map snd ls) (cs ++ cells_in es) s' /\ Forall2 hline_read ls es.
Proof.
  intros ers. induction ls as [|[nl d] ls IH]; intros l cs s n DI OK LO DS PH L.
  - destruct n; [cbn in L; lia|]. exists s, []. cbn [map cells_in flat_map]. rewrite !app_nil_r. split; [reflexivity|]. split; [exact DI|constructor].
  - inversion LO as [|? ? [NL OD] LO']; subst. cbn [fst snd map] in *.
    assert (SP : l ++ d :: map snd ls = (l ++ [d]) ++ map snd ls) by (rewrite <- app_assoc; reflexivity). rewrite SP in *.
    assert (OK1 : Forall hline_ok (l ++ [d])) by (apply Forall_app; split; auto).
    destruct (hstep_any ers l cs (add_lines 1 s) d (hdoc_text ls)) as (s1 & e & E & DI1 & MR).
    { apply hdinv_lines; auto. } { auto. } { eapply hdistinct_prefix; eauto. } { eapply parents_prefix; eauto. } { apply hdoc_start; auto. }
    assert (TX : hdoc_text ((nl, d) :: ls) = nl ++ hline_text d ++ hdoc_text ls)
      by (unfold hdoc_text; cbn [map concat fst snd]; rewrite <- app_assoc; auto).
    rewrite TX in *. rewrite !app_length in L. pose proof (line_end_length nl NL).
    destruct n as [|n]; [lia|].
    destruct (IH (l ++ [d]) (cs ++ ecell e) s1 n DI1 OK1 LO' DS PH ltac:(lia)) as (s2 & es & E2 & DI2 & MR2).
    exists s2, ({| ne_nl := nl; ne_expr := e |} :: es). split; [|split].
    + cbn [many_loop]. destruct (nl ++ hline_text d ++ hdoc_text ls) as [|c x] eqn:F.
      { apply (f_equal (@length N)) in F. rewrite app_length in F. simpl in F. lia. }
      rewrite <- F. unfold nl_expression_p at 1. erewrite bind_ok by (apply newline_ok; auto).
      erewrite bind_ok by exact E. cbn [rbind ret].
      assert (Nat.eqb (length (hdoc_text ls)) (length (nl ++ hline_text d ++ hdoc_text ls)) = false) as ->.
      { apply Nat.eqb_neq. rewrite !app_length. lia. }
      rewrite E2. reflexivity.
    + cbn [cells_in flat_map ne_expr]. rewrite app_assoc. exact DI2.
    + constructor; auto. split; auto.
Qed.
Lemma hdinv_new : forall ovf, hdinv [] [] [] (new_parser ovf).
Proof.
  intros ovf. constructor; try reflexivity.
  - cbn. auto.
  - constructor.
    + intros q [->|[x []]]. exists None. split; [reflexivity|]. right. split; auto.
    + constructor.
    + intros x hv H. left. destruct (list_eq_dec N.eq_dec x root_key) as [|N]; auto. exfalso.
      cbn [new_parser p_map] in H. rewrite hget_hput_other in H; auto. discriminate.
Qed.

Definition hbody (ls : list (str * hline)) : list hline := map snd ls.
Lemma hdoc_parse : forall ovf ls, hdoc_ok ls -> hdistinct (hbody ls) -> parents_empty (hbody ls) ->
  exists s, parse (new_parser ovf) (hdoc_text ls) = Ok (s, Full) /\ hmap (hbody ls) (cells_in s.(p_root)) s.(p_map) /\
    Forall2 hline_read ls s.(p_root).
Proof.
  intros ovf [|[nl d] ls] OK DS PH; [destruct OK|]. destruct OK as (-> & OD & LO).
  change (hdistinct ([d] ++ hbody ls)) in DS. change (parents_empty ([d] ++ hbody ls)) in PH.
  destruct (hstep_any [] [] [] (new_parser ovf) d (hdoc_text ls)) as (s1 & e & E & DI1 & MR).
  { apply hdinv_new. } { apply Forall_cons; auto. } { eapply hdistinct_prefix; eauto. } { eapply parents_prefix; eauto. } { apply hdoc_start; auto. }
  destruct (hdoc_loop [] ls [d] (ecell e) s1 (S (length (hdoc_text ls))) DI1) as (s2 & es & E2 & DI2 & MR2); auto.
  assert (T : toml_p (new_parser ovf) (hdoc_text ((([] : str), d) :: ls)) = Ok (s2, Done [] ({| ne_nl := []; ne_expr := e |} :: es))).
  { unfold toml_p. change (hdoc_text ((([] : str), d) :: ls)) with (([] ++ hline_text d) ++ hdoc_text ls). cbn [app].
    erewrite bind_ok by exact E. erewrite bind_ok; [reflexivity|]. exact E2. }
  eexists. split; [|split].
  - unfold parse. rewrite T. cbn [rbind]. cbn [p_errors set_leftover set_root]. rewrite (hn_errors _ _ _ _ DI2). reflexivity.
  - cbn [p_root p_map set_leftover set_root]. apply (hn_map _ _ _ _ DI2).
  - cbn [p_root set_leftover set_root]. constructor; auto. split; auto.
Qed.

Lemma hdoc_lines : forall ls, hdoc_ok ls -> Forall hline_ok (hbody ls).
Proof.
  intros [|[nl d] r] OK; [destruct OK|]. destruct OK as (_ & A & B). cbn [hbody map snd]. constructor; auto.
  clear - B. induction B as [|[a b] r [X Y] B IH]; constructor; auto.
Qed.

(** ** Lookups *)
Lemma entry_unique : forall l p k v v', hdistinct l -> In (p, k, v) (entries l) -> In (p, k, v') (entries l) -> v = v'.
Proof.
  intros l p k v v' [D _ _] A B. revert D A B. generalize (entries l). induction l0 as [|[[t0 k0] v0] ps IH]; intros D A B; [destruct A|].
  cbn [map fst] in D. inversion D; subst. destruct A as [A|A], B as [B|B].
  - congruence.
  - exfalso. inversion A; subst. apply H1. apply (in_map fst) in B. exact B.
  - exfalso. inversion B; subst. apply H1. apply (in_map fst) in A. exact A.
  - auto.
Qed.

Lemma hlook_value : forall l cs s p k v r, hbare l -> hdistinct l -> hmap l cs s.(p_map) -> In (p, k, v) (entries l) -> good_path r ->
  get_value s (dotted_name (p ++ [k]) ++ path_text r) = Ok (at_path v r) /\
  get_children s (dotted_name (p ++ [k]) ++ path_text r) = option_map kids_of (at_path v r).
Proof.
  intros l cs s p k v r B DS MI I G.
  assert (GA : good_addr (ext (aq (p ++ [k])) r)) by (apply good_ext; auto; apply aq_good; [apply snoc_ne|eapply bare_entry; eauto]).
  assert (BV : match at_path v r with
    | Some w => exists y, hget (dotted_name (p ++ [k]) ++ path_text r) s.(p_map) = held y /\ to_val y.(c_val) = Ok w
    | None => hget (dotted_name (p ++ [k]) ++ path_text r) s.(p_map) = None
    end).
  { destruct (forall2_in _ _ _ _ _ _ (hm_cells _ _ _ MI) I) as (c & _ & TV & H). cbn [fst snd] in *. pose proof (tat_at r c v TV) as X.
    destruct (at_path v r) as [w|] eqn:AP.
    - destruct X as (y & Y & Z). exists y. split; auto. apply H; auto.
    - destruct (hget (dotted_name (p ++ [k]) ++ path_text r) (p_map s)) as [hv|] eqn:HG; auto. exfalso.
      rewrite <- aq_text, <- atext_ext in HG. apply (hm_only _ _ _ MI) in HG as [HG|(a & K & HG)].
      + apply (atext_root _ GA); auto.
      + apply atext_inj in HG; auto; [|eapply hknown_good; eauto]. subst a. remember (ext (aq (p ++ [k])) r) as a eqn:E.
        destruct K as [q N T|p' k' v' r' w I' G' W].
        * eapply apart_table; eauto.
        * destruct (apart _ _ _ _ _ _ _ _ _ DS I' I E) as [-> ->]. rewrite (entry_unique _ _ _ _ _ DS I' I) in W.
          apply (f_equal steps) in E. rewrite !aq_steps in E by apply snoc_ne. apply app_inv_head in E. subst r'. congruence. }
  assert (NE : dotted_name (p ++ [k]) ++ path_text r <> []) by (rewrite <- aq_text, <- atext_ext; apply atext_ne; auto).
  unfold get_value, get_children. destruct (dotted_name (p ++ [k]) ++ path_text r) as [|a x] eqn:A; [congruence|].
  destruct (at_path v r) as [w|].
  - destruct BV as (y & -> & TV). unfold held. cbn [hv_value hv_subkeys option_map]. rewrite TV. cbn [rbind].
    rewrite (tkids_of _ _ TV). auto.
  - rewrite BV. auto.
Qed.

Lemma hlook_table : forall l cs s q, hbare l -> hmap l cs s.(p_map) -> q <> [] -> table_of l q ->
  get_children s (dotted_name q) = Some (Keys (table_keys q l)) /\
  (In q (heads l) -> get_value s (dotted_name q) = Panic) /\ (~ In q (heads l) -> get_value s (dotted_name q) = Ok None).
Proof.
  intros l cs s q B MI N T. destruct (hm_tab _ _ _ MI q (or_intror T)) as (pv & X & Y). unfold dent in X. rewrite dpar_dotted in X by auto.
  assert (NE : dotted_name q <> []) by (apply dotted_ne; auto; eapply bare_table_of; eauto).
  unfold get_children, get_value. destruct (dotted_name q) as [|a x]; [congruence|]. rewrite X. cbn [hv_value hv_subkeys].
  split; auto. destruct Y as [[Y [id ->]]|[Y ->]]; split; intros Z; try contradiction; reflexivity.
Qed.

Lemma hlook_root : forall l cs s, hmap l cs s.(p_map) -> get_children s [] = Some (Keys (table_keys [] l)).
Proof.
  intros l cs s MI. destruct (hm_tab _ _ _ MI [] (or_introl eq_refl)) as (pv & X & _). unfold get_children. unfold dent in X. cbn [dpar] in X. rewrite X. auto.
Qed.

Lemma hlook_only : forall l cs s x ch, hmap l cs s.(p_map) -> get_children s x = Some ch ->
  x = [] \/ x = root_key \/ (exists q, q <> [] /\ table_of l q /\ x = dotted_name q) \/
  exists p k v r w, In (p, k, v) (entries l) /\ good_path r /\ at_path v r = Some w /\ x = dotted_name (p ++ [k]) ++ path_text r.
Proof.
  intros l cs s x ch MI H. unfold get_children in H. destruct x as [|a x]; auto. set (y := a :: x) in *.
  destruct (hget y (p_map s)) as [hv|] eqn:HG; [|discriminate].
  apply (hm_only _ _ _ MI) in HG as [HG|(b & K & HG)]; auto. right; right.
  destruct K as [q N T|p k v r w J G W].
  - left. exists q. rewrite aq_text in HG. auto.
  - right. exists p, k, v, r, w. rewrite atext_ext, aq_text in HG. auto.
Qed.
Lemma hlook_only_value : forall l cs s x w, hbare l -> hdistinct l -> hmap l cs s.(p_map) -> get_value s x = Ok (Some w) ->
  exists p k v r, In (p, k, v) (entries l) /\ good_path r /\ at_path v r = Some w /\ x = dotted_name (p ++ [k]) ++ path_text r.
Proof.
  intros l cs s x w B DS MI H. assert (N : x <> []).
  { intros ->. unfold get_value in H. destruct (hget [] (p_map s)) as [hv|] eqn:HG; [|discriminate].
    apply (hm_only _ _ _ MI) in HG as [HG|(a & K & HG)]; [discriminate|].
    apply (atext_ne a); auto. eapply hknown_good; eauto. }
  destruct (get_kids s x w N H) as [ch C]. apply (hlook_only _ _ _ _ _ MI) in C as [C|[C|[(q & NQ & T & ->)|(p & k & v & r & w' & I & G & AP & E)]]].
  - congruence.
  - subst x. destruct (hm_tab _ _ _ MI [] (or_introl eq_refl)) as (pv & X & Y). unfold dent in X. cbn [dpar] in X. unfold get_value in H. rewrite X in H.
    exfalso. destruct Y as [[_ [id ->]]|[_ ->]]; discriminate H.
  - destruct (hlook_table _ _ _ q B MI NQ T) as (_ & X & Y).
    destruct (in_dec (list_eq_dec (list_eq_dec N.eq_dec)) q (heads l)) as [Z|Z]; [rewrite (X Z) in H|rewrite (Y Z) in H]; discriminate H.
  - destruct (hlook_value _ _ _ p k v r B DS MI I G) as [V _]. rewrite AP in V. subst x. rewrite H in V. inversion V; subst. exists p, k, v, r. auto.
Qed.
