(** Parsing does not panic while an invariant of the parser holds that the insertion
    of values and the headers keep: the walk through the parsers, with the key chain
    relative to the input. *)
From Coq Require Import Lia ZifyBool ZifyNat ZifyN.
From Verif Require Import Str Regex Types Ast State Nom Keys Grammar Api Facts Spec RegexFacts NomFacts DateFacts RoundTrip Effects
  ParseFacts WalkFacts StringFacts LineFacts HeadSpec SafeFacts CountFacts CalmSpec.
(** ** Names at the end of a key *)
Definition dot_end (p : str) : Prop := p = [] \/ exists q, p = q ++ [46].
Lemma dot_end_app : forall a p, dot_end p -> dot_end (a ++ lit "." ++ p).
Proof.
  intros a p [->|(q & ->)]; right.
  - exists a. rewrite app_nil_r. reflexivity.
  - exists (a ++ lit "." ++ q). rewrite <- !app_assoc. reflexivity.
Qed.
Lemma dot_end_dot : forall a, dot_end (a ++ lit ".").
Proof. intros a. right. exists a. reflexivity. Qed.

Definition name_char (c : N) : Prop := bare_char c \/ c = 34.
Lemma name_last : forall n, name_text n -> exists a c, n = a ++ [c] /\ name_char c.
Proof.
  intros n [[NE F]|(x & _ & ->)].
  - destruct (exists_last NE) as (a & c & ->). exists a, c. split; auto. apply Forall_app in F as [_ F]. inversion F; subst. left. auto.
  - exists (34 :: x), 34. split; [reflexivity|right; auto].
Qed.
Lemma name_not_nil : forall n, name_text n -> n <> [].
Proof. intros n H ->. destruct (name_last _ H) as (a & c & E & _). destruct a; discriminate. Qed.
Lemma name_end : forall p n q c, name_text n -> p ++ n = q ++ [c] -> name_char c.
Proof.
  intros p n q c H E. destruct (name_last _ H) as (a & x & -> & X). rewrite app_assoc in E. apply app_inj_tail in E as [_ <-]. exact X.
Qed.
Lemma name_not_root : forall p n, name_text n -> p ++ n <> root_key.
Proof.
  intros p n H E. change root_key with (lit "$Root" ++ [36]) in E. apply name_end in E; auto.
  destruct E as [E|E]; [unfold bare_char in E; lia|discriminate].
Qed.
Lemma basic_quote : forall x, basic_body x -> forall a b, x = a ++ [46; 34] ++ b -> False.
Proof.
  induction 1; intros a b E.
  - destruct a; discriminate.
  - destruct a as [|y a]; cbn in E; inversion E; subst; [|eapply IHbasic_body; reflexivity].
    inversion H2; subst; [congruence|..]; auto.
  - destruct a as [|y [|z a]]; cbn in E; inversion E; subst.
    + cbn in H. repeat destruct H as [H|H]; try discriminate; auto.
    + eapply IHbasic_body; reflexivity.
  - destruct a as [|y [|z a]]; cbn in E; inversion E; subst.
    assert (HX : forall (h : str) t, h ++ t = a ++ [46; 34] ++ b -> (forall c, In c h -> c <> 46 /\ c <> 34) ->
      exists a', t = a' ++ [46; 34] ++ b).
    { clear. intros h. revert a. induction h as [|c h IH]; intros a t E F; [exists a; exact E|].
      destruct a as [|y a]; cbn in E; inversion E; subst; [destruct (F 46 (or_introl eq_refl)); congruence|].
      eapply IH; eauto. intros. apply F. right. auto. }
    destruct (HX h t) as (a' & ->); [auto| |eapply IHbasic_body; reflexivity].
    intros c I. destruct H as [_ H]. rewrite Forall_forall in H. apply H in I. lia.
  - destruct a as [|y [|z a]]; cbn in E; inversion E; subst.
    assert (HX : forall (h : str) t, h ++ t = a ++ [46; 34] ++ b -> (forall c, In c h -> c <> 46 /\ c <> 34) ->
      exists a', t = a' ++ [46; 34] ++ b).
    { clear. intros h. revert a. induction h as [|c h IH]; intros a t E F; [exists a; exact E|].
      destruct a as [|y a]; cbn in E; inversion E; subst; [destruct (F 46 (or_introl eq_refl)); congruence|].
      eapply IH; eauto. intros. apply F. right. auto. }
    destruct (HX h t) as (a' & ->); [auto| |eapply IHbasic_body; reflexivity].
    intros c I. destruct H as [_ H]. rewrite Forall_forall in H. apply H in I. lia.
Qed.
Ltac bare_bad := match goal with H : bare_char _ |- _ => unfold bare_char in H; lia end.
Lemma longer_name : forall p q l n, p = q ++ l -> l <> [] -> dot_end p -> name_text n -> name_text (l ++ n) -> False.
Proof.
  intros p q l n E NE [->|(r & ->)] N1 N2; [symmetry in E; apply app_eq_nil in E as [_ E]; auto|].
  destruct (exists_last NE) as (l' & c & ->). rewrite app_assoc in E. apply app_inj_tail in E as [_ <-].
  destruct N2 as [[_ F]|(x & B & E)].
  - rewrite <- app_assoc in F. apply Forall_app in F as [_ F]. cbn in F. inversion F; subst. bare_bad.
  - rewrite <- app_assoc in E. destruct l' as [|y l']; cbn in E; inversion E; subst.
    destruct N1 as [[NE1 F]|(z & _ & ->)].
    + destruct (exists_last NE1) as (n' & c & ->). change (46 :: n' ++ [c]) with ((46 :: n') ++ [c]) in H1. rewrite app_assoc in H1.
      apply app_inj_tail in H1 as [_ ->]. apply Forall_app in F as [_ F]. inversion F; subst. bare_bad.
    + change (46 :: [34] ++ z ++ [34]) with ([46; 34] ++ z ++ [34]) in H1. rewrite !app_assoc in H1. apply app_inj_tail in H1 as [<- _].
      rewrite <- app_assoc in B. eapply basic_quote; [exact B|reflexivity].
Qed.
(** the last name of a key is determined by the key *)
Lemma last_name_eq : forall p q n n', p ++ n = q ++ n' -> dot_end p -> dot_end q -> name_text n -> name_text n' -> n = n'.
Proof.
  intros p q n n' E DP DQ N N'. apply app_eq_app in E as (l & [[E1 E2]|[E1 E2]]).
  - destruct l as [|c l]; [auto|]. exfalso. rewrite E2 in N'. eapply (longer_name p q (c :: l) n); eauto. discriminate.
  - destruct l as [|c l]; [auto|]. exfalso. rewrite E2 in N. eapply (longer_name q p (c :: l) n'); eauto. discriminate.
Qed.

(** ** Heads of lines *)
Definition starts (i : str) (c : N) : Prop := exists y, i = c :: y.
Definition nested (i : str) : Prop := starts i 91 \/ starts i 123.
Definition key_start (i : str) : Prop := exists c y, i = c :: y /\ (c = 34 \/ is_keychar c = true).

Definition blocked (r : str) : Prop := starts r 91 \/ key_start r.
Definition blocked_at (b : str) : Prop := exists w y, b = w ++ y /\ blanks w /\ blocked y.
Lemma key_head : forall c, c = 34 \/ is_keychar c = true -> c <> 32 /\ c <> 9 /\ c <> 35 /\ c <> 10 /\ c <> 13 /\ c <> 91.
Proof.
  intros c [->|X]; [lia|]. assert (Z : forall d, is_keychar d = false -> c <> d) by (intros d Y ->; congruence).
  repeat split; apply Z; vm_compute; reflexivity.
Qed.
Lemma blocked_head : forall r, blocked r -> exists c y, r = c :: y /\ c <> 32 /\ c <> 9 /\ c <> 35 /\ c <> 10 /\ c <> 13.
Proof.
  intros r [(y & ->)|(c & y & -> & C)].
  - exists 91, y. repeat split; discriminate.
  - exists c, y. split; auto. apply key_head in C. tauto.
Qed.
Lemma blocked_ws : forall w y s, blanks w -> blocked y -> ws s (w ++ y) = Ok (s, Done y w).
Proof. intros w y s B X. apply ws_ok; auto. apply blocked_head in X as (c & z & -> & A & A' & _). cbn. auto. Qed.

(** ** The counts of the map *)
Section Count.
Variables (D : str) (AT : str -> Prop).

Definition bracket_end (k : str) : Prop := exists p, k = p ++ [93].
(** the keys of arrays, and those of arrays of tables *)
Definition of_array (k : str) : Prop := bracket_end k \/ exists p n, k = p ++ n /\ dot_end p /\ name_text n /\ array_key D n.
Definition bad (k : str) : Prop := of_array k \/ AT k.
Definition given (k : str) : Prop := bracket_end k \/ exists p n, k = p ++ n /\ dot_end p /\ name_text n /\ given_key D n.
Definition valued (v : option cell) : Prop := match v with Some c => c.(c_val) <> TTable | None => False end.
Definition count_ok (k : str) (v : option cell) (c : N) : Prop := (valued v \/ bad k) /\ (c = 0 -> given k).
(** an entry that counts its children holds a value or is named like an array *)
Definition counted (m : vmap) : Prop := forall k v c, hget k m = Some (HashValue v (Count c)) -> count_ok k v c.

Lemma not_bracket : forall p n, name_text n -> ~ bracket_end (p ++ n).
Proof. clear. intros p n N (q & E). apply name_end in E; auto. destruct E as [E|E]; [bare_bad|discriminate]. Qed.
Lemma not_array : forall p n, dot_end p -> name_text n -> ~ array_key D n -> ~ of_array (p ++ n).
Proof.
  intros p n DP N NB [B|(q & n' & E & DQ & N' & B)]; [eapply not_bracket; eauto|]. apply NB.
  rewrite (last_name_eq _ _ _ _ E DP DQ N N'). exact B.
Qed.
Lemma not_given : forall p n, dot_end p -> name_text n -> ~ given_key D n -> ~ given (p ++ n).
Proof.
  intros p n DP N NB [B|(q & n' & E & DQ & N' & B)]; [eapply not_bracket; eauto|]. apply NB.
  rewrite (last_name_eq _ _ _ _ E DP DQ N N'). exact B.
Qed.

Lemma counted_put : forall m k v sub, counted m -> (forall c, sub = Count c -> count_ok k v c) -> counted (hput k (HashValue v sub) m).
Proof.
  intros m k v sub C H k' v' c E. destruct (str_eqb k' k) eqn:Q.
  - apply str_eqb_eq in Q. subst. rewrite hget_hput_same in E. inversion E; subst. apply H. auto.
  - rewrite hget_hput_other in E; [apply C; auto|]. intros ->. rewrite str_eqb_refl in Q. discriminate.
Qed.
Lemma counted_keys : forall m k v l, counted m -> counted (hput k (HashValue v (Keys l)) m).
Proof. intros. apply counted_put; auto. discriminate. Qed.
Lemma counted_more : forall m k hv c, counted m -> hget k m = Some hv -> hv.(hv_subkeys) = Count c ->
  counted (hput k (HashValue hv.(hv_value) (Count (c + 1))) m).
Proof.
  intros m k [v sub] c C E S. cbn in S |- *. subst. apply counted_put; auto. intros c' X. inversion X; subst. split; [|lia].
  apply (C _ _ _ E).
Qed.
(** no value appears *)
Definition calmer (m m' : vmap) : Prop := forall k, key_has_value m k = false -> key_has_value m' k = false.
Lemma calmer_refl : forall m, calmer m m.
Proof. intros m k H. exact H. Qed.
Lemma calmer_trans : forall a b c, calmer a b -> calmer b c -> calmer a c.
Proof. intros a b c H1 H2 k H. auto. Qed.
Lemma calmer_put : forall m k v sub, (key_has_value m k = false -> ~ valued v) -> calmer m (hput k (HashValue v sub) m).
Proof.
  intros m k v sub H k' E. unfold key_has_value. destruct (str_eqb k' k) eqn:Q.
  - apply str_eqb_eq in Q. subst. specialize (H E). rewrite hget_hput_same. cbn. destruct v as [c|]; auto. cbn in H.
    destruct (c_val c); auto; exfalso; apply H; discriminate.
  - rewrite hget_hput_other; [exact E|]. intros ->. rewrite str_eqb_refl in Q. discriminate.
Qed.
Lemma calmer_same : forall m k hv sub, hget k m = Some hv -> calmer m (hput k (HashValue hv.(hv_value) sub) m).
Proof.
  intros m k [v s] sub E. apply calmer_put. unfold key_has_value. rewrite E. cbn. destruct v as [c|]; [|intros _ []].
  cbn. destruct (c_val c); congruence.
Qed.
Lemma no_value : forall m k v sub, key_has_value m k = false -> hget k m = Some (HashValue v sub) -> ~ valued v.
Proof. intros m k v sub H E. unfold key_has_value in H. rewrite E in H. cbn in H. destruct v as [c|]; cbn; auto. destruct (c_val c); congruence. Qed.
(** so a key without a value, and not named like an array, does not count *)
Lemma no_count : forall m k hv c, counted m -> key_has_value m k = false -> ~ bad k -> hget k m = Some hv -> hv.(hv_subkeys) <> Count c.
Proof.
  intros m k [v sub] c C V NB E S. cbn in S. subst. destruct (C _ _ _ E) as [[X|X] _]; [|exact (NB X)]. eapply no_value; eauto.
Qed.

(** ** The parent of a value *)
(** the key chain above an array element *)
Definition up_ok (kc : list key) : Prop :=
  exists a x, kc = a ++ [x] /\ match x with KIndex _ => True | KStr n => name_text n /\ array_key D n end.
(** the last element of the key chain of an inserted value *)
Definition put_ok (kc : list key) (x : key) : Prop :=
  match x with KStr n => name_text n /\ given_key D n | KIndex _ => up_ok kc end.
Lemma step_bad : forall acc x, match x with KIndex _ => True | KStr n => name_text n /\ array_key D n end -> of_array (chain_step acc x).
Proof.
  intros acc [n|i] H; cbn [chain_step].
  - right. destruct acc as [|c acc]; [exists [], n; split; [reflexivity|split; [left; reflexivity|auto]]|].
    exists ((c :: acc) ++ lit "."), n. split; auto. split; auto. apply dot_end_dot.
  - left. exists (acc ++ lit "[" ++ dec i). unfold idx_str. rewrite <- !app_assoc. reflexivity.
Qed.
Lemma step_given : forall acc x, match x with KIndex _ => True | KStr n => name_text n /\ given_key D n end -> given (chain_step acc x).
Proof.
  intros acc [n|i] H; cbn [chain_step].
  - right. destruct H. destruct acc as [|c acc]; [exists [], n; split; [reflexivity|split; [left; reflexivity|auto]]|].
    exists ((c :: acc) ++ lit "."), n. split; auto. split; auto. apply dot_end_dot.
  - left. exists (acc ++ lit "[" ++ dec i). unfold idx_str. rewrite <- !app_assoc. reflexivity.
Qed.
Lemma array_under : forall a k, of_array k -> of_array (a ++ lit "." ++ k).
Proof.
  intros a k [(p & ->)|(p & n & -> & DP & B)].
  - left. exists (a ++ lit "." ++ p). rewrite <- !app_assoc. reflexivity.
  - right. exists (a ++ lit "." ++ p), n. split; [rewrite <- !app_assoc; reflexivity|]. split; auto. apply dot_end_app; auto.
Qed.
Lemma given_under : forall a k, given k -> given (a ++ lit "." ++ k).
Proof.
  intros a k [(p & ->)|(p & n & -> & DP & B)].
  - left. exists (a ++ lit "." ++ p). rewrite <- !app_assoc. reflexivity.
  - right. exists (a ++ lit "." ++ p), n. split; [rewrite <- !app_assoc; reflexivity|]. split; auto. apply dot_end_app; auto.
Qed.
Lemma array_ne : forall k, of_array k -> k <> [].
Proof.
  intros k [(p & ->)|(p & n & -> & _ & N & _)] E; [destruct p; discriminate|].
  apply app_eq_nil in E as [_ E]. eapply name_not_nil; eauto.
Qed.

Lemma chain_keys : forall kc x, put_ok kc x -> exists fk pk, get_keychain_key (kc ++ [x]) = (fk, pk) /\ given fk /\
  match x with KIndex _ => of_array pk | _ => True end.
Proof. clear AT.
  intros kc x H. unfold get_keychain_key. do 2 eexists. split; [reflexivity|]. split.
  - rewrite fold_left_app. cbn. apply step_given. destruct x; auto.
  - destruct x; auto. destruct H as (a & y & -> & Y). rewrite removelast_last.
    destruct ((a ++ [y]) ++ [KIndex i]) as [|z [|z2 r]] eqn:E.
    + destruct (a ++ [y]); discriminate.
    + exfalso. assert (L : length ((a ++ [y]) ++ [KIndex i]) = 1%nat) by (rewrite E; auto). rewrite !app_length in L. cbn in L. lia.
    + rewrite fold_left_app. cbn. apply step_bad. auto.
Qed.

Lemma update_calm : forall m pk kc x, rooted m -> counted m -> match x with KIndex _ => of_array pk | _ => True end ->
  exists m', update_parent m pk (kc ++ [x]) = Ok m' /\ rooted m' /\ counted m'.
Proof.
  intros m pk kc x R C H. unfold update_parent. rewrite vlast_last. destruct (hget pk m) as [hv|] eqn:E.
  - destruct (hv_subkeys hv) eqn:S.
    + eexists. split; [reflexivity|]. split; [eapply rooted_same; eauto; rewrite S; auto|]. eapply counted_more; eauto.
    + destruct x; eexists; (split; [reflexivity|]); [|auto]. split; [eapply rooted_same; eauto; rewrite S; auto|]. apply counted_keys; auto.
  - destruct x; eexists; (split; [reflexivity|]); (split; [apply rooted_new; auto|]).
    + apply counted_keys; auto.
    + apply counted_put; auto. intros c X. inversion X; subst. split; [right; left; auto|lia].
Qed.
End Count.

(** ** The invariant *)
Definition tri (x : wskey) : str * str * str := (x.(wk_ws).(ws1), x.(wk_ws).(ws2), x.(wk_key)).
Definition tri_ok (x : str * str * str) : Prop := blanks (fst (fst x)) /\ blanks (snd (fst x)) /\ name_text (snd x).
Section Walk.
Variables (D : str) (K : pst -> Prop).
Record kept : Prop := {
  k_chain : forall kc s, K s -> K (set_keychain kc s);
  k_error : forall e s, K s -> K (push_error e s);
  k_types : forall a s, K s -> K (set_atypes a s);
  k_next : forall a s, K s -> K (set_next a s);
  k_line : forall a s, K s -> K (add_lines a s);
  k_errors : forall e s, K s -> e <> [] -> K (set_errors e s);
  k_err : forall s, K s -> s.(p_array_error) = true -> s.(p_errors) <> [];
  k_full : forall s kc, K s -> exists r, get_full_key s.(p_ovf) s.(p_map) s.(p_tables) s.(p_tindex) kc = Ok r;
  k_insert : forall s kc x c v, K s -> s.(p_keychain) = kc ++ [x] -> put_ok D kc x -> to_val c.(c_val) = Ok v ->
    exists s', insert_keyval_into_map s c = Ok s' /\ K s' /\ s'.(p_keychain) = s.(p_keychain) }.
Hypothesis KEPT : kept.

(** ** The actions on values *)
Definition H (kc : list key) (s : pst) : Prop := K s /\ s.(p_keychain) = kc.
Lemma keyval_calm : forall kc k sep c v s, H (kc ++ [KStr k]) s -> put_ok D kc (KStr k) -> to_val c.(c_val) = Ok v ->
  exists s', keyval_act k sep c s = Ok (s', KeyVal k sep c) /\ H kc s'.
Proof.
  intros kc k sep c v s [HK E] PO TV. unfold keyval_act.
  assert (Z : forall s1, K s1 -> p_keychain s1 = kc ++ [KStr k] -> H kc (pop_key s1)).
  { intros s1 K1 E1. split; [apply (k_chain KEPT); auto|]. cbn. rewrite E1. apply vpop_last. }
  destruct (p_array_error s) eqn:AE.
  - assert (NE : p_errors s <> []) by (apply (k_err KEPT); auto). destruct (exists_last NE) as (es & x & ER). rewrite ER, vlast_last.
    assert (W : forall e, e <> [] -> K (set_errors e s)) by (intros e NE'; apply (k_errors KEPT); auto).
    destruct x.
    3: rewrite TV. all: cbn [rbind]; eexists; (split; [reflexivity|]); apply Z; [apply W|exact E]; unfold vpush; intros X; apply app_eq_nil in X as [_ X]; discriminate.
  - destruct (k_insert KEPT _ _ _ _ _ HK E PO TV) as (s' & -> & K' & E'). cbn [rbind]. eexists. split; [reflexivity|]. apply Z; auto. congruence.
Qed.
Definition HA (kc : list key) (s : pst) : Prop := K s /\ exists j, s.(p_keychain) = kc ++ [KIndex j].
Lemma elem_calm : forall kc c v sep nls s, HA kc s -> up_ok D kc -> to_val c.(c_val) = Ok v ->
  exists s', array_value_act c sep nls s = Ok (s', ArrayValue c sep nls) /\ HA kc s'.
Proof.
  intros kc c v sep nls s [HK [j E]] UP TV. unfold array_value_act.
  assert (X : exists t, map_val_to_array_type c.(c_val) = Ok t) by (destruct (c_val c); cbn; eauto; discriminate).
  destruct X as [t ->]. cbn [rbind].
  assert (M : exists s1, check_mixed t s = Ok s1 /\ K s1 /\ p_keychain s1 = p_keychain s).
  { unfold check_mixed. destruct (vlast (p_atypes s)); eauto. destruct (negb _ && negb _); eauto.
    destruct (k_full KEPT s (p_keychain s) HK) as [[[x y] z] ->]. cbn [rbind].
    eexists. split; [reflexivity|]. match goal with |- context [if ?b then _ else _] => destruct b end; split; auto. apply (k_error KEPT); auto. }
  destruct M as (s1 & -> & K1 & E1). cbn [rbind]. rewrite E in E1.
  pose proof (k_types KEPT (vpush (vpop (p_atypes s1)) t) s1 K1) as K2.
  destruct (k_insert KEPT (set_atypes (vpush (vpop (p_atypes s1)) t) s1) kc (KIndex j) c v K2 E1 UP TV) as (s2 & -> & K3 & E3). cbn [rbind]. rewrite E3.
  cbn [set_atypes p_keychain] in E3 |- *. rewrite E1. rewrite app_length. cbn [length]. rewrite Nat.add_sub, nth_error_app2, Nat.sub_diag by lia. cbn [nth_error].
  eexists. split; [reflexivity|]. split; [apply (k_chain KEPT); auto|]. exists (j + 1). cbn [set_keychain p_keychain].
  rewrite firstn_app, firstn_all, Nat.sub_diag. cbn [firstn]. rewrite app_nil_r.
  replace (skipn (length kc + 1) (kc ++ [KIndex j])) with (@nil key); [reflexivity|]. symmetry. apply skipn_all2. rewrite app_length. cbn. lia.
Qed.

(** ** The parsers of values *)
Definition wok {A} (x : res (pst * ires A)) (E : pst -> Prop) (Q : A -> pst -> str -> Prop) : Prop :=
  match x with
  | Ok (s', Done r a) => Q a s' r
  | Ok (s', _) => E s'
  | Panic => False
  | Fuel => True
  end.
Lemma w_conseq : forall A (x : res (pst * ires A)) (E E' : pst -> Prop) (Q Q' : A -> pst -> str -> Prop), wok x E Q ->
  (forall s, E s -> E' s) -> (forall a s r, Q a s r -> Q' a s r) -> wok x E' Q'.
Proof. intros A x E E' Q Q' W HE HQ. unfold wok in *. destruct x as [[s []]| |]; auto. Qed.
Lemma w_bind : forall A B (p : P A) (f : A -> P B) s i E Q1 Q, wok (p s i) E Q1 ->
  (forall a s' r, p s i = Ok (s', Done r a) -> Q1 a s' r -> wok (f a s' r) E Q) -> wok (bind p f s i) E Q.
Proof.
  intros A B p f s i E Q1 Q W F. unfold bind. unfold wok in W. destruct (p s i) as [[s' []]| |]; cbn [rbind]; auto.
Qed.
Lemma w_pure : forall A (p : P A) s i (E : pst -> Prop) (Q : A -> pst -> str -> Prop), pure p -> E s ->
  (forall r a, p s i = Ok (s, Done r a) -> Q a s r) -> wok (p s i) E Q.
Proof. intros A p s i E Q PU HE HQ. destruct (PU s i) as [r X]. rewrite X. destruct r; cbn; auto. Qed.
Lemma w_complete : forall A (p : P A) s i E Q, wok (p s i) E Q -> wok (complete p s i) E Q.
Proof. intros A p s i E Q W. unfold complete, wok in *. destruct (p s i) as [[s' []]| |]; cbn [rbind]; auto. Qed.
Lemma w_alt : forall A (p q : P A) s i (E1 E : pst -> Prop) Q, wok (p s i) E1 Q -> (forall s', E1 s' -> E s') ->
  (forall s', E1 s' -> wok (q s' i) E Q) -> wok (alt p q s i) E Q.
Proof. intros A p q s i E1 E Q W HE F. unfold alt, wok in *. destruct (p s i) as [[s' []]| |]; cbn [rbind]; auto. apply F. auto. Qed.
Lemma w_cons : forall s i (E : pst -> Prop) (Q : list comment_or_newlines -> pst -> str -> Prop), E s ->
  (forall r l, comment_or_nls s i = Ok (s, Done r l) -> Q l s r) -> wok (comment_or_nls s i) E Q.
Proof.
  intros s i E Q HE HQ. destruct (comment_or_nls s i) as [[s' r]| |] eqn:X; cbn; auto.
  - pose proof (cons_state _ _ _ _ X). subst s'. destruct r; auto.
  - assert (G0 : exists m, p_map s = m) by eauto. clear -X.
    unfold comment_or_nls, many1 in X. assert (PU : pure comment_or_nl) by (unfold comment_or_nl, comment_nl, ws_newline, comment; pure_tac).
    destruct (PU s i) as [r E]. rewrite E in X. cbn [rbind] in X. destruct r; try discriminate.
    pose proof (safe_loop_pure _ _ PU (Datatypes.S (length rest)) s rest) as Y. destruct (many_loop _ _ s rest) as [[s2 r2]| |]; auto; discriminate.
Qed.

Definition sfx (i : str) : Prop := exists a, D = a ++ i.
Lemma sfx_reads : forall A (p : P A) f s i s' r a, reads p f -> p s i = Ok (s', Done r a) -> sfx i -> sfx r.
Proof. intros A p f s i s' r a RD E [x X]. apply RD in E. exists (x ++ f a). rewrite X, E. apply app_assoc. Qed.

Lemma not_closed : forall s i s' r l, comment_or_nls s i = Ok (s', Done r l) -> nested i -> starts r 93 -> False.
Proof.
  intros s i s' r l E N (y & ->). apply gap_head in E; [|unfold gap_chars; cbn; auto 10].
  destruct N as [(z & ->)|(z & ->)]; unfold gap_chars in E; cbn in E; repeat destruct E as [E|E]; try discriminate; auto.
Qed.
Lemma key_closed : forall s i s' r w, ws s i = Ok (s', Done r w) -> key_start i -> starts r 125 -> False.
Proof.
  intros s i s' r w E (c & z & -> & C) (y & ->). apply ws_blanks in E as (_ & E & B).
  destruct w as [|b w]; cbn in E; inversion E; subst.
  - destruct C as [C|C]; [discriminate|vm_compute in C; discriminate].
  - inversion B; subst. destruct H2 as [-> | ->]; destruct C as [C|C]; try discriminate; vm_compute in C; discriminate.
Qed.

(** on a nested value the other alternatives do nothing *)
Lemma rest_nested : forall s i, nested i -> alt (pcell date_time TDateTime) (alt (pcell float TFloat) (alt (pcell integer TInteger)
  (alt (pcell boolean TBoolean) (pcell string_p (fun v => v))))) s i = Ok (s, Error).
Proof.
  intros s i N.
  assert (A : forall A (p q : P A), p s i = Ok (s, Error) -> q s i = Ok (s, Error) -> alt p q s i = Ok (s, Error)).
  { intros A p q E1 E2. unfold alt. rewrite E1. exact E2. }
  assert (B : forall t, starts_with t i = false -> forall A (f : str -> A), pmap (complete (tag t)) f s i = Ok (s, Error)).
  { intros t E A0 f. unfold pmap, bind, complete, tag. cbn [rbind]. rewrite E. destruct (Nat.ltb _ _); reflexivity. }
  repeat apply A; destruct N as [(y & ->)|(y & ->)]; try (vm_compute; reflexivity);
    unfold pcell, bind at 1, complete at 1, boolean; (rewrite A; [reflexivity|apply B; reflexivity|apply B; reflexivity]).
Qed.

Lemma tag1_starts : forall c s i s' r a, tag [c] s i = Ok (s', Done r a) -> starts i c.
Proof. intros c s i s' r a E. apply tag_done in E as (_ & _ & ->). exists r. reflexivity. Qed.
Lemma key_push : forall s i s' r k, key_p s i = Ok (s', Done r k) -> s' = push_key (KStr k) s.
Proof.
  intros s i s' r k E. unfold key_p in E.
  apply alt_done in E as [E|(s1 & E0 & E)]; apply bind_done in E as (s2 & i2 & x & E & E2); apply act_done in E2 as [_ E2]; inversion E2; subst.
  - apply pure_state in E; [|unfold quoted_key; pure_tac]. subst. reflexivity.
  - apply pure_state in E; [|unfold unquoted_key; pure_tac]. subst. f_equal.
    unfold bind in E0. destruct (pure_complete _ (pure_re_find re_quoted_key) s i) as [r0 X]. unfold quoted_key in E0. rewrite X in E0. cbn [rbind] in E0.
    destruct r0; [|inversion E0; auto|inversion E0; auto]. unfold act in E0. discriminate.
Qed.
Lemma key_fail : forall s i s' r, key_p s i = Ok (s', r) -> (forall r' k, r <> Done r' k) -> s' = s.
Proof.
  intros s i s' r E ND. unfold key_p, alt, bind in E. destruct (pure_complete _ (pure_re_find re_quoted_key) s i) as [r0 X].
  unfold quoted_key in E. rewrite X in E. cbn [rbind] in E. destruct r0; [cbn in E; inversion E; subst; destruct (ND _ _ eq_refl)| |inversion E; auto].
  cbn [rbind] in E. destruct (pure_complete _ (pure_take_while1 is_keychar) s i) as [r1 Y]. unfold unquoted_key in E. rewrite Y in E. cbn [rbind] in E.
  destruct r1; [cbn in E; inversion E; subst; destruct (ND _ _ eq_refl)|inversion E; auto|inversion E; auto].
Qed.
Lemma key_safe : forall s i, exists s' r, key_p s i = Ok (s', r).
Proof.
  intros s i. unfold key_p, alt, bind. destruct (pure_complete _ (pure_re_find re_quoted_key) s i) as [r0 X].
  unfold quoted_key. rewrite X. cbn [rbind]. destruct r0; [do 2 eexists; reflexivity| |do 2 eexists; reflexivity].
  cbn [rbind]. destruct (pure_complete _ (pure_take_while1 is_keychar) s i) as [r1 Y]. unfold unquoted_key. rewrite Y. cbn [rbind].
  destruct r1; do 2 eexists; reflexivity.
Qed.
Lemma name_key_start : forall k r, name_text k -> key_start (k ++ r).
Proof.
  intros k r [[NE F]|(x & _ & ->)].
  - destruct k as [|c k]; [congruence|]. inversion F; subst. exists c, (k ++ r). split; [reflexivity|]. right. apply bare_keychar. auto.
  - exists 34, (x ++ [34] ++ r). split; [cbn; rewrite <- app_assoc; reflexivity|auto].
Qed.
Lemma sep_text : forall s i s' r sep, keyval_sep s i = Ok (s', Done r sep) -> exists w w', i = w ++ lit "=" ++ w' ++ r /\ blanks w /\ blanks w'.
Proof.
  intros s i s' r sep E. unfold keyval_sep in E. apply bind_done in E as (s1 & i1 & w & E1 & E). apply ws_blanks in E1 as (-> & -> & B).
  apply bind_done in E as (s2 & i2 & u & E2 & E). apply tag_done in E2 as (-> & _ & ->).
  apply bind_done in E as (s3 & i3 & w' & E3 & E). apply ws_blanks in E3 as (-> & -> & B'). inversion E; subst. exists w, w'. auto.
Qed.

Section CalmVal.
  Variable pval : P cell.
  Definition vcalm (p : P cell) : Prop := forall kc s i, H kc s -> sfx i -> (starts i 91 -> up_ok D kc) ->
    wok (p s i) (fun s' => K s' /\ (s'.(p_keychain) = kc \/ nested i)) (fun c s' r => H kc s' /\ vgood c.(c_val)).
  Hypothesis PV : vcalm pval.
  Hypothesis RV : reads pval cell_src.

  Lemma w_array_value : forall kc s i, HA kc s -> sfx i -> up_ok D kc ->
    wok (array_value_ pval s i) (fun s' => K s' /\ (HA kc s' \/ nested i)) (fun a s' r => HA kc s' /\ vgood a.(av_val).(c_val) /\ sfx r).
  Proof using PV RV KEPT.
    intros kc s i [HK [j E]] SF UP. unfold array_value_.
    assert (UP2 : up_ok D (kc ++ [KIndex j])) by (exists kc, (KIndex j); auto).
    eapply w_bind.
    { eapply w_conseq; [apply (PV (kc ++ [KIndex j])); [split; auto|auto|auto]| |intros a s' r X; exact X].
      intros s' [K' [E'|N]]; (split; [auto|]); [left; split; eauto|auto]. }
    intros c s1 r1 E1 [[K1 EQ1] V1]. pose proof (sfx_reads _ _ _ _ _ _ _ _ RV E1 SF) as SF1.
    assert (HA1 : HA kc s1) by (split; eauto).
    apply w_bind with (Q1 := fun _ s' r => s' = s1 /\ sfx r).
    { apply w_pure; [pure_tac; apply WalkFacts.pure_sep|auto|]. intros r a X. split; auto.
      eapply sfx_reads; [|exact X|auto]. apply reads_opt, reads_complete, reads_array_sep. }
    intros sep s2 r2 _ [-> SF2]. apply w_bind with (Q1 := fun _ s' r => s' = s1 /\ sfx r).
    { apply w_complete, w_cons; auto. intros r l X. split; auto. eapply sfx_reads; [|exact X|auto]. apply reads_comment_or_nls. }
    intros nls s3 r3 _ [-> SF3]. destruct V1 as [v V1]. destruct (elem_calm kc c v sep nls s1 HA1 UP V1) as (s' & X & HA').
    unfold act. rewrite X. cbn. split; auto. split; auto. exists v. auto.
  Qed.
  Lemma w_values : forall kc, up_ok D kc -> forall n s i, HA kc s -> sfx i ->
    wok (many_loop n (array_value_ pval) s i) K
      (fun l s' r => K s' /\ (HA kc s' \/ nested r) /\ Forall (fun a => vgood a.(av_val).(c_val)) l).
  Proof using PV RV KEPT.
    intros kc UP. induction n; intros s i HS SF; cbn [many_loop]; [exact I|]. destruct i as [|c i]; [cbn; split; [apply HS|split; [auto|constructor]]|].
    pose proof (w_array_value kc s (c :: i) HS SF UP) as W. unfold wok in W.
    destruct (array_value_ pval s (c :: i)) as [[s1 r1]| |]; cbn [rbind]; auto. destruct r1 as [i1 a| |].
    - destruct W as (H1 & V1 & SF1). destruct (Nat.eqb _ _); [cbn; split; [apply H1|split; [auto|constructor]]|].
      specialize (IHn s1 i1 H1 SF1). unfold wok in IHn. destruct (many_loop n _ s1 i1) as [[s2 r2]| |]; cbn [rbind]; auto.
      destruct r2; cbn; auto. destruct IHn as (K2 & C2 & F2). auto.
    - cbn. destruct W. auto.
    - cbn. tauto.
  Qed.
  Lemma w_array : forall kc s i, H kc s -> sfx i -> (starts i 91 -> up_ok D kc) ->
    wok (array_ pval s i) (fun s' => K s' /\ (s'.(p_keychain) = kc \/ starts i 91)) (fun t s' r => H kc s' /\ vgood t).
  Proof using PV RV KEPT.
    intros kc s i [HK E] SF UP. unfold array_. set (s0 := push_key (KIndex 0) (set_atypes (vpush (p_atypes s) ANone) s)).
    assert (H0 : HA kc s0) by (split; [apply (k_chain KEPT), (k_types KEPT); auto|exists 0; cbn; rewrite E; reflexivity]).
    assert (X : wok (array_internal_ pval s0 i) (fun s' => K s' /\ (HA kc s' \/ starts i 91)) (fun t s' r => HA kc s' /\ vgood t)).
    { unfold array_internal_. apply w_bind with (Q1 := fun _ s' r => s' = s0 /\ starts i 91 /\ sfx r).
      { apply w_pure; [pure_tac|split; auto; apply H0|]. intros r a X. split; auto. split; [eapply tag1_starts; exact X|].
        eapply sfx_reads; [apply reads_tag|exact X|auto]. }
      intros u s1 r1 _ (-> & ST & SF1). assert (UPK := UP ST). assert (EE : K s0 /\ (HA kc s0 \/ starts i 91)) by (split; [apply H0|auto]).
      apply w_bind with (Q1 := fun _ s' r => s' = s0 /\ sfx r).
      { apply w_cons; auto. intros r l X. split; auto. eapply sfx_reads; [apply reads_comment_or_nls|exact X|auto]. }
      intros cn1 s2 r2 _ (-> & SF2). eapply w_bind.
      { eapply w_conseq; [apply (w_values kc UPK (S (length r2)) s0 r2 H0 SF2)| |intros a s' r X; exact X]. auto. }
      intros vals s3 r3 _ (K3 & C3 & F3). apply w_bind with (Q1 := fun _ s' r => s' = s3 /\ (starts r 93 -> HA kc s3)).
      { apply w_cons; auto. intros r l X. split; auto. intros S93. destruct C3 as [C3|C3]; auto. exfalso. eapply not_closed; eauto. }
      intros cn2 s4 r4 _ (-> & C4). apply w_bind with (Q1 := fun _ s' r => s' = s3 /\ HA kc s3).
      { apply w_pure; [pure_tac|auto|]. intros r a X. split; auto. apply C4. eapply tag1_starts; exact X. }
      intros u2 s5 r5 _ (-> & C5). cbn. split; auto.
      assert (Y : exists l, rmap (fun av => to_val (c_val (av_val av))) vals = Ok l) by (apply rmap_ok'; exact F3).
      destruct Y as [l Y]. exists (VArray l). cbn [to_val]. rewrite Y. reflexivity. }
    assert (Z : forall s1, HA kc s1 -> H kc (set_atypes (vpop (p_atypes (pop_key s1))) (pop_key s1))).
    { intros s1 [K1 [j E1]]. split; [apply (k_types KEPT), (k_chain KEPT); auto|]. cbn. rewrite E1. apply vpop_last. }
    unfold wok in X |- *. destruct (array_internal_ pval s0 i) as [[s1 r1]| |]; cbn [rbind]; auto.
    destruct r1; [destruct X; auto|..]; destruct X as [K1 [X|X]]; (split; [apply (k_types KEPT), (k_chain KEPT); auto|]); auto; left; apply Z; auto.
  Qed.

  Lemma w_keyval : forall kc s i, H kc s -> sfx i ->
    wok (keyval_p_ pval s i) (fun s' => K s' /\ (s'.(p_keychain) = kc \/ key_start i))
      (fun kv s' r => H kc s' /\ vgood kv.(kv_val).(c_val) /\ sfx r /\ key_start i).
  Proof using PV RV KEPT.
    intros kc s i [HK E] SF. unfold keyval_p_.
    apply w_bind with (Q1 := fun k s' r => H (kc ++ [KStr k]) s' /\ i = k ++ r /\ name_text k).
    { destruct (key_safe s i) as (s' & r & X). rewrite X. destruct r as [r k| |].
      - cbn. pose proof (key_push _ _ _ _ _ X) as ->. apply key_text in X as [-> NT]. split; [|auto]. split; [apply (k_chain KEPT); auto|].
        cbn. rewrite E. reflexivity.
      - cbn. rewrite (key_fail _ _ _ _ X) by discriminate. auto.
      - cbn. rewrite (key_fail _ _ _ _ X) by discriminate. auto. }
    intros k s1 r1 _ ([K1 E1] & EI & NT). assert (KS : key_start i) by (rewrite EI; apply name_key_start; auto).
    apply w_bind with (Q1 := fun _ s' r => s' = s1 /\ exists w w', r1 = w ++ lit "=" ++ w' ++ r /\ blanks w /\ blanks w').
    { apply w_pure; [apply WalkFacts.pure_kvsep|auto|]. intros r a X. split; auto. eapply sep_text; exact X. }
    intros sep s2 r2 _ (-> & w & w' & ER & B & B'). destruct SF as [a SF]. rewrite EI, ER in SF.
    assert (SF2 : sfx r2) by (exists (a ++ k ++ w ++ lit "=" ++ w'); rewrite SF, <- !app_assoc; reflexivity).
    assert (GK : given_key D k) by (exists a, w, (w' ++ r2); auto).
    eapply w_bind.
    { eapply w_conseq; [apply (PV (kc ++ [KStr k]) s1 r2)| |intros c s' r X; exact X]; [split; auto|auto| |].
      - intros (y & EY). exists kc, (KStr k). split; auto. split; auto. exists a, w, w', y. rewrite SF, EY. auto.
      - intros s' [K' _]. auto. }
    intros c s3 r3 E3 [H3 [v V]]. pose proof (sfx_reads _ _ _ _ _ _ _ _ RV E3 SF2) as SF3.
    destruct (keyval_calm kc k sep c v s3 H3 (conj NT GK) V) as (s' & X & H'). unfold act. rewrite X. cbn. split; auto. split; [exists v; auto|auto].
  Qed.
  Lemma w_table_keyval : forall kc s i, H kc s -> sfx i ->
    wok (table_keyval_p_ pval s i) (fun s' => K s' /\ (s'.(p_keychain) = kc \/ key_start i))
      (fun tk s' r => H kc s' /\ vgood tk.(tk_kv).(kv_val).(c_val) /\ sfx r /\ key_start i).
  Proof using PV RV KEPT.
    intros kc s i HS SF. unfold table_keyval_p_. eapply w_bind; [apply w_keyval; auto|]. intros kv s1 r1 _ (H1 & V1 & SF1 & KS).
    assert (EE : K s1 /\ (p_keychain s1 = kc \/ key_start i)) by (destruct H1; auto).
    apply w_bind with (Q1 := fun _ s' r => s' = s1 /\ sfx r).
    { apply w_pure; [pure_tac; apply WalkFacts.pure_sep|auto|]. intros r a X. split; auto.
      eapply sfx_reads; [|exact X|auto]. apply reads_opt, reads_complete, reads_array_sep. }
    intros sep s2 r2 _ [-> SF2]. apply w_bind with (Q1 := fun _ s' r => s' = s1 /\ sfx r).
    { apply w_complete, w_cons; auto. intros r l X. split; auto. eapply sfx_reads; [|exact X|auto]. apply reads_comment_or_nls. }
    intros nls s3 r3 _ [-> SF3]. cbn. auto.
  Qed.
  Lemma w_entries : forall kc n s i, H kc s -> sfx i ->
    wok (many_loop n (table_keyval_p_ pval) s i) (fun s' => K s' /\ (s'.(p_keychain) = kc \/ key_start i))
      (fun l s' r => K s' /\ (s'.(p_keychain) = kc \/ key_start r) /\ Forall (fun tk => vgood tk.(tk_kv).(kv_val).(c_val)) l).
  Proof using PV RV KEPT.
    intros kc. induction n; intros s i HS SF; cbn [many_loop]; [exact I|]. destruct i as [|c i]; [cbn; destruct HS; auto|].
    pose proof (w_table_keyval kc s (c :: i) HS SF) as W. unfold wok in W.
    destruct (table_keyval_p_ pval s (c :: i)) as [[s1 r1]| |]; cbn [rbind]; auto. destruct r1 as [i1 a| |].
    - destruct W as (H1 & V1 & SF1 & KS). destruct (Nat.eqb _ _); [cbn; split; [apply H1|split; [left; apply H1|constructor]]|].
      specialize (IHn s1 i1 H1 SF1). unfold wok in IHn. destruct (many_loop n _ s1 i1) as [[s2 r2]| |]; cbn [rbind]; auto.
      destruct r2; cbn; auto; [destruct IHn as (K2 & C2 & F2); auto|tauto|tauto].
    - cbn. destruct W. auto.
    - cbn. exact W.
  Qed.
  Lemma w_inline : forall kc s i, H kc s -> sfx i ->
    wok (inline_table_ pval s i) (fun s' => K s' /\ (s'.(p_keychain) = kc \/ starts i 123)) (fun t s' r => H kc s' /\ vgood t).
  Proof using PV RV KEPT.
    intros kc s i HS SF. unfold inline_table_. apply w_bind with (Q1 := fun _ s' r => s' = s /\ starts i 123 /\ sfx r).
    { apply w_pure; [pure_tac|destruct HS; auto|]. intros r a X. split; auto. split; [eapply tag1_starts; exact X|].
      eapply sfx_reads; [apply reads_tag|exact X|auto]. }
    intros u s1 r1 _ (-> & ST & SF1). assert (EE : K s /\ (p_keychain s = kc \/ starts i 123)) by (destruct HS; auto).
    apply w_bind with (Q1 := fun _ s' r => s' = s /\ sfx r).
    { apply w_pure; [unfold ws; pure_tac|auto|]. intros r a X. split; auto. eapply sfx_reads; [apply reads_ws|exact X|auto]. }
    intros w1 s2 r2 _ (-> & SF2).
    apply w_bind with (Q1 := fun kvs s' r => K s' /\ (s'.(p_keychain) = kc \/ key_start r) /\
      Forall (fun tk => vgood tk.(tk_kv).(kv_val).(c_val)) match kvs with Some l => l | None => [] end).
    { unfold opt, complete, inline_table_keyvals_, many0. pose proof (w_entries kc (S (length r2)) s r2 HS SF2) as W. unfold wok in W |- *.
      destruct (many_loop _ _ s r2) as [[s3 r3]| |]; cbn [rbind]; auto. destruct r3; auto; destruct W; auto. }
    intros kvs s3 r3 _ (K3 & C3 & F3). assert (EE3 : K s3 /\ (p_keychain s3 = kc \/ starts i 123)) by auto.
    apply w_bind with (Q1 := fun _ s' r => s' = s3 /\ (starts r 125 -> H kc s3)).
    { apply w_pure; [unfold ws; pure_tac|auto|]. intros r a X. split; auto. intros S1. split; auto. destruct C3 as [C3|C3]; auto.
      exfalso. eapply key_closed; eauto. }
    intros w2 s4 r4 _ (-> & C4). apply w_bind with (Q1 := fun _ s' r => s' = s3 /\ H kc s3).
    { apply w_pure; [pure_tac|auto|]. intros r a X. split; auto. apply C4. eapply tag1_starts; exact X. }
    intros u2 s5 r5 _ (-> & C5). cbn. split; auto. set (l := match kvs with Some l => l | None => [] end) in *. clearbody l.
    assert (Y : exists r, rmap (fun tk => let? x := to_val (c_val (kv_val (tk_kv tk))) in Ok (kv_key (tk_kv tk), x)) l = Ok r).
    { apply rmap_ok'. eapply Forall_impl; [|exact F3]. intros a [v X]. rewrite X. cbn [rbind]. eauto. }
    destruct Y as [r Y]. exists (VInlineTable r). cbn [to_val]. rewrite Y. reflexivity.
  Qed.
  Lemma w_pcell : forall A (p : P A) f kc s i E, wok (p s i) E (fun a s' r => H kc s' /\ vgood (f a)) ->
    wok (pcell p f s i) E (fun c s' r => H kc s' /\ vgood c.(c_val)).
  Proof.
    intros A p f kc s i E W. unfold pcell. eapply w_bind; [apply w_complete; exact W|]. intros a s' r _ [[K1 E1] V]. cbn. split; auto.
    split; auto. apply (k_next KEPT). auto.
  Qed.
  Lemma w_string : forall kc s i, H kc s -> wok (string_p s i) (H kc) (fun t s' r => H kc s' /\ vgood t).
  Proof.
    intros kc.
    assert (B : forall (p : P str) st, (forall s i, H kc s -> wok (p s i) (H kc) (fun _ s' _ => H kc s')) -> forall s i, H kc s ->
      wok (pmap (complete p) (fun x => TString x st) s i) (H kc) (fun t s' r => H kc s' /\ vgood t)).
    { intros p st W s i HS. eapply w_bind; [apply w_complete, W; auto|]. intros a s' r _ H1. cbn. split; auto. eexists. reflexivity. }
    assert (L : forall p : P str, pure p -> forall n s i, H kc s ->
      wok (pmap (x <-- p ;; act (fun s => Ok (add_lines (count_lines x) s, x))) (strip n) s i) (H kc) (fun _ s' _ => H kc s')).
    { intros p PU n s i HS. apply w_bind with (Q1 := fun _ s' _ => H kc s'); [|intros; cbn; auto].
      apply w_bind with (Q1 := fun _ s' _ => s' = s); [apply w_pure; auto|]. intros a s' r _ ->. cbn. destruct HS. split; auto. apply (k_line KEPT); auto. }
    assert (L2 : forall p : P str, pure p -> forall n s i, H kc s -> wok (pmap p (strip n) s i) (H kc) (fun _ s' _ => H kc s')).
    { intros p PU n s i HS. apply w_bind with (Q1 := fun _ s' _ => s' = s); [apply w_pure; auto|]. intros a s' r _ ->. cbn. auto. }
    assert (A : forall p q : P tval, (forall s i, H kc s -> wok (p s i) (H kc) (fun t s' r => H kc s' /\ vgood t)) ->
      (forall s i, H kc s -> wok (q s i) (H kc) (fun t s' r => H kc s' /\ vgood t)) ->
      forall s i, H kc s -> wok (alt p q s i) (H kc) (fun t s' r => H kc s' /\ vgood t)).
    { intros p q W1 W2 s i HS. eapply w_alt; [apply W1; auto|auto|intros; apply W2; auto]. }
    unfold string_p. repeat apply A; apply B; unfold ml_literal_string_p, ml_basic_string_p, basic_string_p, literal_string_p,
      raw_ml_literal_string, raw_ml_basic_string, raw_basic_string, raw_literal_string; first [apply L; pure_tac|apply L2; pure_tac].
  Qed.
  Lemma w_date : forall kc s i, H kc s -> wok (date_time s i) (H kc) (fun _ s' _ => H kc s').
  Proof.
    intros kc s i [HK E]. unfold date_time. destruct (WalkFacts.pure_dti s i) as [r ->]. cbn [rbind].
    destruct r; try (split; auto; fail). destruct (datetime_validate a); [split; auto|].
    destruct (k_full KEPT s (p_keychain s) HK) as [[[x y] z] ->]. cbn [rbind]. split; [apply (k_error KEPT); auto|exact E].
  Qed.

  Lemma w_val_ : vcalm (val_ pval).
  Proof using PV RV KEPT.
    intros kc s i HS SF UP. unfold val_.
    eapply w_alt; [apply w_pcell, w_array; auto| |].
    { intros s' [K1 [C|C]]; (split; [auto|]); [auto|right; left; auto]. }
    intros s1 [K1 C1].
    assert (DIRTY : nested i -> wok (alt (pcell (inline_table_ pval) (fun v => v)) (alt (pcell date_time TDateTime) (alt (pcell float TFloat) (alt (pcell integer TInteger)
      (alt (pcell boolean TBoolean) (pcell string_p (fun v => v)))))) s1 i) (fun s' => K s' /\ (p_keychain s' = kc \/ nested i)) (fun c s' r => H kc s' /\ vgood (c_val c)) \/ p_keychain s1 = kc).
    { intros N. destruct C1 as [C1|(y & ->)]; [auto|]. left. unfold alt at 1.
      assert (IN : pcell (inline_table_ pval) (fun v => v) s1 (91 :: y) = Ok (s1, Error)).
      { unfold pcell, bind at 1, complete, inline_table_, bind at 1, tag. cbn [rbind]. destruct (Nat.ltb _ _); reflexivity. }
      rewrite IN. cbn [rbind]. rewrite rest_nested by auto. cbn. auto. }
    assert (C2 : nested i \/ p_keychain s1 = kc) by (destruct C1 as [C1|C1]; [auto|left; left; auto]).
    destruct C2 as [N|C2]; [destruct (DIRTY N) as [X|C2]; [exact X|]|]; clear DIRTY C1.
    all: eapply w_alt; [apply w_pcell, (w_inline kc); [split; auto|auto]| |].
    all: try (intros s' [K2 [C|C]]; (split; [auto|]); [auto|right; right; auto]).
    all: intros s2 [K3 [C3|C3]]; [|rewrite rest_nested by (right; auto); cbn; split; [auto|right; right; auto]].
    all: assert (EE : forall s', H kc s' -> K s' /\ (p_keychain s' = kc \/ nested i)) by (intros s' [? ?]; auto).
    all: assert (A : forall p q : P cell, (forall s, H kc s -> wok (p s i) (H kc) (fun c s' r => H kc s' /\ vgood (c_val c))) ->
      (forall s, H kc s -> wok (q s i) (H kc) (fun c s' r => H kc s' /\ vgood (c_val c))) ->
      forall s, H kc s -> wok (alt p q s i) (H kc) (fun c s' r => H kc s' /\ vgood (c_val c)))
      by (intros p q W1 W2 s0 HS0; eapply w_alt; [apply W1; auto|auto|intros; apply W2; auto]).
    all: eapply w_conseq with (E := H kc); [|exact EE|intros c s' r X; exact X].
    all: apply A; [|apply A; [|apply A; [|apply A]]|split; auto]; intros s0 HS0; apply w_pcell; try apply w_string; auto.
    all: try (eapply w_conseq; [apply w_date; exact HS0|auto|]; intros d s' r HX; split; [exact HX|eexists; reflexivity]).
    all: apply w_pure; [unfold float, integer, boolean; pure_tac|auto|]; intros r a _; split; [auto|eexists; reflexivity].
  Qed.
End CalmVal.

Lemma w_val : forall f, vcalm (val f).
Proof. induction f; cbn [val]; [intros kc s i HS SF UP; exact I|]. apply w_val_; auto. apply reads_val. Qed.
Lemma w_keyval_p : forall kc s i, H kc s -> sfx i ->
    wok (keyval_p s i) (fun s' => K s' /\ (s'.(p_keychain) = kc \/ key_start i)) (fun kv s' r => H kc s').
Proof.
  intros kc s i HS SF.
  assert (V : vcalm val_p) by (intros kc0 s0 i0 HS0 SF0 UP0; apply w_val; auto).
  eapply w_conseq; [exact (w_keyval val_p V reads_val_p kc s i HS SF)|auto|]. intros kv s' r (X & _). exact X.
Qed.

(** ** The parsers of headers *)

Lemma one_subkey : forall s i, K s -> wok (table_subkey s i) (fun s' => s' = s)
  (fun x s' r => K s' /\ s'.(p_keychain) = s.(p_keychain) ++ [KStr x.(wk_key)] /\ i = name_after (tri x) ++ r /\ tri_ok (tri x)).
Proof.
  intros s i HK. unfold table_subkey.
  eapply w_bind; [apply w_pure with (Q := fun w s' r => s' = s /\ i = w ++ r /\ blanks w); [unfold ws; pure_tac|auto|intros r a E; apply ws_blanks in E; auto]|].
  intros w1 s1 i1 _ (-> & -> & B1).
  eapply w_bind; [apply w_pure with (Q := fun u s' r => s' = s /\ i1 = lit "." ++ r); [pure_tac|auto|intros r a E; apply tag_done in E as (_ & _ & E); auto]|].
  intros u s2 i2 _ (-> & ->).
  eapply w_bind; [apply w_pure with (Q := fun w s' r => s' = s /\ i2 = w ++ r /\ blanks w); [unfold ws; pure_tac|auto|intros r a E; apply ws_blanks in E; auto]|].
  intros w2 s3 i3 _ (-> & -> & B2).
  eapply w_bind with (Q1 := fun k s' r => s' = push_key (KStr k) s /\ i3 = k ++ r /\ name_text k).
  { destruct (key_safe s i3) as (s' & r & E). rewrite E. destruct r; cbn.
    - split; [eapply key_push; eauto|]. eapply key_text; eauto.
    - eapply key_fail; eauto; discriminate.
    - eapply key_fail; eauto; discriminate. }
  intros k s4 i4 _ (-> & -> & NT). cbn. split; [apply (k_chain KEPT); auto|]. split; [reflexivity|]. split; [unfold name_after, tri; cbn; rewrite <- app_assoc; cbn; rewrite <- app_assoc; reflexivity|].
  unfold tri_ok, tri. cbn. auto.
Qed.
Lemma subkeys_calm : forall n s i, K s -> wok (many_loop n table_subkey s i) K
  (fun l s' r => K s' /\ s'.(p_keychain) = s.(p_keychain) ++ map (fun x => KStr x.(wk_key)) l /\
     i = concat (map name_after (map tri l)) ++ r /\ Forall tri_ok (map tri l)).
Proof.
  induction n; intros s i HK; cbn [many_loop]; [exact I|]. destruct i as [|c i]; [cbn; rewrite app_nil_r; auto|].
  pose proof (one_subkey s (c :: i) HK) as X. unfold wok in X. destruct (table_subkey s (c :: i)) as [[s1 r1]| |]; cbn [rbind]; auto.
  destruct r1 as [i1 x| |]; [|subst; cbn; rewrite ?app_nil_r; auto..].
  destruct X as (K1 & C1 & E1 & T1). destruct (Nat.eqb (length i1) (length (c :: i))) eqn:L.
  { exfalso. apply Nat.eqb_eq in L. rewrite E1 in L. unfold name_after in L. rewrite !app_length in L. cbn in L. lia. }
  specialize (IHn s1 i1 K1). unfold wok in IHn. destruct (many_loop n table_subkey s1 i1) as [[s2 r2]| |]; cbn [rbind]; auto.
  destruct r2 as [i2 l| |]; auto. destruct IHn as (K2 & C2 & E2 & T2). cbn [wok map concat]. split; auto. split; [rewrite C2, C1, <- app_assoc; reflexivity|].
  split; [rewrite E1, E2, <- app_assoc; reflexivity|constructor; auto].
Qed.

Lemma header_calm : forall open close f s i, H [] s ->
  (forall w1 w2 k l y s0, i = open ++ w1 ++ k ++ concat (map name_after (map tri l)) ++ w2 ++ close ++ y -> blanks w1 -> blanks w2 -> name_text k ->
     Forall tri_ok (map tri l) -> K s0 -> length s0.(p_keychain) = S (length l) -> exists s' t, f w1 w2 k l s0 = Ok (s', t) /\ H [] s') ->
  wok ((tag open ;;; (w1 <-- ws ;; (k <-- key_p ;; (subkeys <-- table_subkeys ;; (w2 <-- ws ;;
    (tag close ;;; act (f w1 w2 k subkeys : pst -> res (pst * table_type)))))))) s i)
    (fun s' => K s' /\ (s'.(p_keychain) = [] \/ exists w k y, i = open ++ w ++ k ++ y /\ blanks w /\ name_text k)) (fun _ s' _ => H [] s').
Proof.
  intros open close f s i [HK CH] F.
  eapply w_bind; [apply w_pure with (Q := fun u s' r => s' = s /\ i = open ++ r); [pure_tac|auto|intros r a E; apply tag_done in E as (_ & _ & E); auto]|].
  intros u s1 i1 _ (-> & E1).
  eapply w_bind; [apply w_pure with (Q := fun w s' r => s' = s /\ i1 = w ++ r /\ blanks w); [unfold ws; pure_tac|auto|intros r a E; apply ws_blanks in E; auto]|].
  intros w1 s2 i2 _ (-> & E2 & B1).
  eapply w_bind with (Q1 := fun k s' r => s' = push_key (KStr k) s /\ i2 = k ++ r /\ name_text k).
  { destruct (key_safe s i2) as (s' & r & E). rewrite E. destruct r; cbn.
    - split; [eapply key_push; eauto|]. eapply key_text; eauto.
    - assert (s' = s) by (eapply key_fail; eauto; discriminate). subst; auto.
    - assert (s' = s) by (eapply key_fail; eauto; discriminate). subst; auto. }
  intros k s3 i3 _ (-> & E3 & NT).
  assert (OP : exists w k y, i = open ++ w ++ k ++ y /\ blanks w /\ name_text k) by (exists w1, k, i3; rewrite E1, E2, E3; auto).
  eapply w_bind with (Q1 := fun l s' r => K s' /\ p_keychain s' = p_keychain (push_key (KStr k) s) ++ map (fun x => KStr (wk_key x)) l /\
     i3 = concat (map name_after (map tri l)) ++ r /\ Forall tri_ok (map tri l)).
  { eapply w_conseq; [apply subkeys_calm; apply (k_chain KEPT); auto|auto|auto]. }
  intros l s4 i4 _ (K4 & C4 & E4 & T4).
  eapply w_bind; [apply w_pure with (Q := fun w s' r => s' = s4 /\ i4 = w ++ r /\ blanks w); [unfold ws; pure_tac|auto|intros r a E; apply ws_blanks in E; auto]|].
  intros w2 s5 i5 _ (-> & E5 & B2).
  eapply w_bind; [apply w_pure with (Q := fun u s' r => s' = s4 /\ i5 = close ++ r); [pure_tac|auto|intros r a E; apply tag_done in E as (_ & _ & E); auto]|].
  intros u2 s6 i6 _ (-> & E6). unfold act.
  destruct (F w1 w2 k l i6 s4) as (s' & t & -> & H'); auto.
  - rewrite E1, E2, E3, E4, E5, E6. reflexivity.
  - rewrite C4. unfold push_key, vpush. cbn. rewrite CH, app_length, map_length. reflexivity.
Qed.

Lemma bracket_blank : forall y w k z, 91 :: y = w ++ k ++ z -> blanks w -> name_text k -> False.
Proof.
  intros y w k z E B NT. destruct w as [|b w]; cbn in E.
  - destruct (name_key_start k z NT) as (c & x & X & C). rewrite X in E. inversion E; subst. destruct C as [C|C]; [discriminate|vm_compute in C; discriminate].
  - inversion E; subst. inversion B as [|? ? X]; subst. destruct X; discriminate.
Qed.

Section Doc.
Hypothesis STD : forall b w1 w2 k l s, line_at D b -> opens_with b (lit "[") (lit "]") k (map tri l) -> K s ->
  length s.(p_keychain) = S (length l) -> exists s' t, std_table_act w1 w2 k l s = Ok (s', t) /\ H [] s'.
Hypothesis ARR : forall b w1 w2 k l s, line_at D b -> opens_with b (lit "[[") (lit "]]") k (map tri l) -> K s ->
  length s.(p_keychain) = S (length l) -> exists s' t, array_table_act w1 w2 k l s = Ok (s', t) /\ H [] s'.

Lemma table_calm : forall s b w i, H [] s -> line_at D b -> b = w ++ i -> blanks w ->
  wok (table_p s i) (fun s' => K s' /\ (s'.(p_keychain) = [] \/ starts i 91)) (fun _ s' _ => H [] s').
Proof using STD ARR KEPT.
  intros s b w i HS LA EB BW. unfold table_p.
  assert (ST0 : forall s, H [] s -> wok (std_table s i) (fun s' => K s' /\ (s'.(p_keychain) = [] \/ starts i 91)) (fun _ s' _ => H [] s')).
  { intros s0 H0. eapply w_conseq; [apply (header_calm (lit "[") (lit "]") std_table_act s0 i H0)| |auto].
    - intros w1 w2 k l y s1 E B1 B2 NT T K1 L1. apply (STD b); auto. exists w, w1, w2, y. rewrite EB, E. split; [reflexivity|]. auto 10.
    - intros s' (K' & [C|(w1 & k & y & E & _)]); split; auto. right. eexists. exact E. }
  eapply w_alt with (E1 := fun s' => K s' /\ (s'.(p_keychain) = [] \/ exists w k y, i = lit "[[" ++ w ++ k ++ y /\ blanks w /\ name_text k)).
  - apply w_complete. apply (header_calm (lit "[[") (lit "]]") array_table_act s i HS).
    intros w1 w2 k l y s1 E B1 B2 NT T K1 L1. apply (ARR b); auto. exists w, w1, w2, y. rewrite EB, E. split; [reflexivity|]. auto 10.
  - intros s' (K' & [C|(w1 & k & y & E & _)]); split; auto. right. eexists. exact E.
  - intros s' (K' & [C|(w1 & k & y & E & B1 & NT)]); apply w_complete.
    + apply ST0. split; auto.
    + assert (ST : starts i 91) by (eexists; exact E).
      eapply w_bind; [apply w_pure with (Q := fun u s1 r => s1 = s' /\ i = lit "[" ++ r); [pure_tac|auto|intros r a E1; apply tag_done in E1 as (_ & _ & E1); auto]|].
      intros u s1 i1 _ (-> & E1).
      eapply w_bind; [apply w_pure with (Q := fun w s1 r => s1 = s' /\ i1 = w ++ r /\ blanks w); [unfold ws; pure_tac|auto|intros r a E2; apply ws_blanks in E2; auto]|].
      intros w2 s2 i2 _ (-> & E2 & B2).
      eapply w_bind with (Q1 := fun _ _ _ => False); [|intros ? ? ? _ []].
      destruct (key_safe s' i2) as (s3 & r & E3). rewrite E3. destruct r; cbn.
      * apply key_text in E3 as (E3 & NT3). rewrite E3 in E2. rewrite E2 in E1. cbn in E, E1. rewrite E in E1. inversion E1. eapply bracket_blank; eauto.
      * assert (s3 = s') by (eapply key_fail; eauto; discriminate). subst; auto.
      * assert (s3 = s') by (eapply key_fail; eauto; discriminate). subst; auto.
Qed.

(** ** Expressions and the document *)
Definition failed (b : str) (s : pst) : Prop := K s /\ (s.(p_keychain) = [] \/ blocked_at b).

Lemma tail_calm : forall (g : str -> option str -> expression) s r, H [] s ->
  wok ((w2 <-- ws ;; (c <-- opt (complete comment) ;; ret (g w2 c))) s r) (fun s' => H [] s') (fun _ s' _ => H [] s').
Proof.
  intros g s r HS. apply w_pure; auto. unfold ws, comment. pure_tac.
Qed.

Lemma table_comment_calm : forall s b, H [] s -> line_at D b ->
  wok (table_comment s b) (fun s' => K s' /\ (s'.(p_keychain) = [] \/ exists w y, b = w ++ y /\ blanks w /\ starts y 91)) (fun _ s' _ => H [] s').
Proof using STD ARR KEPT.
  intros s b HS LA. unfold table_comment.
  eapply w_bind; [apply w_pure with (Q := fun w s' r => s' = s /\ b = w ++ r /\ blanks w); [unfold ws; pure_tac|destruct HS; auto|intros r a E; apply ws_blanks in E; auto]|].
  intros w s1 i _ (-> & E & B).
  eapply w_bind with (Q1 := fun _ s' _ => H [] s').
  { eapply w_conseq; [eapply table_calm; eauto| |auto]. intros s' (K' & [C|C]); split; auto. right. exists w, i. auto. }
  intros t s2 r _ H2. eapply w_conseq; [apply (tail_calm (fun w2 c => {| e_ws := {| ws1 := w; ws2 := w2 |}; e_keyval := None; e_table := Some t; e_comment := c |})); auto| |auto].
  intros s' (K' & C). auto.
Qed.
Lemma keyval_comment_calm : forall s b, sfx b -> K s -> (s.(p_keychain) = [] \/ exists w y, b = w ++ y /\ blanks w /\ starts y 91) ->
  wok (keyval_comment s b) (failed b) (fun _ s' _ => H [] s').
Proof.
  intros s b SF HK [C|(w & y & EB & B & (z & EY))]; unfold keyval_comment.
  - eapply w_bind; [apply w_pure with (Q := fun w s' r => s' = s /\ b = w ++ r /\ blanks w); [unfold ws; pure_tac|split; auto|intros r a E; apply ws_blanks in E; auto]|].
    intros w s1 i _ (-> & E & B).
    assert (SI : sfx i) by (destruct SF as [a SF]; exists (a ++ w); rewrite SF, E; apply app_assoc).
    eapply w_bind with (Q1 := fun _ s' _ => H [] s').
    { eapply w_conseq; [apply (w_keyval_p [] s i (conj HK C) SI)| |auto]. intros s' (K' & [X|X]); split; auto. right. exists w, i. repeat split; auto. right. auto. }
    intros kv s2 r _ H2. eapply w_conseq; [apply (tail_calm (fun w2 c => {| e_ws := {| ws1 := w; ws2 := w2 |}; e_keyval := Some kv; e_table := None; e_comment := c |})); auto| |auto].
    intros s' (K' & X). split; auto.
  - assert (BL : blocked y) by (left; exists z; auto). assert (FB : forall s, K s -> failed b s) by (intros s0 K0; split; auto; right; exists w, y; auto).
    subst b. unfold bind at 1. rewrite (blocked_ws w y s B BL). cbn [rbind].
    eapply w_bind with (Q1 := fun _ _ _ => False); [|intros ? ? ? _ []]. unfold keyval_p, keyval_p_.
    eapply w_bind with (Q1 := fun _ _ _ => False); [|intros ? ? ? _ []].
    destruct (key_safe s y) as (s3 & r & E3). rewrite E3. destruct r; cbn.
    + apply key_text in E3 as (E3 & NT3). rewrite EY in E3. apply (bracket_blank z [] a rest); auto. constructor.
    + assert (s3 = s) by (eapply key_fail; eauto; discriminate). subst; auto.
    + assert (s3 = s) by (eapply key_fail; eauto; discriminate). subst; auto.
Qed.
Lemma expr_calm : forall s b, H [] s -> line_at D b ->
  wok (expression_p s b) K (fun _ s' r => K s' /\ (s'.(p_keychain) = [] \/ blocked r)).
Proof using STD ARR KEPT.
  intros s b HS LA. unfold expression_p.
  assert (SF : sfx b) by (destruct LA as (a & E & _); exists a; auto).
  eapply w_alt; [apply w_complete; eapply w_conseq; [apply table_comment_calm; auto|intros s' X; exact X|intros e s' r (A & B); auto]|intros s' X; apply X|].
  intros s1 (K1 & C1).
  eapply w_alt; [apply w_complete; eapply w_conseq; [apply keyval_comment_calm; auto|intros s' X; exact X|intros e s' r (A & B); auto]|intros s' X; apply X|].
  intros s2 (K2 & C2).
  eapply w_alt with (E1 := fun s' => s' = s2); [apply w_complete, w_pure|intros s' ->; auto|].
  - unfold ws_comment, ws, comment. pure_tac.
  - reflexivity.
  - intros r a E. split; auto. destruct C2 as [C2|(w & y & EB & B & BL)]; auto. exfalso. unfold ws_comment in E.
    apply bind_done in E as (s3 & i3 & w3 & E3 & E). rewrite EB, (blocked_ws w y s2 B BL) in E3. inversion E3; subst.
    apply bind_done in E as (s4 & i4 & c & E4 & _). unfold comment in E4. apply bind_done in E4 as (s5 & i5 & u & E5 & _).
    apply tag_done in E5 as (_ & _ & E5). apply blocked_head in BL as (c0 & z & -> & _ & _ & X & _). cbn in E5. inversion E5. auto.
  - intros s' ->. apply w_complete, w_pure; auto; [unfold ws_expr, ws; pure_tac|].
    intros r a E. split; auto. destruct C2 as [C2|(w & y & EB & B & BL)]; auto. right. unfold ws_expr in E.
    apply bind_done in E as (s3 & i3 & w3 & E3 & E). rewrite EB, (blocked_ws w y s2 B BL) in E3. inversion E3; subst. inversion E; subst. auto.
Qed.
Lemma newline_calm : forall s i, wok (newline s i) (fun s' => s' = s) (fun _ s' r => s' = add_lines 1 s /\ ~ blocked i).
Proof.
  intros s i. unfold newline.
  assert (X : forall t, (exists c t', t = c :: t' /\ (c = 13 \/ c = 10)) ->
    wok ((x <-- complete (tag t) ;; act (fun s => Ok (add_lines 1 s, x))) s i) (fun s' => s' = s) (fun _ s' r => s' = add_lines 1 s /\ ~ blocked i)).
  { intros t (c & t' & -> & C).
    eapply w_bind; [apply w_pure with (Q := fun u s' r => s' = s /\ i = (c :: t') ++ r); [pure_tac|auto|intros r a E; apply complete_done, tag_done in E as (_ & _ & E); auto]|].
    intros u s1 i1 _ (-> & ->). cbn. split; auto. intros BL. apply blocked_head in BL as (c0 & z & E & A). inversion E; subst. destruct C; subst; tauto. }
  eapply w_alt; [apply X; exists 13, [10]; auto|auto|]. intros s' ->. apply X. exists 10, []. auto.
Qed.
Lemma toml_calm : forall s, H [] s -> wok (toml_p s D) K (fun _ s' _ => K s').
Proof using STD ARR KEPT.
  intros s HS. unfold toml_p, bind at 1.
  assert (L0 : line_at D D) by (exists []; auto). pose proof (expr_calm s D HS L0) as X0. unfold wok in X0.
  destruct (expression_p s D) as [[s1 r1]| |] eqn:E1; cbn [rbind]; auto. destruct r1 as [i1 e| |]; try exact X0.
  apply reads_expression in E1.
  assert (Z : forall n s b, K s -> s.(p_keychain) = [] \/ blocked b -> sfx b -> wok (many_loop n nl_expression_p s b) K (fun _ s' _ => K s')).
  { clear E1 X0 s1 i1 e. induction n; intros s1 b S1 C1 [a E]; cbn [many_loop]; [exact I|]. destruct b as [|c b]; [exact S1|].
    unfold nl_expression_p at 1, bind at 1. pose proof (newline_calm s1 (c :: b)) as NL. unfold wok in NL.
    destruct (newline s1 (c :: b)) as [[s2 r2]| |] eqn:E2; cbn [rbind]; auto. destruct r2 as [i2 nl| |]; try (subst; exact S1).
    destruct NL as (-> & NB). destruct C1 as [C1|C1]; [|contradiction].
    apply line_after in E2 as (a2 & E2 & a3 & E3).
    assert (L : line_at D i2). { exists (a ++ a2). rewrite E, E2, app_assoc. split; auto. right. exists (a ++ a3). rewrite E3, app_assoc. auto. }
    unfold bind at 1. assert (H2 : H [] (add_lines 1 s1)) by (split; [apply (k_line KEPT); auto|exact C1]). pose proof (expr_calm _ i2 H2 L) as Y. unfold wok in Y.
    destruct (expression_p (add_lines 1 s1) i2) as [[s3 r3]| |] eqn:E4; cbn [rbind]; auto. destruct r3 as [i3 e| |]; try exact Y. destruct Y as [Y1 Y2].
    unfold ret. cbn [rbind]. match goal with |- context [if ?b then _ else _] => destruct b; [exact Y1|] end. apply reads_expression in E4.
    assert (S3 : sfx i3) by (eexists; rewrite E, E2, E4, !app_assoc; reflexivity).
    specialize (IHn s3 i3 Y1 Y2 S3). unfold wok in IHn |- *. destruct (many_loop n nl_expression_p s3 i3) as [[s4 r4]| |]; cbn [rbind]; auto. destruct r4; exact IHn. }
  destruct X0 as [X1 X2]. unfold bind at 1, nl_expressions, many0. assert (S1 : sfx i1) by (eexists; exact E1).
  pose proof (Z (Datatypes.S (length i1)) s1 i1 X1 X2 S1) as Y. unfold wok in Y.
  destruct (many_loop _ _ s1 i1) as [[s2 r2]| |]; cbn [rbind]; auto. destruct r2; exact Y.
Qed.
End Doc.
End Walk.
