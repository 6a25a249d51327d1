(** The line that is reported, for every input: it is never before the line where
    parsing stopped, and after it only if multi-line strings were read in vain. *)
From Coq Require Import Lia ZifyBool ZifyNat ZifyN.
From Verif Require Import TotalFacts Str Regex Types Ast State Nom Keys Grammar Api Facts Spec RegexFacts NomFacts DateFacts RoundTrip Effects
  ParseFacts WalkFacts StringFacts LineFacts ScalarFacts HeadSpec SafeFacts CountFacts.

(** ** Parsers that do not count lines, on inputs with [Q] *)
Section Still.
Variable Q : str -> Prop.
Hypothesis QS : forall x j, Q (x ++ j) -> Q j.
Definition still {A} (p : P A) : Prop := forall s i s' r, p s i = Ok (s', r) -> Q i ->
  same_line s s' /\ match r with Done j _ => exists x, i = x ++ j | _ => True end.
Lemma still_bind : forall A B (p : P A) (f : A -> P B), still p -> (forall a, still (f a)) -> still (bind p f).
Proof.
  intros A B p f H H2 s i s' r E QI. unfold bind in E. apply rbind_ok in E as ([s1 r1] & E1 & E). apply H in E1 as [L1 X1]; auto.
  destruct r1; [|inversion E; subst; auto..]. destruct X1 as (x & ->). destruct (H2 _ _ _ _ _ E (QS _ _ QI)) as [L2 X2]. split; [eapply same_trans; eauto|].
  destruct r; auto. destruct X2 as (y & ->). exists (x ++ y). rewrite app_assoc. reflexivity.
Qed.
Lemma still_ret : forall A (a : A), still (ret a).
Proof. intros A a s i s' r E QI. inversion E; subst. split; [reflexivity|]. exists []. reflexivity. Qed.
Lemma still_pmap : forall A B (p : P A) (f : A -> B), still p -> still (pmap p f).
Proof. intros. apply still_bind; auto. intros. apply still_ret. Qed.
Lemma still_complete : forall A (p : P A), still p -> still (complete p).
Proof.
  intros A p H s i s' r E QI. unfold complete in E. apply rbind_ok in E as ([s1 r1] & E1 & E). apply H in E1 as [L1 X1]; auto.
  inversion E; subst. split; auto. destruct r1; auto.
Qed.
Lemma still_alt : forall A (p q : P A), still p -> still q -> still (alt p q).
Proof.
  intros A p q H H2 s i s' r E QI. unfold alt in E. apply rbind_ok in E as ([s1 r1] & E1 & E). apply H in E1 as [L1 X1]; auto.
  destruct r1; [inversion E; subst; auto| |inversion E; subst; auto]. apply H2 in E as [L2 X2]; auto. split; auto. eapply same_trans; eauto.
Qed.
Lemma still_opt : forall A (p : P A), still p -> still (opt p).
Proof.
  intros A p H s i s' r E QI. unfold opt in E. apply rbind_ok in E as ([s1 r1] & E1 & E). apply H in E1 as [L1 X1]; auto.
  inversion E; subst. split; auto. destruct r1; auto. exists []. reflexivity.
Qed.
Lemma still_tag : forall t, still (tag t).
Proof.
  intros t s i s' r E QI. destruct r as [j a| |]; [|inversion E; subst; split; [reflexivity|exact I]..].
  apply tag_done in E as (-> & -> & ->). split; [reflexivity|]. exists t. reflexivity.
Qed.
Lemma still_re : forall re, still (re_find re).
Proof.
  intros re s i s' r E QI. destruct r as [j a| |]; [|inversion E; subst; split; [reflexivity|exact I]..].
  apply re_find_done in E as (-> & -> & _). split; [reflexivity|]. exists a. reflexivity.
Qed.
Lemma still_tw : forall f, still (take_while f).
Proof.
  intros f s i s' r E QI. assert (s' = s) by (eapply (pure_state (take_while f)); [pure_tac|exact E]). subst. split; [reflexivity|].
  destruct r as [j a| |]; auto. apply take_while_done in E as (_ & -> & _). exists a. reflexivity.
Qed.
Lemma still_tw1 : forall f, still (take_while1 f).
Proof.
  intros f s i s' r E QI. unfold take_while1 in E. destruct (span f i) as [a j] eqn:SP. inversion E; subst. split; [reflexivity|].
  destruct a; [exact I|]. exists (n :: a). apply span_spec in SP as [-> ->]. symmetry. apply take_drop.
Qed.
Lemma still_loop : forall A (p : P A), still p -> forall n, still (many_loop n p).
Proof.
  intros A p H. induction n; intros s i s' r E QI; [discriminate|]. cbn [many_loop] in E.
  destruct i as [|c i]; [inversion E; subst; split; [reflexivity|]; exists []; reflexivity|].
  apply rbind_ok in E as ([s1 r1] & E1 & E). apply H in E1 as [L1 X1]; auto.
  destruct r1 as [j a| |]; [|inversion E; subst; split; auto; exists []; reflexivity|inversion E; subst; auto].
  destruct (Nat.eqb _ _); [inversion E; subst; split; auto; exists []; reflexivity|].
  apply rbind_ok in E as ([s2 r2] & E2 & E). destruct X1 as (x & X1). rewrite X1 in QI. destruct (IHn _ _ _ _ E2 (QS _ _ QI)) as [L2 X2].
  inversion E; subst. split; [eapply same_trans; eauto|]. destruct r2; auto. destruct X2 as (y & ->). exists (x ++ y). rewrite X1, app_assoc. reflexivity.
Qed.
Lemma still_many0 : forall A (p : P A), still p -> still (many0 p).
Proof. intros A p H s i s' r E. eapply still_loop; eauto. Qed.
Lemma still_many1 : forall A (p : P A), still p -> still (many1 p).
Proof.
  intros A p H s i s' r E QI. unfold many1 in E. apply rbind_ok in E as ([s1 r1] & E1 & E). apply H in E1 as [L1 X1]; auto.
  destruct r1; try (inversion E; subst; auto; fail). destruct X1 as (x & ->). apply rbind_ok in E as ([s2 r2] & E2 & E).
  destruct (still_loop _ p H _ _ _ _ _ E2 (QS _ _ QI)) as [L2 X2]. inversion E; subst. split; [eapply same_trans; eauto|].
  destruct r2; auto. destruct X2 as (y & ->). exists (x ++ y). rewrite app_assoc. reflexivity.
Qed.
Lemma still_act : forall A (f : pst -> res (pst * A)), (forall s s' a, f s = Ok (s', a) -> same_line s s') -> still (act f).
Proof.
  intros A f H s i s' r E QI. unfold act in E. apply rbind_ok in E as ([s1 a] & E1 & E). inversion E; subst. split; [eauto|]. exists []. reflexivity.
Qed.
Ltac still_tac := repeat (match goal with
  | |- forall _, _ => intro
  | |- still (bind _ _) => apply still_bind
  | |- still (alt _ _) => apply still_alt
  | |- still (opt _) => apply still_opt
  | |- still (complete _) => apply still_complete
  | |- still (pmap _ _) => apply still_pmap
  | |- still (re_find _) => apply still_re
  | |- still (tag _) => apply still_tag
  | |- still (ret _) => apply still_ret
  | |- still (take_while _) => apply still_tw
  | |- still (take_while1 _) => apply still_tw1
  | |- still (many1 _) => apply still_many1
  | |- still (many0 _) => apply still_many0
  | |- still _ => assumption
  end).
Lemma still_ws : still ws.
Proof. unfold ws. still_tac. Qed.
Lemma still_key : still key_p.
Proof. unfold key_p, quoted_key, unquoted_key. still_tac; apply still_act; intros s s' x E; inversion E; subst; reflexivity. Qed.
Lemma still_cons : still comment_or_nls.
Proof.
  unfold comment_or_nls, comment_or_nl, comment_nl, comment, ws_newline. still_tac.
Qed.
Lemma still_sep : still array_sep.
Proof. unfold array_sep, ws. still_tac. Qed.
Lemma still_kvsep : still keyval_sep.
Proof. unfold keyval_sep, ws. still_tac. Qed.
Lemma still_boolean : still boolean.
Proof. unfold boolean. still_tac. Qed.
Lemma still_date_time : still date_time.
Proof.
  assert (DI : still date_time_internal) by (unfold date_time_internal, date_p, time_p, fractional, time_offset_p, time_offset_amount_p; still_tac).
  intros s i s' r E QI. unfold date_time in E. apply rbind_ok in E as ([s1 r1] & E1 & E). apply DI in E1 as [L1 X1]; auto.
  destruct r1; try (inversion E; subst; auto; fail). destruct (datetime_validate a); [inversion E; subst; auto|].
  apply rbind_ok in E as ([[x fk] pk] & _ & E). inversion E; subst. split; auto.
Qed.

(** without three quotes in a row values do not count lines either *)
Hypothesis QT : forall i, Q i -> ~ tripled i.
Lemma still_string : still string_p.
Proof.
  assert (ML : forall q a b n, (q = 34 \/ q = 39) -> still (pmap (x <-- re_find (RSeq (RStr [q;q;q]) (RSeq a b)) ;; act (fun s => Ok (add_lines (count_lines x) s, x))) (strip n))).
  { intros q a b n Hq s i s' r E QI. unfold pmap, bind, re_find in E. cbn [rbind] in E.
    destruct (re_match _ i) as [[m rest]|] eqn:M; cbn [rbind act ret] in E; [|inversion E; subst; split; [reflexivity|exact I]].
    exfalso. apply re_match_sound in M as (-> & L). apply lang_seq in L as (x & y & -> & L & _). apply lang_str in L. subst x.
    apply (QT _ QI). exists [], (y ++ rest), q. split; auto. }
  unfold string_p. repeat apply still_alt; apply still_pmap, still_complete.
  - apply (ML 39); auto.
  - apply (ML 34); auto.
  - unfold basic_string_p, raw_basic_string. still_tac.
  - unfold literal_string_p, raw_literal_string. still_tac.
Qed.
Section StillVal.
Variable pval : P cell.
Hypothesis PV : still pval.
Lemma still_array : still (array_ pval).
Proof using PV QS.
  intros s i s' r E QI. unfold array_ in E. apply rbind_ok in E as ([s1 r1] & E1 & E). inversion E; subst.
  assert (PA : still (array_internal_ pval)).
  { unfold array_internal_, array_values_, array_value_. still_tac; try apply still_cons; try apply still_sep. apply still_act. exact (same_value_act _ _ _). }
  apply PA in E1 as [L1 X1]; auto.
Qed.
Lemma still_keyval : still (keyval_p_ pval).
Proof using PV QS.
  unfold keyval_p_. still_tac; try apply still_key; try apply still_kvsep. apply still_act. exact (same_keyval_act _ _ _).
Qed.
Lemma still_inline : still (inline_table_ pval).
Proof using PV QS.
  unfold inline_table_, inline_table_keyvals_, table_keyval_p_, ws. still_tac; try apply still_keyval; try apply still_cons; try apply still_sep.
Qed.
Lemma still_pcell : forall A (p : P A) f, still p -> still (pcell p f).
Proof using QS. intros. unfold pcell. still_tac. apply still_act. intros s s' x E. inversion E; subst. reflexivity. Qed.
Lemma still_val_ : still (val_ pval).
Proof using PV QS QT.
  unfold val_. repeat apply still_alt; apply still_pcell; [apply still_array|apply still_inline|apply still_date_time|apply still_re|apply still_re|apply still_boolean|apply still_string].
Qed.
End StillVal.
Lemma still_val : forall f, still (val f).
Proof. induction f; cbn [val]; [intros s i s' r E; discriminate|apply still_val_; auto]. Qed.
Lemma still_keyval_p : still keyval_p.
Proof. apply still_keyval. intros s i s' r E. eapply still_val; eauto. Qed.
End Still.

(** ** Lines are counted at most once *)
Definition any (_ : str) : Prop := True.
Lemma any_s : forall x j : str, any (x ++ j) -> any j.
Proof. intros. exact I. Qed.
(** a parser counts at most the lines it reads, or those of the input if it fails *)
Definition atmost {A} (p : P A) : Prop := forall s i s' r, p s i = Ok (s', r) ->
  match r with Done j _ => s'.(p_line) + line_feeds j <= s.(p_line) + line_feeds i | _ => s'.(p_line) <= s.(p_line) + line_feeds i end.
Lemma atmost_bind : forall A B (p : P A) (f : A -> P B), atmost p -> (forall a, atmost (f a)) -> atmost (bind p f).
Proof.
  intros A B p f H H2 s i s' r E. unfold bind in E. apply rbind_ok in E as ([s1 r1] & E1 & E). apply H in E1.
  destruct r1; [|inversion E; subst; exact E1..]. apply H2 in E. destruct r; lia.
Qed.
Lemma still_atmost : forall A (p : P A), still any p -> atmost p.
Proof.
  intros A p H s i s' r E. destruct (H _ _ _ _ E I) as [L X]. unfold same_line in L. destruct r; [|lia..]. destruct X as (x & ->).
  rewrite line_feeds_app. lia.
Qed.
Section AtmostVal.
Variable pval : P cell.
Hypothesis PV : vcount pval.
Hypothesis RV : reads pval cell_src.
Hypothesis AV : atmost pval.
Lemma am_value : atmost (array_value_ pval).
Proof using AV.
  unfold array_value_. apply atmost_bind; auto. intros v.
  apply atmost_bind; [apply still_atmost, still_opt, still_complete, (still_sep any any_s)|]. intros sep.
  apply atmost_bind; [apply still_atmost, still_complete, (still_cons any any_s)|]. intros nls.
  apply still_atmost, still_act. exact (same_value_act _ _ _).
Qed.
Lemma am_keyval : atmost (keyval_p_ pval).
Proof using AV.
  unfold keyval_p_. apply atmost_bind; [apply still_atmost, (still_key any any_s)|]. intros k.
  apply atmost_bind; [apply still_atmost, (still_kvsep any any_s)|]. intros sep. apply atmost_bind; auto. intros v.
  apply still_atmost, still_act. exact (same_keyval_act _ _ _).
Qed.
Lemma am_tk : atmost (table_keyval_p_ pval).
Proof using AV.
  unfold table_keyval_p_. apply atmost_bind; [apply am_keyval|]. intros v.
  apply atmost_bind; [apply still_atmost, still_opt, still_complete, (still_sep any any_s)|]. intros sep.
  apply atmost_bind; [apply still_atmost, still_complete, (still_cons any any_s)|]. intros nls. apply still_atmost, still_ret.
Qed.
Lemma am_loop : forall A (p : P A), atmost p -> forall n s i s' r, many_loop n p s i = Ok (s', r) -> s'.(p_line) <= s.(p_line) + line_feeds i.
Proof.
  clear. intros A p H. induction n; intros s i s' r E; [discriminate|]. cbn [many_loop] in E.
  destruct i as [|c i]; [inversion E; subst; lia|]. apply rbind_ok in E as ([s1 r1] & E1 & E). pose proof (H _ _ _ _ E1) as L1.
  destruct r1 as [j a| |]; [|inversion E; subst; exact L1..]. destruct (Nat.eqb _ _) eqn:NB.
  - inversion E; subst. lia.
  - apply rbind_ok in E as ([s2 r2] & E2 & E). apply IHn in E2. inversion E; subst. lia.
Qed.
(** a parser of which nothing is known after some point *)
Definition upto {A} (p : P A) : Prop := forall s i s' r, p s i = Ok (s', r) -> s'.(p_line) <= s.(p_line) + line_feeds i.
Lemma upto_bind : forall A B (p : P A) (f : A -> P B), atmost p -> (forall a, upto (f a)) -> upto (bind p f).
Proof.
  clear. intros A B p f H H2 s i s' r E. unfold bind in E. apply rbind_ok in E as ([s1 r1] & E1 & E). apply H in E1.
  destruct r1; [|inversion E; subst; exact E1..]. apply H2 in E. lia.
Qed.
Lemma upto_last : forall A B (p : P A) (f : A -> P B), upto p -> (forall a, still any (f a)) -> upto (bind p f).
Proof.
  clear. intros A B p f H H2 s i s' r E. unfold bind in E. apply rbind_ok in E as ([s1 r1] & E1 & E). apply H in E1.
  destruct r1; [|inversion E; subst; exact E1..]. destruct (H2 _ _ _ _ _ E I) as [L _]. unfold same_line in L. lia.
Qed.
Lemma up_array : upto (array_ pval).
Proof using AV.
  intros s i s' r E. unfold array_ in E. apply rbind_ok in E as ([s1 r1] & E1 & E). inversion E; subst. clear E.
  assert (X : upto (array_internal_ pval)); [|apply X in E1; cbn in *; exact E1]. unfold array_internal_.
  apply upto_bind; [apply still_atmost, still_tag|]. intros _. apply upto_bind; [apply still_atmost, (still_cons any any_s)|]. intros n1.
  apply upto_last; [intros s0 i0 s0' r0; apply am_loop, am_value|]. intros vals.
  apply still_bind; [exact any_s|apply (still_cons any any_s)|]. intros n2. apply still_bind; [exact any_s|apply still_tag|]. intros _. apply still_ret.
Qed.
Lemma up_inline : upto (inline_table_ pval).
Proof using AV.
  unfold inline_table_. apply upto_bind; [apply still_atmost, still_tag|]. intros _. apply upto_bind; [apply still_atmost, (still_ws any)|]. intros w1.
  apply upto_last.
  - intros s i s' r E. unfold opt in E. apply rbind_ok in E as ([s1 r1] & E1 & E). inversion E; subst. clear E.
    unfold complete in E1. apply rbind_ok in E1 as ([s2 r2] & E2 & E1). inversion E1; subst. eapply am_loop; [apply am_tk|exact E2].
  - intros kvs. apply still_bind; [exact any_s|apply (still_ws any)|]. intros n2. apply still_bind; [exact any_s|apply still_tag|]. intros _. apply still_ret.
Qed.
Lemma up_pcell : forall A (p : P A) f, upto p -> upto (pcell p f).
Proof.
  clear. intros A p f H s i s' r E. unfold pcell in E. unfold bind in E. apply rbind_ok in E as ([s1 r1] & E1 & E).
  unfold complete in E1. apply rbind_ok in E1 as ([s2 r2] & E2 & E1). apply H in E2. inversion E1; subst.
  destruct r2; inversion E; subst; exact E2.
Qed.
Lemma am_val_ : atmost (val_ pval).
Proof using AV PV RV.
  intros s i s' r E. pose proof (vcount_val_ pval PV RV) as [VC VF]. destruct r as [j c| |].
  { pose proof (VC _ _ _ _ _ E) as L. apply (reads_val_ pval RV) in E. subst i. rewrite line_feeds_app. lia. }
  all: assert (U : s'.(p_line) <= s.(p_line) + line_feeds i); [|exact U].
  all: unfold val_, alt at 1 in E; apply rbind_ok in E as ([s1 r1] & E1 & E); pose proof (up_pcell _ _ (fun v => v) up_array _ _ _ _ E1) as L1.
  all: destruct r1; try (inversion E; subst; exact L1).
  all: unfold alt at 1 in E; apply rbind_ok in E as ([s2 r2] & E2 & E).
  all: assert (L2 : s2.(p_line) <= s.(p_line) + line_feeds i) by
    (destruct i as [|x i]; [rewrite arr_err in E1 by exact I; inversion E1; subst; exact (up_pcell _ _ (fun v => v) up_inline _ _ _ _ E2)|];
     destruct (N.eq_dec x 91) as [->|NX]; [rewrite inl_err in E2 by (cbn; lia); inversion E2; subst; exact L1|];
     rewrite arr_err in E1 by (cbn; auto); inversion E1; subst; exact (up_pcell _ _ (fun v => v) up_inline _ _ _ _ E2)).
  all: destruct r2; try (inversion E; subst; exact L2).
  all: apply counts_scalar in E; unfold same_line in E; rewrite E; exact L2.
Qed.
End AtmostVal.
Lemma am_val : forall f, atmost (val f).
Proof. induction f; cbn [val]; [intros s i s' r E; discriminate|]. apply am_val_; auto; [apply vcount_val|apply reads_val]. Qed.
Lemma am_keyval_p : atmost keyval_p.
Proof. apply am_keyval. intros s i s' r E. eapply am_val; eauto. Qed.

(** ** The lines of a document *)
Definition later (s s' : pst) : Prop := s.(p_line) <= s'.(p_line).
Lemma later_keyval : pres later keyval_p.
Proof.
  apply pres_keyval_p; unfold later; try (intros; cbn; lia).
  - intros s c s' H. apply same_insert in H. unfold same_line in H. lia.
Qed.
Definition settled (i : str) : Prop := starts_nested i -> ~ tripled i.
Definition extra (d : N) (r : str) : Prop := d <= line_feeds r /\ (settled r -> d = 0).
Lemma keyval_extra : forall s i s' r, keyval_p s i = Ok (s', r) -> (forall j kv, r <> Done j kv) -> exists d, s'.(p_line) = s.(p_line) + d /\ extra d i.
Proof.
  intros s i s' r H ND. pose proof (later_keyval _ _ _ _ H) as L. pose proof (am_keyval_p _ _ _ _ H) as A. unfold later in L.
  exists (p_line s' - p_line s). split; [lia|]. split; [destruct r; [destruct (ND rest a eq_refl)|lia..]|].
  intros ST. assert (X : same_line s s'); [|unfold same_line in X; lia].
  assert (NS : starts_nested i -> same_line s s').
  { intros SN. specialize (ST SN). eapply (still_keyval_p (fun x => ~ tripled x)); [|auto|exact H|exact ST].
    intros x j NT (a & b & q & -> & Q). apply NT. exists (x ++ a), b, q. split; auto. rewrite <- app_assoc. reflexivity. }
  clear ST A L. unfold keyval_p, keyval_p_ in H. unfold bind at 1 in H. apply rbind_ok in H as ([s1 r1] & E1 & H).
  pose proof (same_key _ _ _ _ E1) as L1. destruct r1 as [i1 k| |]; [|inversion H; subst; exact L1..].
  unfold bind at 1 in H. apply rbind_ok in H as ([s2 r2] & E2 & H).
  assert (s2 = s1) by (eapply (pure_state keyval_sep); [apply pure_kvsep|exact E2]). subst s2.
  destruct r2 as [i2 sep| |]; [|inversion H; subst; exact L1..].
  unfold bind at 1 in H. apply rbind_ok in H as ([s3 r3] & E3 & H).
  assert (HN : head_not 91 i2 /\ head_not 123 i2 \/ starts_nested i).
  { apply key_text in E1 as [-> NT]. unfold keyval_sep in E2. pinv.
    repeat match goal with H : ws _ _ = _ |- _ => apply ws_blanks in H as (? & ? & ?) end. subst.
    match goal with |- head_not _ ?j /\ _ \/ _ => destruct j as [|c x]; [left; split; exact I|] end.
    destruct (N.eq_dec c 91) as [->|N1]; [right; do 5 eexists; (split; [reflexivity|split; [exact NT|eauto 6]])|].
    destruct (N.eq_dec c 123) as [->|N2]; [right; do 5 eexists; (split; [reflexivity|split; [exact NT|eauto 6]])|]. left. cbn [head_not]. auto. }
  destruct HN as [HN|HN]; [|auto].
  apply (proj2 vcount_val_p) in E3; [|apply HN..]. destruct r3 as [i3 c| |]; [|inversion H; subst; eapply same_trans; eauto..].
  exfalso. unfold act in H. apply rbind_ok in H as ([s4 kv] & _ & H). inversion H. eapply ND. eauto.
Qed.
Lemma keyval_comment_extra : forall s i s' w j s0, complete keyval_comment s i = Ok (s', Error) -> ws s0 i = Ok (s0, Done j w) ->
  exists d, s'.(p_line) = s.(p_line) + d /\ extra d j.
Proof.
  intros s i s' w j s0 H W. unfold complete in H. apply rbind_ok in H as ([s1 r1] & E & H).
  assert (L : s1 = s' /\ (forall a b, r1 <> Done a b)). { inversion H; subst. split; auto. intros a b ->. discriminate. }
  destruct L as [-> ND]. clear H. unfold keyval_comment in E. unfold bind at 1 in E. rewrite ws_eq in W. inversion W; subst. rewrite ws_eq in E. cbn [rbind] in E.
  unfold bind at 1 in E. apply rbind_ok in E as ([s2 r2] & E2 & E). destruct r2 as [i2 kv| |].
  - exfalso. unfold bind at 1 in E. destruct (ws_done s2 i2) as (w2 & i3 & E3). rewrite E3 in E. cbn [rbind] in E.
    unfold bind at 1 in E. apply rbind_ok in E as ([s4 r4] & E4 & E). unfold opt in E4. apply rbind_ok in E4 as ([s5 r5] & E5 & E4).
    destruct r5; inversion E4; subst; cbn in E; inversion E; subst.
    + eapply ND. reflexivity.
    + eapply ND. reflexivity.
    + eapply complete_not_inc. eauto.
  - inversion E; subst. eapply keyval_extra; eauto. discriminate.
  - inversion E; subst. eapply keyval_extra; eauto. discriminate.
Qed.
Lemma extra_none : forall d r, extra d r -> ~ starts_nested r -> d = 0.
Proof. intros d r [_ X] NS. apply X. intros SN. destruct (NS SN). Qed.
Lemma extra_zero : forall r, extra 0 r.
Proof. split; [lia|auto]. Qed.

Lemma expr_extra : forall s i s' r e, expression_p s i = Ok (s', Done r e) ->
  exists d, s'.(p_line) + expr_lines e = s.(p_line) + line_feeds (ex_src e) + d /\ extra d r.
Proof.
  intros s i s' r e H. unfold expression_p in H. apply alt_done in H as [H|(s1 & E1 & H)].
  - exists 0. split; [|apply extra_zero]. apply complete_done in H. pose proof (table_comment_line _ _ _ _ H) as L. unfold table_comment in H.
    apply bind_done in H as (s1 & i1 & w1 & E1 & H). apply bind_done in H as (s2 & i2 & t & E2 & H).
    apply bind_done in H as (s3 & i3 & w2 & E3 & H). apply bind_done in H as (s4 & i4 & c & E4 & H). apply ret_done in H as (_ & _ & ->).
    apply ws_blanks in E1 as (_ & _ & E1). apply ws_blanks in E3 as (_ & _ & E3). apply table_lf in E2. apply opt_comment_lf in E4 as [_ E4].
    unfold expr_lines, ex_src. cbn [e_ws e_keyval e_table e_comment ws1 ws2]. rewrite !line_feeds_app, (ws_lf w1), (ws_lf w2) by auto.
    change (line_feeds []) with 0. unfold same_line in L. lia.
  - assert (L1 : same_line s s1). { eapply (pres_complete same_line); [exact table_comment_line|exact E1]. }
    clear E1. apply alt_done in H as [H|(s2 & E2 & H)].
    + exists 0. split; [|apply extra_zero]. apply complete_done in H. unfold keyval_comment in H.
      apply bind_done in H as (s2 & i1 & w1 & E1 & H). apply bind_done in H as (s3 & i2 & kv & E2 & H).
      apply bind_done in H as (s4 & i3 & w2 & E3 & H). apply bind_done in H as (s5 & i4 & c & E4 & H). apply ret_done in H as (-> & -> & ->).
      apply ws_blanks in E1 as (-> & _ & E1). apply ws_blanks in E3 as (-> & _ & E3). apply opt_comment_lf in E4 as [L2 E4].
      apply (keyval_count val_p vcount_val_p) in E2.
      unfold expr_lines, ex_src. cbn [e_ws e_keyval e_table e_comment ws1 ws2]. rewrite !line_feeds_app, (ws_lf w1), (ws_lf w2) by auto.
      change (line_feeds []) with 0. unfold same_line in *. lia.
    + apply alt_done in H as [H|(s3 & E3 & H)]; apply complete_done in H.
      * exists 0. split; [|apply extra_zero]. unfold ws_comment in H. apply bind_done in H as (s3 & i1 & w & E1 & H). apply bind_done in H as (s4 & i2 & c & E3 & H).
        apply ret_done in H as (-> & -> & ->). pose proof (ws_blanks _ _ _ _ _ E1) as (-> & _ & B).
        assert (L2 : same_line s1 s2).
        { eapply keyval_comment_fails; [exact E2|exact E1|]. apply reads_comment in E3. subst i1. apply plain_head. cbn. unfold bare_char. lia. }
        apply comment_lf in E3 as [-> E3]. unfold expr_lines, ex_src. cbn [e_ws e_keyval e_table e_comment ws1 ws2 com_src]. unfold show_comment.
        rewrite !line_feeds_app, (ws_lf w), E3 by auto. change (line_feeds []) with 0. change (line_feeds (lit "#")) with 0.
        unfold same_line in *. lia.
      * assert (s3 = s2). { eapply (pure_state (complete ws_comment)); [unfold ws_comment, comment, ws; pure_tac|exact E3]. }
        subst s3. unfold ws_expr in H. apply bind_done in H as (s3 & i1 & w & E1 & H). apply ret_done in H as (-> & -> & ->).
        pose proof (ws_blanks _ _ _ _ _ E1) as (-> & _ & B). destruct (keyval_comment_extra _ _ _ _ _ _ E2 E1) as (d & L2 & X).
        exists d. split; [|exact X]. unfold expr_lines, ex_src. cbn [e_ws e_keyval e_table e_comment ws1 ws2 com_src].
        rewrite !line_feeds_app, (ws_lf w) by auto. change (line_feeds []) with 0. unfold same_line in *. lia.
Qed.
Lemma doc_extra : forall n s i s' r l, many_loop n nl_expression_p s i = Ok (s', Done r l) ->
  (~ starts_nested i \/ i = r /\ l = [] /\ same_line s s') /\
  exists d, s'.(p_line) + total (map ne_lines l) = s.(p_line) + line_feeds (concat (map ne_src l)) + d /\ extra d r.
Proof.
  induction n; intros s i s' r l H; [discriminate|]. cbn [many_loop] in H.
  assert (Z : forall s s' (r : str) (l : list nl_expression), l = [] -> same_line s s' -> exists d, s'.(p_line) + total (map ne_lines l) = s.(p_line) + line_feeds (concat (map ne_src l)) + d /\ extra d r).
  { intros s0 s0' r0 l0 -> SL. exists 0. split; [unfold same_line in SL; cbn; lia|apply extra_zero]. }
  destruct i as [|c i]; [inversion H; subst; split; [right; split; auto; split; reflexivity|apply Z; reflexivity]|].
  apply rbind_ok in H as ([s1 r1] & E & H). unfold nl_expression_p in E at 1. unfold bind at 1 in E.
  apply rbind_ok in E as ([s2 r2] & E2 & E). pose proof (newline_count _ _ _ _ E2) as C2.
  destruct r2 as [i2 nl| |]; [|inversion E; subst; inversion H; subst; split; [right; split; auto; split; reflexivity|apply Z; reflexivity]|inversion E; subst; inversion H].
  destruct C2 as [C2 SN]. split; auto. apply newline_short in E2. unfold bind at 1 in E. apply rbind_ok in E as ([s3 r3] & E3 & E).
  destruct (expression_done _ _ _ _ E3) as (i3 & e & ->). inversion E; subst. clear E. pose proof (reads_expression _ _ _ _ _ E3) as RE.
  match type of H with (if ?b then _ else _) = _ => destruct b eqn:NB end.
  { exfalso. apply Nat.eqb_eq in NB. subst i2. rewrite app_length in E2. lia. }
  apply rbind_ok in H as ([s4 r4] & E4 & H). destruct r4; inversion H; subst. apply IHn in E4 as [SN3 (d4 & C4 & X4)].
  apply expr_extra in E3 as (d1 & E3 & X1). cbn [map concat]. unfold ne_src at 1. cbn [ne_nl ne_expr]. rewrite !line_feeds_app.
  change (ne_lines {| ne_nl := nl; ne_expr := e |}) with (expr_lines e). unfold total in *. cbn [fold_right].
  destruct SN3 as [SN3|(-> & -> & SL)].
  - apply extra_none in X1; auto. exists d4. split; [lia|exact X4].
  - exists d1. split; [|exact X1]. unfold same_line in SL. cbn [map fold_right concat line_feeds] in *. lia.
Qed.
Lemma reported_any : forall ovf i s r n, parse (new_parser ovf) i = Ok (s, r) -> reports r n ->
  exists pre, i = pre ++ s.(p_leftover) /\
    1 + line_feeds pre <= n + doc_layout_lines s.(p_root) <= 1 + line_feeds i /\
    ((starts_nested s.(p_leftover) -> ~ tripled s.(p_leftover)) -> n + doc_layout_lines s.(p_root) = 1 + line_feeds pre).
Proof.
  intros ovf i s r n H R. destruct (parse_inv _ _ _ _ H) as (s1 & rest & t & T & EI & -> & L).
  cbn [p_root p_leftover set_leftover set_root] in *. exists (toml_src t). split; auto.
  assert (X : exists d, p_line s1 + doc_layout_lines t = 1 + line_feeds (toml_src t) + d /\ extra d rest).
  { unfold toml_p in T. apply bind_done in T as (s2 & i1 & e & E1 & T). apply bind_done in T as (s3 & i2 & l & E2 & T).
    apply ret_done in T as (-> & -> & ->). apply doc_extra in E2 as [SN (d2 & C2 & X2)]. apply expr_extra in E1 as (d1 & C1 & X1). cbn [p_line new_parser] in C1.
    unfold doc_layout_lines, toml_src. cbn [map concat]. unfold ne_src at 1. cbn [ne_nl ne_expr]. rewrite !line_feeds_app. change (line_feeds []) with 0.
    unfold total in *. cbn [fold_right]. fold (expr_lines e). change (map (fun ne => _) l) with (map ne_lines l).
    destruct SN as [SN|(-> & -> & SL)].
    - apply extra_none in X1; auto. exists d2. split; [lia|exact X2].
    - exists d1. split; [|exact X1]. unfold same_line in SL. cbn [map fold_right concat line_feeds] in *. lia. }
  destruct X as (d & X & [X1 X2]).
  assert (n = p_line s1) by (destruct R as [(x & ->)|(x & e & ->)]; destruct rest; destruct (p_errors _); inversion L; auto). subst n.
  split.
  - subst i. rewrite line_feeds_app. lia.
  - intros ST. rewrite (X2 ST) in X. lia.
Qed.
