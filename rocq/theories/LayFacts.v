(** The layout of values: gaps and separators of the trees built by the parser,
    and texts that differ only in the scalars. *)
From Coq Require Import Lia ZifyBool ZifyNat ZifyN.
From Verif Require Import Str Regex Types Ast State Nom Keys Grammar Api Facts Spec ApiSpec DocSpec MixSpec GramSpec SessSpec.
From Verif Require Import RegexFacts NomFacts TypesFacts DateFacts CtorFacts NumFacts StringFacts ScalarFacts LineFacts.
From Verif Require Import RoundTrip ParseFacts WalkFacts IdFacts WriteFacts SetFacts ApiFacts PathFacts NestFacts SafeFacts GramFacts UpdateFacts RereadFacts.

(** ** Gaps *)
(** the text after the blanks, line ends and comments *)
Fixpoint skip (com : bool) (s : str) : str :=
  match s with
  | [] => []
  | c :: r => if com then skip (negb (c =? 10)) r
              else if (c =? 32) || (c =? 9) || (c =? 10) || (c =? 13) then skip false r
              else if c =? 35 then skip true r else s
  end.
Definition gapseq (g : str) : Prop := forall x, skip false (g ++ x) = skip false x.

Lemma gapseq_nil : gapseq [].
Proof. intros x. reflexivity. Qed.
Lemma gapseq_app : forall a b, gapseq a -> gapseq b -> gapseq (a ++ b).
Proof. intros a b A B x. rewrite <- app_assoc, A. apply B. Qed.
Lemma gapseq_char : forall c w, c = 32 \/ c = 9 \/ c = 10 \/ c = 13 -> gapseq w -> gapseq (c :: w).
Proof. intros c w C W x. cbn [app skip]. assert ((c =? 32) || (c =? 9) || (c =? 10) || (c =? 13) = true) as -> by lia. apply W. Qed.
Lemma blanks_gapseq : forall w, blanks w -> gapseq w.
Proof. intros w B. induction B as [|c w C B IH]; [apply gapseq_nil|apply gapseq_char; auto; lia]. Qed.
Lemma lines_gapseq : forall w, blank_lines w -> gapseq w.
Proof. intros w B. induction B as [|c w C B IH|w B IH]; [apply gapseq_nil|apply gapseq_char; auto; lia|]. do 2 (apply gapseq_char; [lia|]). auto. Qed.
Lemma skip_comment : forall c nl x, comment_text c -> line_end nl -> skip true (c ++ nl ++ x) = skip false x.
Proof.
  intros c nl x C L. induction C as [|a c A C IH].
  - destruct L as [->| ->]; reflexivity.
  - cbn [app skip]. assert ((a =? 10) = false) as -> by lia. exact IH.
Qed.
Lemma comment_gapseq : forall c nl, comment_text c -> line_end nl -> gapseq (lit "#" ++ c ++ nl).
Proof. intros c nl C L x. change (skip true ((c ++ nl) ++ x) = skip false x). rewrite <- app_assoc. apply skip_comment; auto. Qed.
Lemma gap_gapseq : forall g, gap g -> gapseq g.
Proof.
  intros g G. induction G as [w W|w c nl g W C L G IH]; [apply lines_gapseq; auto|].
  apply gapseq_app; [apply lines_gapseq; auto|]. change (gapseq (lit "#" ++ c ++ nl ++ g)).
  replace (lit "#" ++ c ++ nl ++ g) with ((lit "#" ++ c ++ nl) ++ g) by (rewrite <- !app_assoc; auto).
  apply gapseq_app; auto. apply comment_gapseq; auto.
Qed.
Lemma item_gapseq : forall x t, gap_item x t -> t = show_con x /\ gapseq t.
Proof.
  intros x t [w W|w c nl v W C L V].
  - split; auto. apply lines_gapseq; auto.
  - split.
    + cbn [show_con cn_pre cn_comment cn_newlines]. unfold show_comment. rewrite <- !app_assoc. auto.
    + replace (w ++ lit "#" ++ c ++ nl ++ v) with (w ++ (lit "#" ++ c ++ nl) ++ v) by (rewrite <- !app_assoc; auto).
      apply gapseq_app; [apply lines_gapseq; auto|]. apply gapseq_app; [apply (comment_gapseq c nl); auto|apply lines_gapseq; auto].
Qed.

Lemma skip_solid : forall x, solid x -> skip false x = x.
Proof.
  intros [|c x] S; auto. cbn [solid In] in S. cbn [skip].
  assert ((c =? 32) || (c =? 9) || (c =? 10) || (c =? 13) = false) as -> by lia. assert ((c =? 35) = false) as -> by lia. auto.
Qed.
Lemma cut_gap : forall a b x y, gapseq a -> gapseq b -> solid x -> solid y -> a ++ x = b ++ y -> a = b /\ x = y.
Proof.
  intros a b x y A B X Y E. assert (Q : x = y).
  { rewrite <- (skip_solid x X), <- (skip_solid y Y), <- (A x), <- (B y). congruence. }
  subst y. apply app_inv_tail in E. auto.
Qed.

(** ** Trees with proper gaps and separators *)
Definition sep_ok (o : option wssep) : Prop := match o with None => True | Some w => blanks w.(ws1) /\ blanks w.(ws2) end.
Definition all_of {A} (Q : A -> Prop) : list A -> Prop :=
  fix go l := match l with [] => True | x :: l' => Q x /\ go l' end.
Fixpoint neat (v : tval) : Prop :=
  match v with
  | TArray vals n1 n2 => gapseq (show_cons n1) /\ gapseq (show_cons n2) /\
      all_of (fun a : array_value => neat a.(av_val).(c_val) /\ sep_ok a.(av_sep) /\ gapseq (show_cons a.(av_nls))) vals
  | TInlineTable kvs w => blanks w.(ws1) /\ blanks w.(ws2) /\
      all_of (fun a : table_keyval => (neat a.(tk_kv).(kv_val).(c_val) /\ blanks a.(tk_kv).(kv_sep).(ws1) /\ blanks a.(tk_kv).(kv_sep).(ws2)) /\
        sep_ok a.(tk_sep) /\ gapseq (show_cons a.(tk_nls))) kvs
  | TTable => False
  | _ => True
  end.
Lemma all_of_forall : forall A (Q : A -> Prop) l, all_of Q l <-> Forall Q l.
Proof.
  intros A Q l. induction l as [|x l [I1 I2]]; cbn [all_of]; split; intros H; auto.
  - destruct H. constructor; auto.
  - inversion H; subst. auto.
Qed.
Lemma neat_leaf : forall v, scalar_value v -> neat (leaf_of v).
Proof. intros [] S; try destruct S; exact I. Qed.

(** ** The parser builds such trees *)
Lemma comma_tidy : forall s i s' r a, opt (complete array_sep) s i = Ok (s', Done r a) -> sep_ok a.
Proof.
  intros s i s' r a E. apply opt_done in E as [(x & -> & E)|(-> & -> & E)]; [|exact I].
  apply complete_done in E. unfold array_sep in E.
  apply bind_done in E as (s1 & i1 & w1 & E1 & E). apply ws_blanks in E1 as (_ & _ & B1).
  apply bind_done in E as (s2 & i2 & y & E2 & E).
  apply bind_done in E as (s3 & i3 & w2 & E3 & E). apply ws_blanks in E3 as (_ & _ & B2).
  apply ret_done in E as (_ & _ & ->). split; auto.
Qed.

Lemma many_nil : forall A (p : P A) n s i s' r, many_loop n p s i = Ok (s', Done r []) -> r = i.
Proof.
  intros A p n s i s' r E. destruct n; [discriminate|]. cbn [many_loop] in E. destruct i as [|c i]; [inversion E; auto|].
  apply rbind_ok in E as ([s1 r1] & E1 & E). destruct r1 as [i1 a| |]; try (inversion E; subst; auto; fail).
  destruct (Nat.eqb _ _); [inversion E; subst; auto|].
  apply rbind_ok in E as ([s2 r2] & E2 & E). destruct r2 as [i2 l2| |]; inversion E.
Qed.
Lemma many_cons : forall A (p : P A) n s i s' r a l, many_loop n p s i = Ok (s', Done r (a :: l)) ->
  exists n' s1 i1, p s i = Ok (s1, Done i1 a) /\ many_loop n' p s1 i1 = Ok (s', Done r l).
Proof.
  intros A p n s i s' r a l E. destruct n; [discriminate|]. cbn [many_loop] in E. destruct i as [|c i]; [inversion E; auto|].
  apply rbind_ok in E as ([s1 r1] & E1 & E). destruct r1 as [i1 b| |]; try (inversion E; subst; auto; fail).
  destruct (Nat.eqb _ _); [inversion E; subst; auto|].
  apply rbind_ok in E as ([s2 r2] & E2 & E). destruct r2 as [i2 l2| |]; inversion E; subst. eauto.
Qed.

Definition neat_av (a : array_value) : Prop := neat a.(av_val).(c_val) /\ sep_ok a.(av_sep) /\ gapseq (show_cons a.(av_nls)).
Definition neat_tk (a : table_keyval) : Prop :=
  (neat a.(tk_kv).(kv_val).(c_val) /\ blanks a.(tk_kv).(kv_sep).(ws1) /\ blanks a.(tk_kv).(kv_sep).(ws2)) /\
  sep_ok a.(tk_sep) /\ gapseq (show_cons a.(tk_nls)).
Definition to_pair (tk : table_keyval) : res (str * value) :=
  let? x := to_val tk.(tk_kv).(kv_val).(c_val) in Ok (tk.(tk_kv).(kv_key), x).

(** the separator after a value *)
Lemma tail_neat : forall y r s1 s2 s3 i1 i2 sep nls, tail_text y -> solid r -> head_not 44 r ->
  opt (complete array_sep) s1 (y ++ r) = Ok (s2, Done i1 sep) -> complete comment_or_nls s2 i1 = Ok (s3, Done i2 nls) ->
  sep_ok sep /\ gapseq (show_cons nls) /\ i2 = r.
Proof.
  intros y r s1 s2 s3 i1 i2 sep nls Y S H E1 E2. pose proof (comma_tidy _ _ _ _ _ E1) as SO.
  destruct (tail_ok y r s1 Y S H) as (sep' & nls' & y2 & F1 & F2 & SH & G). rewrite F1 in E1. inversion E1; subst.
  rewrite F2 in E2. inversion E2; subst. split; auto. split; auto. apply gap_gapseq; auto.
Qed.

Lemma val_array : forall pv s i s' r c l, val_ pv s i = Ok (s', Done r c) -> to_val c.(c_val) = Ok (VArray l) ->
  exists s1 s2, array_ pv s1 i = Ok (s2, Done r c.(c_val)).
Proof.
  intros pv s i s' r c l E T. unfold val_ in E.
  repeat match type of E with alt _ _ _ _ = _ => apply alt_done in E as [E|(? & _ & E)] end;
    unfold pcell in E; apply bind_done in E as (sa & ia & xa & E1 & E); apply act_done in E as (-> & E); inversion E; subst;
    apply complete_done in E1; cbn [new_cell c_val] in *; try (cbn [to_val] in T; discriminate T); eauto.
  - exfalso. unfold inline_table_ in E1. repeat (apply bind_done in E1 as (? & ? & ? & _ & E1)). apply ret_done in E1 as (_ & _ & ->).
    cbn [to_val] in T. apply rbind_ok in T as (? & _ & T). discriminate T.
  - exfalso. unfold string_p in E1. repeat match type of E1 with alt _ _ _ _ = _ => apply alt_done in E1 as [E1|(? & _ & E1)] end;
      apply pmap_done in E1 as (? & _ & ->); cbn [to_val] in T; discriminate T.
Qed.
Lemma val_inline : forall pv s i s' r c l, val_ pv s i = Ok (s', Done r c) -> to_val c.(c_val) = Ok (VInlineTable l) ->
  exists s1 s2, inline_table_ pv s1 i = Ok (s2, Done r c.(c_val)).
Proof.
  intros pv s i s' r c l E T. unfold val_ in E.
  repeat match type of E with alt _ _ _ _ = _ => apply alt_done in E as [E|(? & _ & E)] end;
    unfold pcell in E; apply bind_done in E as (sa & ia & xa & E1 & E); apply act_done in E as (-> & E); inversion E; subst;
    apply complete_done in E1; cbn [new_cell c_val] in *; try (cbn [to_val] in T; discriminate T); eauto.
  - exfalso. unfold array_ in E1. apply rbind_ok in E1 as ([s4 r4] & E1 & Q). inversion Q; subst r4.
    unfold array_internal_ in E1. repeat (apply bind_done in E1 as (? & ? & ? & _ & E1)). apply ret_done in E1 as (_ & _ & ->).
    cbn [to_val] in T. apply rbind_ok in T as (? & _ & T). discriminate T.
  - exfalso. unfold string_p in E1. repeat match type of E1 with alt _ _ _ _ = _ => apply alt_done in E1 as [E1|(? & _ & E1)] end;
      apply pmap_done in E1 as (? & _ & ->); cbn [to_val] in T; discriminate T.
Qed.

Lemma elems_writes : forall vs t, elems vs t -> welems vs t.
Proof. intros vs t E. induction E; constructor; auto; apply spells_writes; auto. Qed.
Lemma fields_writes : forall vs t, fields vs t -> wfields vs t.
Proof. intros vs t E. induction E; constructor; auto; apply spells_writes; auto. Qed.

Lemma elem_neat : forall f v t y r, (forall s r s' r' c, val f s (t ++ r) = Ok (s', Done r' c) -> to_val c.(c_val) = Ok v -> neat c.(c_val) /\ r' = r) ->
  tail_text y -> solid r -> head_not 44 r -> forall s s' r' av, array_value_ (val f) s (t ++ y ++ r) = Ok (s', Done r' av) ->
  to_val av.(av_val).(c_val) = Ok v -> neat_av av /\ r' = r.
Proof.
  intros f v t y r H Y S N s s' r' av E T. unfold array_value_ in E.
  apply bind_done in E as (s1 & i1 & c & E1 & E). apply bind_done in E as (s2 & i2 & sep & E2 & E).
  apply bind_done in E as (s3 & i3 & nls & E3 & E). apply act_done in E as (-> & E). apply array_value_act_same in E. subst av.
  cbn [av_val] in T. destruct (H _ _ _ _ _ E1 T) as [NC ->]. destruct (tail_neat _ _ _ _ _ _ _ _ _ Y S N E2 E3) as (A & B & ->).
  split; auto. split; auto.
Qed.
Lemma field_neat : forall f v k w1 w2 t y r, (forall s r s' r' c, val f s (t ++ r) = Ok (s', Done r' c) -> to_val c.(c_val) = Ok v -> neat c.(c_val) /\ r' = r) ->
  key_name k -> blanks w1 -> blanks w2 -> (forall r, no_blank (t ++ r)) ->
  tail_text y -> solid r -> head_not 44 r -> forall s s' r' tk, table_keyval_p_ (val f) s (k ++ w1 ++ lit "=" ++ w2 ++ t ++ y ++ r) = Ok (s', Done r' tk) ->
  to_pair tk = Ok (k, v) -> neat_tk tk /\ r' = r.
Proof.
  intros f v k w1 w2 t y r H K W1 W2 NB Y S N s s' r' tk E T. unfold table_keyval_p_ in E.
  apply bind_done in E as (s1 & i1 & kv & E1 & E). apply bind_done in E as (s2 & i2 & sep & E2 & E).
  apply bind_done in E as (s3 & i3 & nls & E3 & E). apply ret_done in E as (-> & -> & ->).
  unfold to_pair in T. cbn [tk_kv] in T. apply rbind_ok in T as (x & T & Q). inversion Q; subst x k. clear Q.
  unfold keyval_p_ in E1. apply bind_done in E1 as (t1 & j1 & k & F1 & E1). apply bind_done in E1 as (t2 & j2 & sp & F2 & E1).
  apply bind_done in E1 as (t3 & j3 & c & F3 & E1). apply act_done in E1 as (-> & E1). apply keyval_act_same in E1. subst kv.
  cbn [kv_key kv_val kv_sep] in *.
  assert (X : exists t1', key_p s (k ++ w1 ++ lit "=" ++ w2 ++ t ++ y ++ r) = Ok (t1', Done (w1 ++ lit "=" ++ w2 ++ t ++ y ++ r) k)).
  { eexists. apply key_p_bare; auto. apply (blanks_app_head (fun c => ~ bare_char c)); auto; unfold bare_char; simpl; lia. }
  destruct X as [t1' X]. rewrite X in F1. assert (j1 = w1 ++ lit "=" ++ w2 ++ t ++ y ++ r) as -> by congruence. clear F1 X.
  rewrite (keyval_sep_ok w1 w2 (t ++ y ++ r)) in F2 by auto. inversion F2; subst.
  destruct (H _ _ _ _ _ F3 T) as [NC ->]. destruct (tail_neat _ _ _ _ _ _ _ _ _ Y S N E2 E3) as (A & B & ->).
  split; auto. split; auto.
Qed.

Lemma spells_neat : forall v t, spells v t -> forall f s r s' r' c, val f s (t ++ r) = Ok (s', Done r' c) ->
  to_val c.(c_val) = Ok v -> neat c.(c_val) /\ r' = r.
Proof.
  apply (spells_mut
    (fun v t => forall f s r s' r' c, val f s (t ++ r) = Ok (s', Done r' c) -> to_val c.(c_val) = Ok v -> neat c.(c_val) /\ r' = r)
    (fun vs t => forall f n s r s' r' avs, many_loop n (array_value_ (val f)) s (t ++ lit "]" ++ r) = Ok (s', Done r' avs) ->
       rmap (fun av : array_value => to_val av.(av_val).(c_val)) avs = Ok vs -> Forall neat_av avs /\ r' = lit "]" ++ r)
    (fun kvs t => forall f n s r s' r' tks, many_loop n (table_keyval_p_ (val f)) s (t ++ lit "}" ++ r) = Ok (s', Done r' tks) ->
       rmap to_pair tks = Ok kvs -> Forall neat_tk tks /\ r' = lit "}" ++ r)).
  - intros v t S f s r s' r' c E T. pose proof (scalar_spelling _ _ S) as [-> SV]. pose proof (scalar_tval _ _ T SV) as L.
    apply reads_val in E. unfold cell_src in E. rewrite L, tsrc_leaf in E by auto. apply app_inv_head in E. rewrite L.
    split; auto. apply neat_leaf; auto.
  - intros vs g t G EL IH U f s r s' r' c E T. destruct f as [|f]; [discriminate|]. cbn [val] in E.
    destruct (val_array _ _ _ _ _ _ _ E T) as (s1 & s2 & A). clear E.
    unfold array_ in A. apply rbind_ok in A as ([s3 r3] & A & Q). assert (r3 = Done r' (c_val c)) as -> by congruence. clear Q.
    destruct (welems_head _ _ r (elems_writes _ _ EL)) as [SO _]. unfold array_internal_ in A. rewrite <- !app_assoc in A.
    apply bind_done in A as (s4 & i1 & x & E1 & A). apply tag_done in E1 as (_ & _ & E1). apply app_inv_head in E1. subst i1.
    apply bind_done in A as (s5 & i2 & n1 & E2 & A). destruct (gap_ok g _ s4 G SO) as (n1' & E2' & SH). rewrite E2' in E2. inversion E2; subst n1' s5 i2. clear E2 E2'.
    apply bind_done in A as (s6 & i3 & vals & E3 & A). unfold array_values_, many0 in E3.
    apply bind_done in A as (s7 & i4 & n2 & E4 & A). apply bind_done in A as (s8 & i5 & y & E5 & A). apply tag_done in E5 as (_ & _ & ->).
    apply ret_done in A as (_ & <- & EC). rewrite EC in T |- *. cbn [to_val] in T. apply rbind_ok in T as (l & T & Q). inversion Q; subst l. clear Q.
    destruct (IH _ _ _ _ _ _ _ E3 T) as [NV ->].
    destruct (gap_ok [] (lit "]" ++ r) s6 (G_ws [] BL_nil)) as (n2' & E4' & SH2); [simpl; lia|]. change ([] ++ lit "]" ++ r) with (lit "]" ++ r) in E4'.
rewrite E4' in E4. injection E4 as _ X4 ->. split; auto.
    cbn [neat]. rewrite SH, SH2, all_of_forall. split; [apply gap_gapseq; auto|]. split; [apply gapseq_nil|exact NV].
  - intros kvs w t W FL IH D f s r s' r' c E T. destruct f as [|f]; [discriminate|]. cbn [val] in E.
    destruct (val_inline _ _ _ _ _ _ _ E T) as (s1 & s2 & A). clear E.
    destruct (wfields_head _ _ r (fields_writes _ _ FL)) as (SO & _ & NB). unfold inline_table_ in A. rewrite <- !app_assoc in A.
    apply bind_done in A as (s4 & i1 & x & E1 & A). apply tag_done in E1 as (_ & _ & E1). apply app_inv_head in E1. subst i1.
    apply bind_done in A as (s5 & i2 & w1 & E2 & A). rewrite (ws_ok w _ s4 W NB) in E2. inversion E2; subst s5 i2 w1. clear E2.
    apply bind_done in A as (s6 & i3 & kvs0 & E3 & A).
    apply bind_done in A as (s7 & i4 & w2 & E4 & A). apply bind_done in A as (s8 & i5 & y & E5 & A). apply tag_done in E5 as (_ & _ & ->).
    apply ret_done in A as (_ & <- & EC). rewrite EC in T |- *. cbn [to_val] in T. apply rbind_ok in T as (l & T & Q). inversion Q; subst l. clear Q.
    fold to_pair in T.
    assert (X : Forall neat_tk (match kvs0 with Some l => l | None => [] end) /\ i3 = lit "}" ++ r).
    { apply opt_done in E3 as [(l & -> & E3)|(-> & -> & E3)].
      - apply complete_done in E3. unfold inline_table_keyvals_, many0 in E3. eapply IH; eauto.
      - cbn [rmap] in T. inversion T; subst. inversion FL; subst. split; auto. }
    destruct X as [NV ->]. assert (Q : ws s6 (lit "}" ++ r) = Ok (s6, Done (lit "}" ++ r) [])) by (apply (ws_ok []); [constructor|simpl; lia]).
    rewrite Q in E4. injection E4 as _ X4 <-.
    split; auto. cbn [neat ws1 ws2]. rewrite all_of_forall. split; auto. split; auto. constructor.
  - intros f n s r s' r' avs E T. destruct avs as [|av avs].
    + apply many_nil in E. auto.
    + apply rmap_cons in T as (a & b & _ & _ & T). discriminate.
  - intros v t g S IH G f n s r s' r' avs E T. destruct avs as [|av avs]; [discriminate|].
    apply rmap_cons in T as (a & b & T1 & T2 & T). inversion T; subst a b. clear T.
    apply many_cons in E as (n' & s1 & i1 & E1 & E2). rewrite <- app_assoc in E1.
    assert (H1 : solid (lit "]" ++ r)) by (simpl; lia). assert (H2 : head_not 44 (lit "]" ++ r)) by (simpl; lia).
    destruct (elem_neat f v t g (lit "]" ++ r) (IH f) (or_introl G) H1 H2 _ _ _ _ E1 T1) as [NA ->].
    destruct avs as [|av2 avs]; [|apply rmap_cons in T2 as (a & b & _ & _ & T2); discriminate].
    apply many_nil in E2. split; auto.
  - intros v t w g vs r0 S IH W G EL IHE f n s r s' r' avs E T. destruct avs as [|av avs]; [discriminate|].
    apply rmap_cons in T as (a & b & T1 & T2 & T). inversion T; subst a b. clear T.
    apply many_cons in E as (n' & s1 & i1 & E1 & E2).
    replace ((t ++ w ++ lit "," ++ g ++ r0) ++ lit "]" ++ r) with (t ++ (w ++ lit "," ++ g) ++ r0 ++ lit "]" ++ r) in E1 by (rewrite <- !app_assoc; auto).
    destruct (welems_head _ _ r (elems_writes _ _ EL)) as [SO HN].
    assert (TT : tail_text (w ++ lit "," ++ g)) by (right; eauto).
    destruct (elem_neat f v t (w ++ lit "," ++ g) (r0 ++ lit "]" ++ r) (IH f) TT SO HN _ _ _ _ E1 T1) as [NA ->].
    destruct (IHE _ _ _ _ _ _ _ E2 T2) as [NV ->]. auto.
  - intros f n s r s' r' avs E T. destruct avs as [|av avs].
    + apply many_nil in E. auto.
    + apply rmap_cons in T as (a & b & _ & _ & T). discriminate.
  - intros k w1 w2 v t g K W1 W2 S IH G f n s r s' r' avs E T. destruct avs as [|av avs]; [discriminate|].
    apply rmap_cons in T as (a & b & T1 & T2 & T). inversion T; subst a b. clear T.
    apply many_cons in E as (n' & s1 & i1 & E1 & E2). rewrite <- !app_assoc in E1.
    assert (NB : forall r, no_blank (t ++ r)).
    { intros x. apply spells_head in S. destruct (vhead_solid _ (vhead_app _ x S)) as (_ & _ & A & _). auto. }
    assert (H1 : solid (lit "}" ++ r)) by (simpl; lia). assert (H2 : head_not 44 (lit "}" ++ r)) by (simpl; lia).
    destruct (field_neat f v k w1 w2 t g (lit "}" ++ r) (IH f) K W1 W2 NB (or_introl G) H1 H2 _ _ _ _ E1 T1) as [NA ->].
    destruct avs as [|av2 avs]; [|apply rmap_cons in T2 as (a & b & _ & _ & T2); discriminate].
    apply many_nil in E2. split; auto.
  - intros k w1 w2 v t w g l r0 K W1 W2 S IH W G FL IHF f n s r s' r' avs E T. destruct avs as [|av avs]; [discriminate|].
    apply rmap_cons in T as (a & b & T1 & T2 & T). inversion T; subst a b. clear T.
    apply many_cons in E as (n' & s1 & i1 & E1 & E2).
    replace ((k ++ w1 ++ lit "=" ++ w2 ++ t ++ w ++ lit "," ++ g ++ r0) ++ lit "}" ++ r)
      with (k ++ w1 ++ lit "=" ++ w2 ++ t ++ (w ++ lit "," ++ g) ++ r0 ++ lit "}" ++ r) in E1 by (rewrite <- !app_assoc; auto).
    assert (NB : forall r, no_blank (t ++ r)).
    { intros x. apply spells_head in S. destruct (vhead_solid _ (vhead_app _ x S)) as (_ & _ & A & _). auto. }
    destruct (wfields_head _ _ r (fields_writes _ _ FL)) as (SO & HN & _).
    assert (TT : tail_text (w ++ lit "," ++ g)) by (right; eauto).
    destruct (field_neat f v k w1 w2 t (w ++ lit "," ++ g) (r0 ++ lit "}" ++ r) (IH f) K W1 W2 NB TT SO HN _ _ _ _ E1 T1) as [NA ->].
    destruct (IHF _ _ _ _ _ _ _ E2 T2) as [NV ->]. auto.
Qed.

(** ** Texts with the same layout *)
Scheme respells_mut := Minimality for respells Sort Prop
  with respells_elems_mut := Minimality for respells_elems Sort Prop
  with respells_fields_mut := Minimality for respells_fields Sort Prop.

Lemma tail_last : forall sep nls z g c r r', sep_ok sep -> gapseq (show_cons nls) -> gapseq z -> gapseq g -> c = 93 \/ c = 125 ->
  show_sep sep ++ show_cons nls ++ z ++ c :: r' = g ++ c :: r -> r' = r /\ show_sep sep ++ show_cons nls ++ z = g.
Proof.
  intros sep nls z g c r r' SO N Z G C E. assert (SC : forall x, solid (c :: x)) by (intros x; simpl; lia).
  destruct sep as [[w1 w2]|].
  - exfalso. cbn [show_sep ws1 ws2] in E. rewrite <- !app_assoc in E. destruct SO as [S1 _].
    apply (cut_gap w1 g (lit "," ++ w2 ++ show_cons nls ++ z ++ c :: r')) in E as [_ E]; [|apply blanks_gapseq; auto|auto|simpl; lia|auto].
    injection E as E _. simpl in E. lia.
  - cbn [show_sep app] in *. rewrite app_assoc in E. apply cut_gap in E as [E Q]; auto; [|apply gapseq_app; auto]. injection Q as ->. auto.
Qed.
Lemma tail_more : forall sep nls z x w Y, sep_ok sep -> gapseq (show_cons nls) -> gapseq z -> solid x -> head_not 44 x -> blanks w ->
  show_sep sep ++ show_cons nls ++ z ++ x = w ++ lit "," ++ Y ->
  exists ws2, sep = Some {| ws1 := w; ws2 := ws2 |} /\ blanks ws2 /\ (ws2 ++ show_cons nls) ++ z ++ x = Y.
Proof.
  intros sep nls z x w Y SO N Z SX HX W E. assert (SC : forall u, solid (lit "," ++ u)) by (intros u; simpl; lia).
  destruct sep as [[w1 w2]|].
  - destruct SO as [S1 S2]. cbn [show_sep ws1 ws2] in *. rewrite <- !app_assoc in E. apply cut_gap in E as [<- E]; auto using blanks_gapseq.
    apply app_inv_head in E. exists w2. rewrite <- app_assoc. auto.
  - exfalso. cbn [show_sep app] in E. rewrite app_assoc in E. apply cut_gap in E as [_ ->]; auto using blanks_gapseq, gapseq_app.
Qed.

Lemma respells_vhead : forall v t v' t', respells v t v' t' -> vhead t /\
  forall c, to_val c = Ok v -> vhead (tsrc c).
Proof.
  intros v t v' t' R. destruct R as [v t v' t' S R|vs g t vs' t' G R U|kvs w t kvs' t' W R U].
  - split; [eapply scalar_head; eauto|]. intros c T. pose proof (scalar_spelling _ _ S) as [-> SV].
    rewrite (scalar_tval _ _ T SV), tsrc_leaf by auto. eapply scalar_head; eauto.
  - split; [simpl; lia|]. intros c T. destruct c; cbn [to_val] in T; try discriminate T; [simpl; lia|].
    apply rbind_ok in T as (? & _ & T). discriminate T.
  - split; [simpl; lia|]. intros c T. destruct c; cbn [to_val] in T; try discriminate T; [|simpl; lia].
    apply rbind_ok in T as (? & _ & T). discriminate T.
Qed.
Lemma relems_head : forall vs t vs' t', respells_elems vs t vs' t' ->
  forall avs z r, rmap (fun av : array_value => to_val av.(av_val).(c_val)) avs = Ok vs -> gapseq z ->
  (solid (t ++ 93 :: r) /\ head_not 44 (t ++ 93 :: r)) /\
  exists z' x, concat (map av_src avs) ++ z ++ 93 :: r = z' ++ x /\ gapseq z' /\ solid x /\ head_not 44 x.
Proof.
  intros vs t vs' t' R avs z r T Z.
  assert (Q : forall v t v' t' x, respells v t v' t' -> (solid (t ++ x) /\ head_not 44 (t ++ x)) /\
    forall c, to_val c = Ok v -> solid (tsrc c ++ x) /\ head_not 44 (tsrc c ++ x)).
  { intros v0 t0 v0' t0' x R0. apply respells_vhead in R0 as [A B]. split.
    - destruct (vhead_solid _ (vhead_app _ x A)) as (? & ? & _); auto.
    - intros c T0. destruct (vhead_solid _ (vhead_app _ x (B c T0))) as (? & ? & _); auto. }
  destruct R as [|v t v' t' g R G|v t v' t' w g vs r0 vs' r0' R W G RS].
  - split; [simpl; lia|]. destruct avs as [|av avs]; [|apply rmap_cons in T as (a & b & _ & _ & T); discriminate].
    exists z, (93 :: r). split; auto. split; auto. simpl. lia.
  - split; [rewrite <- app_assoc; apply (Q _ _ _ _ _ R)|]. destruct avs as [|av avs]; [discriminate|].
    apply rmap_cons in T as (a & b & T1 & T2 & T). injection T as <- <-. cbn [map concat]. unfold av_src at 1, av_src_. rewrite <- !app_assoc.
    exists []. eexists. split; [reflexivity|]. split; [apply gapseq_nil|]. apply (Q _ _ _ _ _ R); auto.
  - split; [rewrite <- app_assoc; apply (Q _ _ _ _ _ R)|]. destruct avs as [|av avs]; [discriminate|].
    apply rmap_cons in T as (a & b & T1 & T2 & T). injection T as <- <-. cbn [map concat]. unfold av_src at 1, av_src_. rewrite <- !app_assoc.
    exists []. eexists. split; [reflexivity|]. split; [apply gapseq_nil|]. apply (Q _ _ _ _ _ R); auto.
Qed.
Lemma rfields_head : forall vs t vs' t', respells_fields vs t vs' t' ->
  forall avs z r, rmap to_pair avs = Ok vs -> gapseq z ->
  (solid (t ++ 125 :: r) /\ head_not 44 (t ++ 125 :: r)) /\
  exists z' x, concat (map tk_src avs) ++ z ++ 125 :: r = z' ++ x /\ gapseq z' /\ solid x /\ head_not 44 x.
Proof.
  intros vs t vs' t' R avs z r T Z.
  assert (Q : forall k x, key_name k -> solid (k ++ x) /\ head_not 44 (k ++ x)).
  { intros k x B. apply key_head in B as (c & u & -> & C). unfold bare_char in C. simpl. lia. }
  destruct R as [|k w1 w2 v t v' t' g K W1 W2 R G|k w1 w2 v t v' t' w g vs r0 vs' r0' K W1 W2 R W G RS].
  - split; [simpl; lia|]. destruct avs as [|av avs]; [|apply rmap_cons in T as (a & b & _ & _ & T); discriminate].
    exists z, (125 :: r). split; auto. split; auto. simpl. lia.
  - split; [rewrite <- app_assoc; auto|]. destruct avs as [|av avs]; [discriminate|].
    apply rmap_cons in T as (a & b & T1 & T2 & T). injection T as <- <-. cbn [map concat]. unfold tk_src at 1, tk_src_, sep_src. rewrite <- !app_assoc.
    unfold to_pair in T1. apply rbind_ok in T1 as (y & T1 & T3). injection T3 as -> ->.
    exists []. eexists. split; [reflexivity|]. split; [apply gapseq_nil|]. auto.
  - split; [rewrite <- app_assoc; auto|]. destruct avs as [|av avs]; [discriminate|].
    apply rmap_cons in T as (a & b & T1 & T2 & T). injection T as <- <-. cbn [map concat]. unfold tk_src at 1, tk_src_, sep_src. rewrite <- !app_assoc.
    unfold to_pair in T1. apply rbind_ok in T1 as (y & T1 & T3). injection T3 as -> ->.
    exists []. eexists. split; [reflexivity|]. split; [apply gapseq_nil|]. auto.
Qed.

Lemma respell_fill : forall v t v' t', respells v t v' t' ->
  forall c r r', neat c -> to_val c = Ok v -> tsrc c ++ r' = t ++ r ->
  r' = r /\ tsrc (fill c v') = t' /\ neat (fill c v').
Proof.
  apply (respells_mut
    (fun v t v' t' => forall c r r', neat c -> to_val c = Ok v -> tsrc c ++ r' = t ++ r -> r' = r /\ tsrc (fill c v') = t' /\ neat (fill c v'))
    (fun vs t vs' t' => forall avs y z g r r', Forall neat_av avs -> rmap (fun av : array_value => to_val av.(av_val).(c_val)) avs = Ok vs ->
       gapseq y -> gapseq z -> gapseq g -> y ++ concat (map av_src avs) ++ z ++ 93 :: r' = g ++ t ++ 93 :: r ->
       r' = r /\ y ++ concat (map av_src (zip_fill fill avs vs')) ++ z = g ++ t' /\ Forall neat_av (zip_fill fill avs vs'))
    (fun vs t vs' t' => forall avs y z g r r', Forall neat_tk avs -> rmap to_pair avs = Ok vs ->
       gapseq y -> gapseq z -> gapseq g -> y ++ concat (map tk_src avs) ++ z ++ 125 :: r' = g ++ t ++ 125 :: r ->
       r' = r /\ y ++ concat (map tk_src (zip_fill2 fill avs vs')) ++ z = g ++ t' /\ Forall neat_tk (zip_fill2 fill avs vs'))).
  - intros v t v' t' S R c r r' N T E. pose proof (scalar_spelling _ _ S) as [-> SV]. pose proof (scalar_spelling _ _ R) as [-> SV']. pose proof (scalar_tval _ _ T SV) as ->.
    rewrite tsrc_leaf in E by auto. apply app_inv_head in E. rewrite fill_scalar by apply scalar_leaf.
    split; auto. split; [apply tsrc_leaf|apply neat_leaf]; auto.
  - intros vs g t vs' t' G RE IH U c r r' N T E. destruct c as [| | | |avs n1 n2| |kvs w|]; cbn [to_val] in T; try discriminate T;
      apply rbind_ok in T as (l & T & Q); [|discriminate Q]. injection Q as ->.
    cbn [neat] in N. rewrite all_of_forall in N. destruct N as (N1 & N2 & N3). cbn [tsrc] in E. fold av_src in E. rewrite <- !app_assoc in E.
    apply app_inv_head in E. destruct (IH avs _ _ _ _ _ N3 T N1 N2 (gap_gapseq _ G) E) as (A & B & C). split; auto.
    cbn [fill tsrc neat]. fold av_src. rewrite all_of_forall. split; auto. f_equal. rewrite !app_assoc in *. congruence.
  - intros vs g t vs' t' G RE IH U c r r' N T E. destruct c as [| | | |avs n1 n2| |avs [n1 n2]|]; cbn [to_val] in T; try discriminate T;
      apply rbind_ok in T as (l & T & Q); [discriminate Q|]. injection Q as ->. fold to_pair in T.
    cbn [neat ws1 ws2] in N. rewrite all_of_forall in N. destruct N as (N1 & N2 & N3). cbn [tsrc ws1 ws2] in E. fold tk_src in E. rewrite <- !app_assoc in E.
    apply app_inv_head in E.
    destruct (IH avs _ _ _ _ _ N3 T (blanks_gapseq _ N1) (blanks_gapseq _ N2) (blanks_gapseq _ G) E) as (A & B & C). split; auto.
    cbn [fill tsrc neat ws1 ws2]. fold tk_src. rewrite all_of_forall. split; auto. f_equal. rewrite !app_assoc in *. congruence.
  - intros avs y z g r r' N T Y Z G E. destruct avs as [|av avs]; [|apply rmap_cons in T as (a & b & _ & _ & T); discriminate].
    cbn [map concat app zip_fill] in *. rewrite app_assoc in E. apply cut_gap in E as [E Q]; [|apply gapseq_app; auto|auto|simpl; lia|simpl; lia].
    injection Q as ->. rewrite app_nil_r. auto.
  - intros v t v' t' g0 R IH G0 avs y z g r r' N T Y Z G E. destruct avs as [|av avs]; [discriminate|].
    apply rmap_cons in T as (a & b & T1 & T2 & T). injection T as <- <-.
    destruct avs as [|av2 avs]; [|apply rmap_cons in T2 as (a & b & _ & _ & T2); discriminate].
    destruct (respells_vhead _ _ _ _ R) as [VH1 VH2]. specialize (VH2 _ T1).
    inversion N as [|? ? (NA & SA & GA) _]; subst. destruct av as [[ai at_] sep nls]. cbn [av_val av_sep av_nls c_val] in *.
    cbn [map concat zip_fill] in *. unfold av_src, av_src_ in *. cbn [av_val av_sep av_nls c_val c_id] in *. rewrite app_nil_r in *.
    rewrite <- !app_assoc in E. apply cut_gap in E as [-> E]; auto; [|apply vhead_solid, vhead_app; auto|apply vhead_solid, vhead_app; auto].
    apply IH in E as (E & E1 & E2); auto. rewrite E1. 
    apply tail_last in E as (-> & <-); auto using gap_gapseq. split; auto. split; [rewrite <- !app_assoc; auto|].
    constructor; auto. split; auto.
  - intros v t v' t' w g0 vs r0 vs' r0' R IH W G0 RE IHE avs y z g r r' N T Y Z G E. destruct avs as [|av avs]; [discriminate|].
    apply rmap_cons in T as (a & b & T1 & T2 & T). injection T as <- <-.
    destruct (respells_vhead _ _ _ _ R) as [VH1 VH2]. specialize (VH2 _ T1).
    inversion N as [|? ? (NA & SA & GA) N2]; subst. destruct av as [[ai at_] sep nls]. cbn [av_val av_sep av_nls c_val] in *.
    cbn [map concat zip_fill] in *. unfold av_src at 1, av_src_ in E. unfold av_src at 1, av_src_. cbn [av_val av_sep av_nls c_val c_id] in *.
    rewrite <- !app_assoc in E. apply cut_gap in E as [-> E]; auto; [|apply vhead_solid, vhead_app; auto|apply vhead_solid, vhead_app; auto].
    apply IH in E as (E & E1 & E2); auto. rewrite E1.
    destruct (relems_head _ _ _ _ RE avs z r' T2 Z) as [_ (z' & x & X1 & X2 & X3 & X4)]. rewrite X1 in E.
    apply tail_more in E as (ws2 & -> & B2 & E); auto. rewrite <- X1 in E.
    apply IHE in E as (-> & E3 & E4); auto using gap_gapseq, gapseq_app, blanks_gapseq.
    split; auto. split; [|constructor; auto; split; auto].
    cbn [show_sep Ast.ws1 Ast.ws2]. rewrite <- !app_assoc in *. rewrite E3. auto.
  - intros avs y z g r r' N T Y Z G E. destruct avs as [|av avs]; [|apply rmap_cons in T as (a & b & _ & _ & T); discriminate].
    cbn [map concat app zip_fill2] in *. rewrite app_assoc in E. apply cut_gap in E as [E Q]; [|apply gapseq_app; auto|auto|simpl; lia|simpl; lia].
    injection Q as ->. rewrite app_nil_r. auto.
  - intros k w1 w2 v t v' t' g0 K W1 W2 R IH G0 avs y z g r r' N T Y Z G E. destruct avs as [|av avs]; [discriminate|].
    apply rmap_cons in T as (a & b & T1 & T2 & T). injection T as <- <-.
    destruct avs as [|av2 avs]; [|apply rmap_cons in T2 as (a & b & _ & _ & T2); discriminate].
    unfold to_pair in T1. apply rbind_ok in T1 as (u & T1 & T3). injection T3 as KK ->.
    destruct (respells_vhead _ _ _ _ R) as [VH1 VH2]. specialize (VH2 _ T1).
    pose proof (Forall_inv N) as ((NA & B1 & B2) & SA & GA). pose proof (Forall_inv_tail N) as N2. destruct av as [[k0 [x1 x2] [ai at_]] sep nls].
    cbn [tk_kv tk_sep tk_nls kv_key kv_sep kv_val ws1 ws2 c_val c_id] in *. subst k0.
    assert (KS : forall x, solid (k ++ x)). { intros x. apply key_head in K as (c & u' & -> & C). unfold bare_char in C. simpl. lia. }
    cbn [map concat zip_fill2 snd] in *. unfold tk_src, tk_src_, sep_src in *. cbn [tk_kv tk_sep tk_nls kv_key kv_sep kv_val ws1 ws2 c_val c_id] in *. rewrite app_nil_r in *.
    rewrite <- !app_assoc in E. apply cut_gap in E as [-> E]; auto. apply app_inv_head in E.
    apply cut_gap in E as [-> E]; auto using blanks_gapseq; try (simpl; lia). apply app_inv_head in E.
    apply cut_gap in E as [-> E]; auto using blanks_gapseq; [|apply vhead_solid, vhead_app; auto|apply vhead_solid, vhead_app; auto].
    apply IH in E as (E & E1 & E2); auto. rewrite E1. 
    apply tail_last in E as (-> & <-); auto using gap_gapseq. split; auto. split; [rewrite <- !app_assoc; auto|].
    constructor; auto. split; auto.
  - intros k w1 w2 v t v' t' w g0 vs r0 vs' r0' K W1 W2 R IH W G0 RE IHE avs y z g r r' N T Y Z G E. destruct avs as [|av avs]; [discriminate|].
    apply rmap_cons in T as (a & b & T1 & T2 & T). injection T as <- <-.
    unfold to_pair in T1. apply rbind_ok in T1 as (u & T1 & T3). injection T3 as KK ->.
    destruct (respells_vhead _ _ _ _ R) as [VH1 VH2]. specialize (VH2 _ T1).
    pose proof (Forall_inv N) as ((NA & B1 & B2) & SA & GA). pose proof (Forall_inv_tail N) as N2. destruct av as [[k0 [x1 x2] [ai at_]] sep nls].
    cbn [tk_kv tk_sep tk_nls kv_key kv_sep kv_val ws1 ws2 c_val c_id] in *. subst k0.
    assert (KS : forall x, solid (k ++ x)). { intros x. apply key_head in K as (c & u' & -> & C). unfold bare_char in C. simpl. lia. }
    cbn [map concat zip_fill2 snd] in *. unfold tk_src at 1, tk_src_, sep_src in E. unfold tk_src at 1, tk_src_, sep_src.
    cbn [tk_kv tk_sep tk_nls kv_key kv_sep kv_val ws1 ws2 c_val c_id] in *.
    rewrite <- !app_assoc in E. apply cut_gap in E as [-> E]; auto. apply app_inv_head in E.
    apply cut_gap in E as [-> E]; auto using blanks_gapseq; try (simpl; lia). apply app_inv_head in E.
    apply cut_gap in E as [-> E]; auto using blanks_gapseq; [|apply vhead_solid, vhead_app; auto|apply vhead_solid, vhead_app; auto].
    apply IH in E as (E & E1 & E2); auto. rewrite E1.
    destruct (rfields_head _ _ _ _ RE avs z r' T2 Z) as [_ (z' & x & X1 & X2 & X3 & X4)]. rewrite X1 in E.
    apply tail_more in E as (ws2 & -> & B3 & E); auto. rewrite <- X1 in E.
    apply IHE in E as (-> & E3 & E4); auto using gap_gapseq, gapseq_app, blanks_gapseq.
    split; auto. split; [|constructor; auto; split; auto].
    cbn [show_sep Ast.ws1 Ast.ws2]. rewrite <- !app_assoc in *. rewrite E3. auto.
Qed.

Lemma respells_spells : forall v t v' t', respells v t v' t' -> spells v' t'.
Proof.
  apply (respells_mut (fun v t v' t' => spells v' t') (fun vs t vs' t' => elems vs' t') (fun vs t vs' t' => fields vs' t'));
    intros; try (constructor; auto; fail).
Qed.
Lemma respells_shape : forall v t v' t', respells v t v' t' -> same_shape v v'.
Proof.
  apply (respells_mut (fun v t v' t' => same_shape v v') (fun vs t vs' t' => Forall2 same_shape vs vs')
    (fun vs t vs' t' => Forall2 (fun x y => fst x = fst y /\ same_shape (snd x) (snd y)) vs vs')); intros; try (constructor; auto; fail).
  - apply SS_scalar; eapply scalar_spelling; eauto.
Qed.
Lemma scalar_all_valid : forall v t, scalar v t -> all_valid v.
Proof.
  intros v t S x I. pose proof (scalar_spelling _ _ S) as [-> SV]. rewrite scalar_leaves in I by auto. destruct I as [<-|[]].
  eapply scalar_validate; eauto.
Qed.
Lemma respells_valid : forall v t v' t', respells v t v' t' -> all_valid v'.
Proof.
  apply (respells_mut (fun v t v' t' => all_valid v') (fun vs t vs' t' => forall x, In x vs' -> all_valid x)
    (fun vs t vs' t' => forall x, In x vs' -> all_valid (snd x))).
  - intros v t v' t' _ S. eapply scalar_all_valid; eauto.
  - intros vs g t vs' t' _ _ IH _ x I. cbn [leaves] in I. apply in_flat_map in I as (y & I & J). exact (IH y I x J).
  - intros vs g t vs' t' _ _ IH _ x I. cbn [leaves] in I. apply in_flat_map in I as (y & I & J). exact (IH y I x J).
  - intros x [].
  - intros v t v' t' g _ IH _ x [<-|[]]. auto.
  - intros v t v' t' w g vs r vs' r' _ IH _ _ _ IH2 x [<-|I]; auto.
  - intros x [].
  - intros k w1 w2 v t v' t' g _ _ _ _ IH _ x [<-|[]]. auto.
  - intros k w1 w2 v t v' t' w g vs r vs' r' _ _ _ _ IH _ _ _ IH2 x [<-|I]; auto.
Qed.
Lemma respells_filled : forall v t v' t', respells v t v' t' -> DocSpec.filled v -> DocSpec.filled v'.
Proof.
  apply (respells_mut (fun v t v' t' => DocSpec.filled v -> DocSpec.filled v') (fun vs t vs' t' => all_of DocSpec.filled vs -> all_of DocSpec.filled vs')
    (fun vs t vs' t' => (vs = [] <-> vs' = []) /\ (all_of (fun x => DocSpec.filled (snd x)) vs -> all_of (fun x => DocSpec.filled (snd x)) vs'))).
  - intros v t v' t' _ S _. apply scalar_spelling in S as [_ S]. destruct v'; try destruct S; exact I.
  - intros vs g t vs' t' _ _ IH _. exact IH.
  - intros vs g t vs' t' _ _ [IH1 IH2] _ [A B]. split; [intros ->; tauto|]. exact (IH2 B).
  - auto.
  - intros v t v' t' g _ IH _ [A _]. split; [exact (IH A)|exact I].
  - intros v t v' t' w g vs r vs' r' _ IH _ _ _ IH2 [A B]. split; [exact (IH A)|exact (IH2 B)].
  - split; [tauto|auto].
  - intros k w1 w2 v t v' t' g _ _ _ _ IH _. split; [split; discriminate|]. intros [A _]. split; [exact (IH A)|exact I].
  - intros k w1 w2 v t v' t' w g vs r vs' r' _ _ _ _ IH _ _ _ [_ IH2]. split; [split; discriminate|]. intros [A B]. split; [exact (IH A)|exact (IH2 B)].
Qed.

(** ** Values at a path *)
Lemma nth_put : forall f l i x, nth_error l i = Some x -> nth_error (put_nth f i l) i = Some (f x).
Proof. induction l as [|y l IH]; intros [|i] x E; try discriminate; cbn [put_nth nth_error] in *; [congruence|auto]. Qed.
Lemma first_put : forall f k l x, first_value k l = Some x -> first_value k (put_key f k l) = Some (f x).
Proof.
  induction l as [|[k' y] l IH]; intros x E; [discriminate|]. cbn [put_key first_value] in *.
  destruct (same_key k k') eqn:Q; cbn [first_value]; rewrite Q; [congruence|auto].
Qed.
Lemma at_put : forall p u v x, at_path v p = Some x -> at_path (put_at p u v) p = Some u.
Proof.
  induction p as [|[i|k] p IH]; intros u v x E; cbn [at_path put_at] in *; auto; destruct v; try discriminate E; cbn [at_path].
  - destruct (nth_error l (N.to_nat i)) as [y|] eqn:Q; [|discriminate]. rewrite (nth_put _ _ _ _ Q). eauto.
  - destruct (first_value k l) as [y|] eqn:Q; [|discriminate]. rewrite (first_put _ _ _ _ Q). eauto.
Qed.
Lemma shape_at : forall p v v', same_shape v v' ->
  match at_path v p, at_path v' p with Some x, Some x' => same_shape x x' | None, None => True | _, _ => False end.
Proof.
  induction p as [|[i|k] p IH]; intros v v' S; cbn [at_path]; auto; destruct S as [a b A B|l l' F|l l' F]; try (destruct a, b; try destruct A; try destruct B; exact I); auto.
  - generalize (N.to_nat i). intros n. revert n. induction F as [|x y l l' X F IHF]; intros [|n]; cbn [nth_error]; [exact I|exact I|apply IH; auto|apply IHF].
  - induction F as [|[kx x] [ky y] l l' [X Y] F IHF]; cbn [first_value]; auto. cbn [fst snd] in *. subst ky.
    destruct (same_key k kx); [apply IH; auto|auto].
Qed.
Lemma shape_kids : forall v v', same_shape v v' -> kids_of v = kids_of v'.
Proof.
  intros v v' S. destruct S as [a b A B|l l' F|l l' F]; cbn [kids_of].
  - destruct a, b; try destruct A; try destruct B; reflexivity.
  - f_equal. f_equal. induction F; cbn [length]; auto.
  - f_equal. induction F as [|x y l l' [X _] F IH]; cbn [map]; auto. congruence.
Qed.
Lemma leaves_at : forall p v x y, at_path v p = Some x -> In y (leaves x) -> In y (leaves v).
Proof.
  induction p as [|[i|k] p IH]; intros v x y E I; cbn [at_path] in E; [congruence| |]; destruct v; try discriminate E; cbn [leaves]; apply in_flat_map.
  - destruct (nth_error l (N.to_nat i)) as [z|] eqn:Q; [|discriminate]. exists z. split; [eapply nth_error_In; eauto|eauto].
  - destruct (first_value k l) as [z|] eqn:Q; [|discriminate].
    assert (J : exists k', In (k', z) l).
    { clear - Q. induction l as [|[k' w] l IHl]; [discriminate|]. cbn [first_value] in Q. destruct (same_key k k').
      - injection Q as ->. exists k'. left; auto.
      - destruct (IHl Q) as [k2 J]. exists k2. right; auto. }
    destruct J as [k' J]. exists (k', z). split; [auto|]. cbn [snd]. eauto.
Qed.

(** ** Cells at a path *)
Lemma fill_own : forall t v, to_val t = Ok v -> fill t v = t.
Proof.
  induction t using tval_ind'; intros v E; cbn [to_val] in E; try (inversion E; subst; reflexivity).
  - apply rbind_ok in E as (l & R & E). injection E as <-. cbn [fill]. f_equal.
    revert l R. induction H as [|[[ai at_] sp nls] xs P Q IH]; intros l R; [inversion R; subst; reflexivity|]. apply rmap_cons in R as (a & b & E & R & ->).
    cbn [zip_fill av_val av_sep av_nls c_val c_id] in *. rewrite (P _ E). f_equal. apply IH; auto.
  - apply rbind_ok in E as (l & R & E). injection E as <-. cbn [fill]. f_equal.
    revert l R. induction H as [|[[k ks [ai at_]] sp nls] xs P Q IH]; intros l R; [inversion R; subst; reflexivity|]. apply rmap_cons in R as (a & b & E & R & ->).
    cbn [zip_fill2 tk_kv kv_key kv_sep kv_val tk_sep tk_nls c_val c_id] in *. apply rbind_ok in E as (y & E & E2). injection E2 as <-. cbn [snd].
    rewrite (P _ E). f_equal. apply IH; auto.
Qed.

Lemma tat_place : forall p c0 y v, tat c0 p = Some y -> to_val c0.(c_val) = Ok v ->
  exists F a b pre post, cell_place F a b pre post /\ F y = c0 /\
    forall u, F (Cell y.(c_id) (fill y.(c_val) u)) = Cell c0.(c_id) (fill c0.(c_val) (put_at p u v)).
Proof.
  induction p as [|[i|k] p IH]; intros c0 y v E T; cbn [tat] in E.
  - injection E as <-. exists (fun c => c), [], [], [], []. split; [apply place_self|]. split; auto.
  - destruct c0 as [ci ct]. cbn [c_val c_id] in *. destruct ct as [| | | |vals n1 n2| | |]; try discriminate E.
    destruct (nth_error vals (N.to_nat i)) as [av|] eqn:Q; [|discriminate]. cbn [to_val] in T. apply rbind_ok in T as (l & T & T2). injection T2 as <-.
    assert (X : exists l1 l2 a1 x a2, vals = l1 ++ av :: l2 /\ l = a1 ++ x :: a2 /\ to_val av.(av_val).(c_val) = Ok x /\
      (forall f, put_nth f (N.to_nat i) l = a1 ++ f x :: a2) /\
      forall z, zip_fill fill vals (a1 ++ z :: a2) = l1 ++ ArrayValue (Cell av.(av_val).(c_id) (fill av.(av_val).(c_val) z)) av.(av_sep) av.(av_nls) :: l2).
    { assert (OWN : forall vals l, rmap (fun av : array_value => to_val av.(av_val).(c_val)) vals = Ok l -> zip_fill fill vals l = vals).
      { clear. induction vals as [|[[ai at_] sp nls] vals IH]; intros l R; [inversion R; reflexivity|]. apply rmap_cons in R as (a & b & E & R & ->).
        cbn [zip_fill av_val av_sep av_nls c_val c_id] in *. rewrite (fill_own _ _ E). f_equal. auto. }
      clear E. revert l T Q. generalize (N.to_nat i). induction vals as [|av0 vals IHv]; intros [|j] l T Q; try discriminate;
        apply rmap_cons in T as (a & b & T1 & T2 & ->); cbn [nth_error] in Q.
      - injection Q as ->. exists [], vals, [], a, b. split; auto. split; auto. split; auto. split; [reflexivity|].
        intros z. cbn [app zip_fill]. f_equal. apply OWN; auto.
      - destruct (IHv j b T2 Q) as (l1 & l2 & a1 & x & a2 & -> & -> & X1 & X2 & X3).
        exists (av0 :: l1), l2, (a :: a1), x, a2. split; auto. split; auto. split; auto. split; [intros f; cbn [put_nth app]; rewrite X2; auto|].
        intros z. cbn [app zip_fill]. rewrite X3. f_equal. rewrite (fill_own _ _ T1). destruct av0 as [[] ? ?]; reflexivity. }
    destruct X as (l1 & l2 & a1 & x & a2 & -> & -> & X1 & X2 & X3). destruct av as [avc sp nls]. cbn [av_val av_sep av_nls] in *.
    destruct (IH _ _ _ E X1) as (F & a & b & pre & post & PL & <- & FU).
    do 5 eexists. split; [apply (place_arr ci l1 l2 sp nls n1 n2 F); exact PL|]. cbv beta. split; [auto|].
    intros u. cbn [put_at]. rewrite X2. cbn [fill]. rewrite X3. rewrite FU. reflexivity.
  - destruct c0 as [ci ct]. cbn [c_val c_id] in *. destruct ct as [| | | | | |vals w|]; try discriminate E.
    destruct (find (fun tk => same_key k tk.(tk_kv).(kv_key)) vals) as [tk|] eqn:Q; [|discriminate].
    cbn [to_val] in T. apply rbind_ok in T as (l & T & T2). injection T2 as <-. fold to_pair in T.
    assert (X : exists l1 l2 a1 x a2, vals = l1 ++ tk :: l2 /\ l = a1 ++ (tk.(tk_kv).(kv_key), x) :: a2 /\ to_val tk.(tk_kv).(kv_val).(c_val) = Ok x /\
      (forall f, put_key f k l = a1 ++ (tk.(tk_kv).(kv_key), f x) :: a2) /\
      forall n z, zip_fill2 fill vals (a1 ++ (n, z) :: a2) = l1 ++ TableKeyVal (KeyVal tk.(tk_kv).(kv_key) tk.(tk_kv).(kv_sep)
          (Cell tk.(tk_kv).(kv_val).(c_id) (fill tk.(tk_kv).(kv_val).(c_val) z))) tk.(tk_sep) tk.(tk_nls) :: l2).
    { assert (OWN : forall vals l, rmap to_pair vals = Ok l -> zip_fill2 fill vals l = vals).
      { clear. induction vals as [|[[k ks [ai at_]] sp nls] vals IH]; intros l R; [inversion R; reflexivity|]. apply rmap_cons in R as (a & b & E & R & ->).
        unfold to_pair in E. apply rbind_ok in E as (y & E & E2). injection E2 as <-.
        cbn [zip_fill2 tk_kv kv_key kv_sep kv_val tk_sep tk_nls c_val c_id snd] in *. rewrite (fill_own _ _ E). f_equal. auto. }
      clear E. revert l T Q. induction vals as [|tk0 vals IHv]; intros l T Q; try discriminate;
        apply rmap_cons in T as (a & b & T1 & T2 & ->); cbn [find] in Q.
      unfold to_pair in T1. apply rbind_ok in T1 as (vy & T1 & E2). injection E2 as <-.
      destruct (same_key k (kv_key (tk_kv tk0))) eqn:SK.
      - injection Q as ->. exists [], vals, [], vy, b. split; auto. split; auto. split; auto. split; [intros f; cbn [put_key]; rewrite SK; reflexivity|].
        intros n z. cbn [app zip_fill2 snd]. f_equal. apply OWN; auto.
      - destruct (IHv b T2 Q) as (l1 & l2 & a1 & x & a2 & -> & -> & X1 & X2 & X3).
        exists (tk0 :: l1), l2, ((kv_key (tk_kv tk0), vy) :: a1), x, a2. split; auto. split; auto. split; auto.
        split; [intros f; cbn [put_key app]; rewrite SK, X2; auto|].
        intros n z. cbn [app zip_fill2 snd]. rewrite X3. f_equal. rewrite (fill_own _ _ T1). destruct tk0 as [[? ? []] ? ?]; reflexivity. }
    destruct X as (l1 & l2 & a1 & x & a2 & -> & -> & X1 & X2 & X3). destruct tk as [[kk ks kc] sp nls]. cbn [tk_kv kv_key kv_sep kv_val tk_sep tk_nls] in *.
    destruct (IH _ _ _ E X1) as (F & a & b & pre & post & PL & <- & FU).
    do 5 eexists. split; [apply (place_inl ci l1 l2 kk ks sp nls w F); exact PL|]. cbv beta. split; [auto|].
    intros u. cbn [put_at]. rewrite X2. cbn [fill]. rewrite X3. rewrite FU. reflexivity.
Qed.

(** identities stay *)
Lemma tat_fill : forall p c v v', to_val c.(c_val) = Ok v -> same_shape v v' ->
  match tat c p, tat (Cell c.(c_id) (fill c.(c_val) v')) p with
  | Some y, Some y' => y.(c_id) = y'.(c_id) | None, None => True | _, _ => False end.
Proof.
  induction p as [|[i|k] p IH]; intros [ci ct] v v' T S; cbn [tat c_val c_id] in *; auto.
  - destruct ct as [| | | |vals n1 n2| |kvs w|]; try (cbn [to_val] in T; injection T as <-; inversion S as [a0 b0 SA SB| |]; subst; destruct v'; try destruct SB; exact I).
    + cbn [to_val] in T. apply rbind_ok in T as (l & T & T2). injection T2 as <-. inversion S as [a b SA _|l0 l' F|]; subst; [destruct SA|]. cbn [fill].
      generalize (N.to_nat i). intros j. revert l l' T F S j. induction vals as [|av vals IHv]; intros l l' T F S j.
      * inversion T; subst. inversion F; subst. destruct j; exact I.
      * apply rmap_cons in T as (a & b & T1 & T2 & ->). inversion F as [|? x ? l2 F1 F2]; subst. cbn [zip_fill]. destruct j as [|j]; cbn [nth_error av_val].
        -- apply (IH (av_val av) a x T1 F1).
        -- apply (IHv b l2 T2 F2). apply SS_array; auto.
    + cbn [to_val] in T. apply rbind_ok in T as (l & T & T2). injection T2 as <-. inversion S as [a b SA _| |l0 l' F]; subst; [destruct SA|]. exact I.
    + discriminate T.
  - destruct ct as [| | | |vals n1 n2| |kvs w|]; try (cbn [to_val] in T; injection T as <-; inversion S as [a0 b0 SA SB| |]; subst; destruct v'; try destruct SB; exact I).
    + cbn [to_val] in T. apply rbind_ok in T as (l & T & T2). injection T2 as <-. inversion S as [a b SA _|l0 l' F|]; subst; [destruct SA|]. exact I.
    + cbn [to_val] in T. apply rbind_ok in T as (l & T & T2). injection T2 as <-. inversion S as [a b SA _| |l0 l' F]; subst; [destruct SA|]. cbn [fill].
      fold to_pair in T. revert l l' T F S. induction kvs as [|tk kvs IHv]; intros l l' T F S.
      * inversion T; subst. inversion F; subst. exact I.
      * apply rmap_cons in T as (a & b & T1 & T2 & ->). inversion F as [|? x ? l2 [F0 F1] F2]; subst.
        unfold to_pair in T1. apply rbind_ok in T1 as (y & T1 & E2). injection E2 as <-. cbn [zip_fill2 find tk_kv kv_key fst snd] in *.
        destruct (same_key k (kv_key (tk_kv tk))); cbn [tk_kv kv_val].
        -- apply (IH (kv_val (tk_kv tk)) y (snd x) T1 F1).
        -- apply (IHv b l2 T2 F2). apply SS_table; auto.
    + discriminate T.
Qed.

Lemma tat_in : forall p c y, tat c p = Some y -> In y (subcells c).
Proof.
  induction p as [|[i|k] p IH]; intros [ci ct] y E; cbn [tat c_val] in E.
  - injection E as <-. left; auto.
  - destruct ct as [| | | |vals n1 n2| |kvs w|]; try discriminate E. destruct (nth_error vals (N.to_nat i)) as [av|] eqn:Q; [|discriminate].
    right. cbn [c_val]. rewrite tcells_kids. apply in_flat_map. exists (av_val av). split; [cbn [kids]; apply in_map; eapply nth_error_In; eauto|auto].
  - destruct ct as [| | | |vals n1 n2| |kvs w|]; try discriminate E. destruct (find _ kvs) as [tk|] eqn:Q; [|discriminate].
    apply find_some in Q as [Q _]. right. cbn [c_val]. rewrite tcells_kids. apply in_flat_map. exists (kv_val (tk_kv tk)).
    split; [cbn [kids]; apply in_map_iff; eauto|auto].
Qed.

(** ** New arrays and tables *)
Lemma neat_array : forall l n, (forall x, In x l -> scalar_value x) -> neat (flat_array l n).
Proof.
  intros l n F. unfold flat_array. cbn [neat]. rewrite all_of_forall. split; [apply gapseq_nil|]. split; [apply gapseq_nil|].
  revert n. induction l as [|x l IH]; intros n; [constructor|]. cbn [conv_avs]. constructor; [|apply IH; intros; apply F; right; auto].
  assert (NL : neat (leaf_of x)) by (apply neat_leaf, F; left; auto).
  destruct l; cbn [av_last av_default av_val av_sep av_nls c_val]; split; auto; split; try exact I; try apply gapseq_nil.
  split; cbn [ws1 ws2]; repeat (constructor; auto).
Qed.
Lemma neat_table : forall l n, (forall x, In x l -> scalar_value (snd x)) -> neat (flat_table l n).
Proof.
  intros l n F. unfold flat_table. cbn [neat ws1 ws2]. rewrite all_of_forall. split; [repeat (constructor; auto)|]. split; [repeat (constructor; auto)|].
  revert n. induction l as [|x l IH]; intros n; [constructor|]. cbn [conv_tks]. constructor; [|apply IH; intros; apply F; right; auto].
  assert (NL : neat (leaf_of (snd x))) by (apply neat_leaf, F; left; auto).
  destruct l; cbn [tkv_last tkv_default tk_kv tk_sep tk_nls kv_val kv_sep c_val]; (split; [split; [auto|split; cbn [ws1 ws2]; repeat (constructor; auto)]|]); split; try exact I; try apply gapseq_nil.
  split; cbn [ws1 ws2]; repeat (constructor; auto).
Qed.

(** ** The values of the lines are read by the parser of values *)
Lemma loop_all : forall A (p : P A) n s i s' r l, many_loop n p s i = Ok (s', Done r l) ->
  Forall (fun a => exists s i s' r, p s i = Ok (s', Done r a)) l.
Proof.
  intros A p n s i s' r l. revert n s i s' r. induction l as [|a l IH]; intros n s i s' r E; [constructor|].
  apply many_cons in E as (n' & s1 & i1 & E1 & E2). constructor; eauto.
Qed.
Definition by_val (e : expression) : Prop :=
  forall kv, e.(e_keyval) = Some kv -> exists s i s' r, val_p s i = Ok (s', Done r kv.(kv_val)).
Lemma expression_by : forall s i s' r e, expression_p s i = Ok (s', Done r e) -> by_val e.
Proof.
  intros s i s' r e E kv K. unfold expression_p in E.
  repeat match type of E with alt _ _ _ _ = _ => apply alt_done in E as [E|(? & _ & E)] end; apply complete_done in E.
  - unfold table_comment in E. repeat (apply bind_done in E as (? & ? & ? & _ & E)). apply ret_done in E as (_ & _ & ->). discriminate K.
  - unfold keyval_comment in E. apply bind_done in E as (s1 & i1 & w1 & _ & E). apply bind_done in E as (s2 & i2 & kv' & E1 & E).
    apply bind_done in E as (s3 & i3 & w2 & _ & E). apply bind_done in E as (s4 & i4 & c & _ & E). apply ret_done in E as (_ & _ & ->).
    cbn [e_keyval] in K. injection K as ->. unfold keyval_p, keyval_p_ in E1.
    apply bind_done in E1 as (t1 & j1 & k & _ & E1). apply bind_done in E1 as (t2 & j2 & sp & _ & E1).
    apply bind_done in E1 as (t3 & j3 & cl & F3 & E1). apply act_done in E1 as (-> & E1). apply keyval_act_same in E1. subst kv. cbn [kv_val]. eauto.
  - unfold ws_comment in E. repeat (apply bind_done in E as (? & ? & ? & _ & E)). apply ret_done in E as (_ & _ & ->). discriminate K.
  - unfold ws_expr in E. repeat (apply bind_done in E as (? & ? & ? & _ & E)). apply ret_done in E as (_ & _ & ->). discriminate K.
Qed.
Lemma parse_by : forall s i s' r, parse s i = Ok (s', r) -> Forall (fun e => by_val e.(ne_expr)) s'.(p_root).
Proof.
  intros s i s' r E. apply parse_inv in E as (s1 & rest & t & E & _ & -> & _). cbn [p_root set_leftover set_root].
  unfold toml_p in E. apply bind_done in E as (s2 & i2 & e & E1 & E). apply bind_done in E as (s3 & i3 & l & E2 & E). apply ret_done in E as (_ & _ & ->).
  constructor; [eapply expression_by; eauto|]. unfold nl_expressions, many0 in E2. apply loop_all in E2.
  eapply Forall_impl; [|exact E2]. cbv beta. intros x (a & b & c & d & X). unfold nl_expression_p in X.
  apply bind_done in X as (? & ? & nl & _ & X). apply bind_done in X as (? & ? & y & X1 & X). apply ret_done in X as (_ & _ & ->).
  eapply expression_by; eauto.
Qed.
Lemma by_neat : forall e kv v t, by_val e -> e.(e_keyval) = Some kv -> to_val kv.(kv_val).(c_val) = Ok v -> tsrc kv.(kv_val).(c_val) = t -> spells v t ->
  neat kv.(kv_val).(c_val).
Proof.
  intros e kv v t B K T <- S. destruct (B kv K) as (s & i & s' & r & E). pose proof E as X. unfold val_p in E. apply reads_val in E. unfold cell_src in E.
  subst i. unfold val_p in X. eapply spells_neat; eauto.
Qed.
