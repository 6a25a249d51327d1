(** Every value in the map is a value of the document, unless an array or inline
    table was read in vain. *)
From Coq Require Import Lia ZifyBool ZifyNat ZifyN.
From Verif Require Import TotalFacts Str Regex Types Ast State Nom Keys Grammar Api Facts Spec RegexFacts NomFacts DateFacts RoundTrip Effects
  ParseFacts WalkFacts StringFacts LineFacts ScalarFacts HeadSpec SafeFacts CountFacts IdFacts ReportFacts.

(** from [s] to [s'] the map got no cells but those in [l] and those of tables *)
Definition grown (l : list cell) (s s' : pst) : Prop :=
  forall k x, valof s'.(p_map) k = Some x -> valof s.(p_map) k = Some x \/ x.(c_val) = TTable \/ In x l.
Definition same_map (s s' : pst) : Prop := s'.(p_map) = s.(p_map).
Lemma grown_same : forall l s s', same_map s s' -> grown l s s'.
Proof. intros l s s' E k x V. rewrite E in V. auto. Qed.
Lemma grown_trans : forall a b s1 s2 s3, grown a s1 s2 -> grown b s2 s3 -> grown (a ++ b) s1 s3.
Proof.
  intros a b s1 s2 s3 H1 H2 k x V. rewrite in_app_iff. destruct (H2 _ _ V) as [V2|[V2|V2]]; auto. destruct (H1 _ _ V2) as [V1|[V1|V1]]; auto.
Qed.
Lemma grown_incl : forall a b s s', grown a s s' -> incl a b -> grown b s s'.
Proof. intros a b s s' H I k x V. destruct (H _ _ V) as [V2|[V2|V2]]; auto. Qed.
Lemma grown_left : forall l s1 s2 s3, same_map s1 s2 -> grown l s2 s3 -> grown l s1 s3.
Proof. intros l s1 s2 s3 E H k x V. rewrite <- E. auto. Qed.
Lemma grown_right : forall l s1 s2 s3, grown l s1 s2 -> same_map s2 s3 -> grown l s1 s3.
Proof. intros l s1 s2 s3 H E k x V. rewrite E in V. auto. Qed.
Lemma grown_insert : forall s c s', insert_keyval_into_map s c = Ok s' -> grown [c] s s'.
Proof.
  intros s c s' H. apply insert_adds in H as [[e ->]|(m & -> & k0 & A)]; [apply grown_same; reflexivity|].
  intros k x V. cbn [p_map set_map] in V. apply A in V as [V|[_ ->]]; auto. right. right. left. auto.
Qed.

Lemma smap_refl : forall s, same_map s s.
Proof. reflexivity. Qed.
Lemma smap_trans : forall a b c, same_map a b -> same_map b c -> same_map a c.
Proof. unfold same_map. intros. congruence. Qed.
Lemma smap_pure : forall A (p : P A), pure p -> pres same_map p.
Proof. intros A p H s i s' r E. rewrite (pure_state _ H _ _ _ _ E). reflexivity. Qed.
Lemma smap_key : pres same_map key_p.
Proof. apply pres_key; unfold same_map; intros; auto; congruence. Qed.
Lemma smap_pcell : forall A (p : P A) f, pres same_map p -> pres same_map (pcell p f).
Proof. apply pres_pcell; unfold same_map; intros; auto; congruence. Qed.
Lemma smap_scalar : pres same_map (alt (pcell date_time TDateTime)
    (alt (pcell float TFloat)
    (alt (pcell integer TInteger)
    (alt (pcell boolean TBoolean)
         (pcell string_p (fun v => v)))))).
Proof.
  repeat (apply pres_alt; [exact smap_trans| |]); apply smap_pcell.
  - apply pres_date_time; unfold same_map; intros; auto; congruence.
  - apply smap_pure. unfold float. pure_tac.
  - apply smap_pure. unfold integer. pure_tac.
  - apply smap_pure. unfold boolean. pure_tac.
  - apply pres_string; unfold same_map; intros; auto; congruence.
Qed.

(** ** Values have a text *)
Definition worded {A} (p : P A) (f : A -> str) : Prop := forall s i s' r a, p s i = Ok (s', Done r a) -> f a <> [].
Lemma worded_alt : forall A (p q : P A) f, worded p f -> worded q f -> worded (alt p q) f.
Proof. intros A p q f H H2 s i s' r a E. apply alt_done in E as [E|(s1 & _ & E)]; eauto. Qed.
Lemma worded_pcell : forall A (p : P A) f, worded p (fun a => tsrc (f a)) -> worded (pcell p f) cell_src.
Proof. intros A p f H s i s' r c E. apply pcell_line in E as (s1 & a & E & V & _). unfold cell_src. rewrite V. eauto. Qed.
Lemma worded_re : forall re, nullable re = false -> worded (re_find re) (fun x => x).
Proof. intros re N s i s' r a E. apply re_find_done in E as (_ & _ & L). intros X. rewrite (nullable_lang _ _ L X) in N. discriminate. Qed.
Lemma worded_scalar : worded (alt (pcell date_time TDateTime)
    (alt (pcell float TFloat)
    (alt (pcell integer TInteger)
    (alt (pcell boolean TBoolean)
         (pcell string_p (fun v => v)))))) cell_src.
Proof.
  repeat (apply worded_alt); apply worded_pcell; cbn [tsrc].
  - intros s i s' r d E. unfold date_time in E. apply rbind_ok in E as ([s1 r1] & R1 & E). destruct r1 as [i1 d1| |]; try discriminate.
    assert (d1 = d). { destruct (datetime_validate d1); [inversion E; auto|]. apply rbind_ok in E as ([[x fk] pk] & _ & E). inversion E; auto. }
    subst d1. apply dti_done in R1 as (_ & _ & DG). rewrite <- datetime_src_show. unfold datetime_src.
    destruct DG as [([Y L] & _) _]. destruct (d_year (dt_date d)); discriminate.
  - apply worded_re. reflexivity.
  - apply worded_re. reflexivity.
  - intros s i s' r [] _; discriminate.
  - intros s i s' r t E. unfold string_p in E.
    repeat (apply alt_done in E as [E|(? & _ & E)]); apply pmap_done in E as (y & _ & ->); cbn [tsrc]; discriminate.
Qed.

(** ** All values *)
Definition vgrown (p : P cell) : Prop :=
  (forall s i s' r c, p s i = Ok (s', Done r c) -> grown (tcells c.(c_val)) s s') /\
  (forall s i s' r, head_not 91 i -> head_not 123 i -> p s i = Ok (s', r) -> same_map s s').

Section GrownVal.
  Variable pval : P cell.
  Hypothesis PV : vgrown pval.
  Hypothesis PC : vcount pval.
  Hypothesis RV : reads pval cell_src.
  Hypothesis WV : worded pval cell_src.

  Lemma loop_grown : forall A (p : P A) src cells, reads p src -> worded p src ->
    (forall s i s' r a, p s i = Ok (s', Done r a) -> grown (cells a) s s') ->
    forall n s i s' r l, many_loop n p s i = Ok (s', Done r l) ->
    (forall s s', p s r = Ok (s', Error) -> same_map s s') -> grown (flat_map cells l) s s'.
  Proof.
    clear. intros A p src cells R W C. induction n; intros s i s' r l H F; [discriminate|]. cbn [many_loop] in H.
    destruct i as [|c i]; [inversion H; subst; apply grown_same; reflexivity|]. apply rbind_ok in H as ([s1 r1] & E & H). destruct r1 as [i1 a| |].
    - pose proof (C _ _ _ _ _ E) as G. match type of H with (if ?b then _ else _) = _ => destruct b eqn:NB end.
      + exfalso. apply (W _ _ _ _ _ E). apply R in E. apply Nat.eqb_eq in NB. apply (f_equal (@length N)) in E. rewrite app_length in E.
        destruct (src a); auto. cbn [length] in *. lia.
      + apply rbind_ok in H as ([s2 r2] & E2 & H). destruct r2; inversion H; subst. cbn [flat_map]. eapply grown_trans; eauto.
    - inversion H; subst. apply grown_same. apply F in E. exact E.
    - discriminate.
  Qed.

  Lemma value_act_grown : forall v sep nls s s' a, array_value_act v sep nls s = Ok (s', a) -> grown [v] s s'.
  Proof.
    clear. intros v sep nls s s' a H. apply array_value_effect in H as (_ & t & s1 & s2 & kc & _ & M & I & ->).
    apply mixed_effect in M. apply grown_insert in I. eapply grown_left; [|eapply grown_right; [exact I|reflexivity]].
    destruct M as [->|(k & ->)]; reflexivity.
  Qed.
  Definition av_cells (a : array_value) : list cell := subcells a.(av_val).
  Lemma value_grown : forall s i s' r a, array_value_ pval s i = Ok (s', Done r a) -> grown (av_cells a) s s'.
  Proof using PV.
    intros s i s' r a H. unfold array_value_ in H. apply bind_done in H as (s1 & i1 & c & E1 & H).
    apply bind_done in H as (s2 & i2 & sep & E2 & H). apply bind_done in H as (s3 & i3 & nls & E3 & H).
    apply act_done in H as (-> & H). pose proof (value_act_grown _ _ _ _ _ _ H) as G. apply array_value_act_same in H. subst a.
    apply sep_lf in E2 as [-> _]. apply complete_done in E3. apply cons_state in E3. subst s3.
    apply (proj1 PV) in E1. unfold av_cells. cbn [av_val]. eapply grown_incl; [eapply grown_trans; eauto|].
    unfold subcells. intros x I. apply in_app_iff in I as [I|[I|[]]]; [right; auto|left; auto].
  Qed.
  Lemma worded_av : worded (array_value_ pval) av_src.
  Proof using WV.
    intros s i s' r a H. unfold array_value_ in H. apply bind_done in H as (s1 & i1 & c & E1 & H).
    apply bind_done in H as (s2 & i2 & sep & E2 & H). apply bind_done in H as (s3 & i3 & nls & E3 & H).
    apply act_done in H as (-> & H). apply array_value_act_same in H. subst a. apply WV in E1. unfold av_src, av_src_. cbn [av_val].
    fold (cell_src c). destruct (cell_src c); [congruence|discriminate].
  Qed.
  Lemma array_grown : forall s i s' r t, array_ pval s i = Ok (s', Done r t) -> grown (tcells t) s s'.
  Proof using PV PC RV WV.
    intros s i s' r t H. unfold array_ in H. apply rbind_ok in H as ([s1 r1] & E & H). inversion H; subst; clear H.
    eapply grown_left; [|eapply grown_right; [|reflexivity]]; [|clear - PV PC RV WV E].
    { instantiate (1 := push_key (KIndex 0) (set_atypes (vpush (p_atypes s) ANone) s)). reflexivity. }
    unfold array_internal_ in E.
    apply bind_done in E as (s2 & i2 & u & E2 & E). apply bind_done in E as (s3 & i3 & n1 & E3 & E).
    apply bind_done in E as (s4 & i4 & vals & E4 & E). apply bind_done in E as (s5 & i5 & n2 & E5 & E).
    apply bind_done in E as (s6 & i6 & u2 & E6 & E). apply ret_done in E as (-> & -> & ->).
    apply cons_state in E3 as E3'. subst s3. apply cons_state in E5 as E5'. subst s5.
    apply tag_done in E2 as (-> & -> & ->). apply tag_done in E6 as (-> & -> & ->).
    assert (GH := gap_head _ _ _ _ _ E5 ltac:(unfold gap_chars; cbn; auto 8)).
    unfold array_values_, many0 in E4.
    apply (loop_grown _ _ av_src av_cells (reads_array_value pval RV) worded_av value_grown) in E4; [exact E4|].
    intros s0 s0' X. unfold array_value_ in X. unfold bind at 1 in X. apply rbind_ok in X as ([s1 r1] & X1 & X).
    pose proof (stop_fails pval PC _ _ _ _ GH X1) as [_ Y].
    assert (same_map s0 s1). { eapply (proj2 PV); [| |exact X1]; destruct i4; cbn in *; lia. }
    destruct Y as [-> | ->]; [inversion X; subst; auto|inversion X].
  Qed.
  Lemma keyval_grown : forall s i s' r kv, keyval_p_ pval s i = Ok (s', Done r kv) -> grown (kv_cells kv) s s'.
  Proof using PV.
    intros s i s' r kv H. unfold keyval_p_ in H. apply bind_done in H as (s1 & i1 & k & E1 & H).
    apply bind_done in H as (s2 & i2 & sep & E2 & H). apply bind_done in H as (s3 & i3 & c & E3 & H).
    apply act_done in H as (-> & H). apply keyval_effect in H as [-> H].
    assert (s2 = s1) by (eapply (pure_state keyval_sep); [apply pure_kvsep|exact E2]). subst s2.
    apply smap_key in E1. apply (proj1 PV) in E3. eapply grown_left; [exact E1|].
    unfold kv_cells, subcells. cbn [kv_val]. destruct H as [(_ & e & _ & ->)|(_ & s4 & I & ->)].
    - eapply grown_incl; [eapply grown_right; [exact E3|reflexivity]|]. intros x I. right. auto.
    - apply grown_insert in I. eapply grown_incl; [eapply grown_trans; [exact E3|eapply grown_right; [exact I|reflexivity]]|].
      intros x J. apply in_app_iff in J as [J|[J|[]]]; [right; auto|left; auto].
  Qed.
  Definition tk_cells (k : table_keyval) : list cell := subcells k.(tk_kv).(kv_val).
  Lemma tk_grown : forall s i s' r k, table_keyval_p_ pval s i = Ok (s', Done r k) -> grown (tk_cells k) s s'.
  Proof using PV.
    intros s i s' r k H. unfold table_keyval_p_ in H. apply bind_done in H as (s1 & i1 & kv & E1 & H).
    apply bind_done in H as (s2 & i2 & sep & E2 & H). apply bind_done in H as (s3 & i3 & nls & E3 & H). apply ret_done in H as (-> & -> & ->).
    apply sep_lf in E2 as [-> SP]. apply complete_done in E3. apply cons_state in E3. subst s3. apply keyval_grown in E1. exact E1.
  Qed.
  Lemma worded_tk : worded (table_keyval_p_ pval) tk_src.
  Proof.
    clear. intros s i s' r k H X. unfold tk_src, tk_src_, sep_src in X. apply app_eq_nil in X as [X _]. do 2 apply app_eq_nil in X as [_ X]. apply app_eq_nil in X as [X _]. discriminate.
  Qed.
  Lemma inline_grown : forall s i s' r t, inline_table_ pval s i = Ok (s', Done r t) -> grown (tcells t) s s'.
  Proof using PV RV.
    intros s i s' r t E. unfold inline_table_ in E.
    apply bind_done in E as (s2 & i2 & u & E2 & E). apply bind_done in E as (s3 & i3 & w1 & E3 & E).
    apply bind_done in E as (s4 & i4 & kvs & E4 & E). apply bind_done in E as (s5 & i5 & w2 & E5 & E).
    apply bind_done in E as (s6 & i6 & u2 & E6 & E). apply ret_done in E as (-> & -> & ->).
    apply tag_done in E2 as (-> & -> & ->). apply tag_done in E6 as (-> & -> & ->).
    apply ws_blanks in E3 as (-> & -> & B1). apply ws_blanks in E5 as (-> & -> & B2).
    assert (HD : exists c x, w2 ++ lit "}" ++ i6 = c :: x /\ (c = 32 \/ c = 9 \/ c = 125)).
    { destruct w2 as [|c w2]; cbn [app]; [exists 125, i6; auto|]. inversion B2; subst. exists c, (w2 ++ lit "}" ++ i6). split; auto. lia. }
    destruct HD as (c & x & HD & C). rewrite HD in E4.
    apply opt_done in E4 as [(l & -> & E4)|(-> & E & E4)].
    - apply complete_done in E4. unfold inline_table_keyvals_, many0 in E4.
      apply (loop_grown _ _ tk_src tk_cells (reads_table_keyval pval RV) worded_tk tk_grown) in E4; [exact E4|].
      intros s0 s0' X. rewrite tk_stop in X by auto. inversion X. reflexivity.
    - exfalso. subst. unfold complete, inline_table_keyvals_, many0 in E4. cbn [length many_loop] in E4. rewrite tk_stop in E4 by auto.
      cbn [rbind] in E4. discriminate.
  Qed.
End GrownVal.

Lemma pcell_grown : forall A (p : P A) f s i s' r c, pcell p f s i = Ok (s', Done r c) ->
  exists s1 a, p s i = Ok (s1, Done r a) /\ c.(c_val) = f a /\ same_map s1 s'.
Proof.
  intros A p f s i s' r c H. unfold pcell in H. apply bind_done in H as (s1 & i1 & a & E & H). apply complete_done in E.
  apply act_done in H as (-> & H). inversion H; subst. exists s1, a. split; auto. split; auto. reflexivity.
Qed.
Lemma worded_val_ : forall p, worded (val_ p) cell_src.
Proof.
  intros p s i s' r c H. unfold val_ in H. apply alt_done in H as [H|(s1 & E1 & H)].
  { apply pcell_grown in H as (s1 & a & H & EC & _). unfold array_ in H. apply rbind_ok in H as ([s2 r1] & E & H). inversion H; subst; clear H.
    unfold array_internal_ in E. apply bind_done in E as (s3 & i2 & u & E2 & E). apply bind_done in E as (s4 & i3 & n1 & E3 & E).
    apply bind_done in E as (s5 & i4 & vals & E4 & E). apply bind_done in E as (s6 & i5 & n2 & E5 & E).
    apply bind_done in E as (s7 & i6 & u2 & E6 & E). apply ret_done in E as (_ & _ & E). unfold cell_src. rewrite ?EC, E. discriminate. }
  apply alt_done in H as [H|(s2 & E2 & H)].
  { apply pcell_grown in H as (s2 & a & E & EC & _). unfold inline_table_ in E.
    apply bind_done in E as (s3 & i2 & u & E2 & E). apply bind_done in E as (s4 & i3 & n1 & E3 & E).
    apply bind_done in E as (s5 & i4 & vals & E4 & E). apply bind_done in E as (s6 & i5 & n2 & E5 & E).
    apply bind_done in E as (s7 & i6 & u2 & E6 & E). apply ret_done in E as (_ & _ & E). unfold cell_src. rewrite ?EC, E. discriminate. }
  apply worded_scalar in H. auto.
Qed.
Lemma vgrown_val_ : forall p, vgrown p -> vcount p -> reads p cell_src -> worded p cell_src -> vgrown (val_ p).
Proof.
  intros p PV PC RV WV. split.
  - intros s i s' r c H. unfold val_ in H. apply alt_done in H as [H|(s1 & E1 & H)].
    { apply pcell_grown in H as (s1 & a & H & EC & EL). apply array_grown in H; auto. rewrite EC. eapply grown_right; eauto. }
    apply alt_done in H as [H|(s2 & E2 & H)].
    { assert (s1 = s).
      { destruct i as [|x i]; [|destruct (N.eq_dec x 91)].
        - rewrite arr_err in E1 by exact I. inversion E1. auto.
        - exfalso. subst x. rewrite inl_err in H by (cbn; lia). discriminate.
        - rewrite arr_err in E1 by (cbn; auto). inversion E1. auto. }
      subst s1. apply pcell_grown in H as (s1 & a & H & EC & EL). apply inline_grown in H; auto. rewrite EC. eapply grown_right; eauto. }
    pose proof (smap_scalar _ _ _ _ H) as SM. apply counts_scalar in H as (L1 & L2 & O). assert (head_not 91 i /\ head_not 123 i) as [O1 O2].
    { destruct i; cbn in *; lia. }
    rewrite arr_err in E1 by auto. inversion E1; subst. rewrite inl_err in E2 by auto. inversion E2; subst.
    apply grown_same. auto.
  - intros s i s' r O1 O2 H. unfold val_ in H. unfold alt at 1 in H. rewrite arr_err in H by auto. cbn [rbind] in H.
    unfold alt at 1 in H. rewrite inl_err in H by auto. cbn [rbind] in H. apply smap_scalar in H. auto.
Qed.
Lemma vgrown_val : forall f, vgrown (val f) /\ worded (val f) cell_src.
Proof.
  induction f; [split; [split|]; discriminate|]. destruct IHf. split; [|apply worded_val_]. apply vgrown_val_; auto; [apply vcount_val|apply reads_val].
Qed.
Lemma vgrown_val_p : vgrown val_p.
Proof.
  split; intros *.
  - apply (proj1 (proj1 (vgrown_val _))).
  - apply (proj2 (proj1 (vgrown_val _))).
Qed.

(** ** Documents *)
Lemma keyval_unmapped : forall s i s' r, keyval_p s i = Ok (s', r) -> (forall j kv, r <> Done j kv) -> ~ starts_nested i -> same_map s s'.
Proof.
  intros s i s' r H ND NS. unfold keyval_p, keyval_p_ in H. unfold bind at 1 in H. apply rbind_ok in H as ([s1 r1] & E1 & H).
  pose proof (smap_key _ _ _ _ E1) as L1. destruct r1 as [i1 k| |]; [|inversion H; subst; exact L1..].
  unfold bind at 1 in H. apply rbind_ok in H as ([s2 r2] & E2 & H).
  assert (s2 = s1) by (eapply (pure_state keyval_sep); [apply pure_kvsep|exact E2]). subst s2.
  destruct r2 as [i2 sep| |]; [|inversion H; subst; exact L1..].
  unfold bind at 1 in H. apply rbind_ok in H as ([s3 r3] & E3 & H).
  assert (HN : head_not 91 i2 /\ head_not 123 i2).
  { apply key_text in E1 as [-> NT]. unfold keyval_sep in E2. pinv.
    repeat match goal with H : ws _ _ = _ |- _ => apply ws_blanks in H as (? & ? & ?) end. subst.
    match goal with |- head_not _ ?j /\ _ => destruct j as [|c x]; [split; exact I|] end.
    split; intros ->; apply NS; do 5 eexists; (split; [reflexivity|split; [exact NT|eauto 6]]). }
  apply (proj2 vgrown_val_p) in E3; [|apply HN..]. destruct r3 as [i3 c| |]; [|inversion H; subst; eapply smap_trans; eauto..].
  exfalso. unfold act in H. apply rbind_ok in H as ([s4 kv] & _ & H). inversion H. eapply ND. eauto.
Qed.
Lemma keyval_comment_unmapped : forall s i s' w j s0, complete keyval_comment s i = Ok (s', Error) -> ws s0 i = Ok (s0, Done j w) ->
  ~ starts_nested j -> same_map s s'.
Proof.
  intros s i s' w j s0 H W NS. unfold complete in H. apply rbind_ok in H as ([s1 r1] & E & H).
  assert (L : s1 = s' /\ (forall a b, r1 <> Done a b)). { inversion H; subst. split; auto. intros a b ->. discriminate. }
  destruct L as [-> ND]. clear H. unfold keyval_comment in E. unfold bind at 1 in E. rewrite ws_eq in W. inversion W; subst. rewrite ws_eq in E. cbn [rbind] in E.
  unfold bind at 1 in E. apply rbind_ok in E as ([s2 r2] & E2 & E). destruct r2 as [i2 kv| |].
  - exfalso. unfold bind at 1 in E. destruct (ws_done s2 i2) as (w2 & i3 & E3). rewrite E3 in E. cbn [rbind] in E.
    unfold bind at 1 in E. apply rbind_ok in E as ([s4 r4] & E4 & E). unfold opt in E4. apply rbind_ok in E4 as ([s5 r5] & E5 & E4).
    destruct r5; inversion E4; subst; cbn in E; inversion E; subst.
    + eapply ND. reflexivity.
    + eapply ND. reflexivity.
    + eapply complete_not_inc. eauto.
  - inversion E; subst. eapply keyval_unmapped; eauto. discriminate.
  - inversion E; subst. eapply keyval_unmapped; eauto. discriminate.
Qed.
(** headers only add tables *)
Definition tabled (s s' : pst) : Prop := grown [] s s'.
Lemma tabled_trans : forall a b c, tabled a b -> tabled b c -> tabled a c.
Proof. intros a b c H1 H2. apply (grown_trans [] []) with b; auto. Qed.
Lemma tabled_pure : forall A (p : P A), pure p -> pres tabled p.
Proof. intros A p H s i s' r E. rewrite (pure_state _ H _ _ _ _ E). apply grown_same. reflexivity. Qed.
Lemma tabled_table : pres tabled table_p.
Proof.
  apply pres_table; try exact tabled_trans; try (intros; apply grown_same; reflexivity).
  - intros w1 w2 k l s s' t H k' x V. apply std_adds in H as [[M _]|[_ [k0 A]]]; [left; congruence|].
    apply A in V as [V|[_ ->]]; auto.
  - intros w1 w2 k l s s' t H k' x V. apply arr_sub in H as [_ S]. left. auto.
Qed.
Lemma tabled_comment : pres tabled table_comment.
Proof.
  unfold table_comment. apply pres_bind; [exact tabled_trans|apply tabled_pure; unfold ws; pure_tac|]. intros w1.
  apply pres_bind; [exact tabled_trans|exact tabled_table|]. intros t. apply tabled_pure. unfold comment, ws. pure_tac.
Qed.
Lemma tabled_left : forall l s1 s2 s3, tabled s1 s2 -> grown l s2 s3 -> grown l s1 s3.
Proof. intros l s1 s2 s3 H1 H2. apply (grown_trans [] l) with s2; auto. Qed.
Lemma expr_grown : forall s i s' r e, expression_p s i = Ok (s', Done r e) -> ~ starts_nested r -> grown (ex_cells e) s s'.
Proof.
  intros s i s' r e H NS. unfold expression_p in H. apply alt_done in H as [H|(s1 & E1 & H)].
  - apply complete_done in H. apply tabled_comment in H. eapply grown_incl; [exact H|intros x []].
  - assert (L1 : tabled s s1). { eapply (pres_complete tabled); [exact tabled_comment|exact E1]. }
    clear E1. eapply tabled_left; [exact L1|]. apply alt_done in H as [H|(s2 & E2 & H)].
    + apply complete_done in H. unfold keyval_comment in H.
      apply bind_done in H as (s2 & i1 & w1 & E1 & H). apply bind_done in H as (s3 & i2 & kv & E2 & H).
      apply bind_done in H as (s4 & i3 & w2 & E3 & H). apply bind_done in H as (s5 & i4 & c & E4 & H). apply ret_done in H as (-> & -> & ->).
      apply ws_blanks in E1 as (-> & _ & E1). apply ws_blanks in E3 as (-> & _ & E3).
      assert (s5 = s3) by (eapply (pure_state (opt (complete comment))); [unfold comment; pure_tac|exact E4]). subst s5.
      apply (keyval_grown val_p vgrown_val_p) in E2. exact E2.
    + apply alt_done in H as [H|(s3 & E3 & H)]; apply complete_done in H.
      * unfold ws_comment in H. apply bind_done in H as (s3 & i1 & w & E1 & H). apply bind_done in H as (s4 & i2 & c & E3 & H).
        apply ret_done in H as (-> & -> & ->). pose proof (ws_blanks _ _ _ _ _ E1) as (-> & _ & B).
        assert (L2 : same_map s1 s2).
        { eapply keyval_comment_unmapped; [exact E2|exact E1|]. apply reads_comment in E3. subst i1. apply plain_head. cbn. unfold bare_char. lia. }
        apply comment_lf in E3 as [-> E3]. apply grown_same. exact L2.
      * assert (s3 = s2). { eapply (pure_state (complete ws_comment)); [unfold ws_comment, comment, ws; pure_tac|exact E3]. }
        subst s3. unfold ws_expr in H. apply bind_done in H as (s3 & i1 & w & E1 & H). apply ret_done in H as (-> & -> & ->).
        pose proof (ws_blanks _ _ _ _ _ E1) as (-> & _ & B). apply grown_same. eapply keyval_comment_unmapped; eauto.
Qed.
Lemma doc_grown : forall n s i s' r l, many_loop n nl_expression_p s i = Ok (s', Done r l) -> ~ starts_nested r ->
  ~ starts_nested i /\ grown (toml_cells l) s s'.
Proof.
  induction n; intros s i s' r l H NS; [discriminate|]. cbn [many_loop] in H.
  destruct i as [|c i]; [inversion H; subst; split; auto; apply grown_same; reflexivity|].
  apply rbind_ok in H as ([s1 r1] & E & H). unfold nl_expression_p in E at 1. unfold bind at 1 in E.
  apply rbind_ok in E as ([s2 r2] & E2 & E). pose proof (newline_count _ _ _ _ E2) as C2.
  assert (NM : same_map s s2). { eapply (pres_newline same_map); [..|exact E2]; try exact smap_trans; intros; reflexivity. }
  destruct r2 as [i2 nl| |]; [|inversion E; subst; inversion H; subst; split; auto; apply grown_same; exact NM|inversion E; subst; inversion H].
  destruct C2 as [C2 SN]. split; auto. apply newline_short in E2. unfold bind at 1 in E. apply rbind_ok in E as ([s3 r3] & E3 & E).
  destruct (expression_done _ _ _ _ E3) as (i3 & e & ->). inversion E; subst. clear E. pose proof (reads_expression _ _ _ _ _ E3) as RE.
  match type of H with (if ?b then _ else _) = _ => destruct b eqn:NB end.
  { exfalso. apply Nat.eqb_eq in NB. subst i2. rewrite app_length in E2. lia. }
  apply rbind_ok in H as ([s4 r4] & E4 & H). destruct r4; inversion H; subst. apply IHn in E4 as [SN3 C4]; auto.
  apply expr_grown in E3; auto. eapply grown_left; [exact NM|]. unfold toml_cells. cbn [flat_map ne_expr]. eapply grown_trans; eauto.
Qed.

(** every value in the map is a value of the document, or a table *)
Definition written (s : pst) : Prop := forall k c, valof s.(p_map) k = Some c -> c.(c_val) = TTable \/ In c (toml_cells s.(p_root)).
Lemma parse_written : forall ovf i s r, parse (new_parser ovf) i = Ok (s, r) -> ~ starts_nested s.(p_leftover) -> written s.
Proof.
  intros ovf i s r H NS. destruct (parse_inv _ _ _ _ H) as (s1 & rest & t & T & EI & -> & L).
  cbn [p_leftover set_leftover set_root] in NS. unfold written. cbn [p_map p_root set_leftover set_root].
  unfold toml_p in T. apply bind_done in T as (s2 & i1 & e & E1 & T). apply bind_done in T as (s3 & i2 & l & E2 & T).
  apply ret_done in T as (-> & -> & ->). apply doc_grown in E2 as [SN C2]; auto. apply expr_grown in E1; auto.
  intros k c V. destruct (grown_trans _ _ _ _ _ E1 C2 _ _ V) as [X|[X|X]]; auto.
  exfalso. cbn [new_parser p_map] in X. rewrite valof_put in X. destruct (str_eqb k root_key); inversion X.
Qed.
