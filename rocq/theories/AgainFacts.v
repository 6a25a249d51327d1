(** What is printed after updates is read again as it is in memory. *)
From Coq Require Import Lia ZifyBool ZifyNat ZifyN.
From Verif Require Import TotalFacts Str Regex Types Ast State Nom Keys Grammar Api Facts Spec RegexFacts NomFacts DateFacts RoundTrip Effects
  ParseFacts WalkFacts StringFacts LineFacts ScalarFacts HeadSpec SafeFacts CountFacts IdFacts WriteFacts SetFacts ApiSpec ApiFacts UpdateFacts
  CtorFacts ReportFacts WrittenFacts WrittenSpec EditFacts DocSpec DotSpec TreeSpec MixSpec BlindFacts WholeSpec WholeFacts TwinSpec TwinFacts KinSpec KinFacts StaySpec StayFacts AgainSpec.

Notation leaf := WriteFacts.leaf.

(** ** The same types *)
Lemma types_refl : forall v, same_types v v.
Proof.
  induction v as [| | | | |vs IH|kvs IH] using value_ind'; try (apply Ty_scalar; solve [exact I|reflexivity]).
  - apply Ty_array. induction IH; constructor; auto.
  - apply Ty_table. induction IH; constructor; auto.
Qed.
Lemma types_sym : forall a b, same_types a b -> same_types b a.
Proof.
  induction a as [| | | | |vs IH|kvs IH] using value_ind'; intros b0 H; inversion H as [? ? SA SB K D|? l' F|? l' F]; subst; try (apply Ty_scalar; auto; fail); try destruct SA.
  - apply Ty_array. clear H. revert IH. induction F; intros IH; constructor; inversion IH; subst; auto.
  - apply Ty_table. clear H. revert IH. induction F as [|? ? ? ? [E X] F IHF]; intros IH; constructor; inversion IH; subst; auto.
Qed.
Lemma types_trans : forall a b c, same_types a b -> same_types b c -> same_types a c.
Proof.
  induction a as [| | | | |vs IH|kvs IH] using value_ind'; intros b0 c0 H G; inversion H as [? ? SA SB K D|? l' F|? l' F]; subst;
    try (inversion G as [? ? SA' SB' K' D'| |]; subst; try destruct SB; apply Ty_scalar; auto; congruence); try destruct SA.
  - inversion G as [? ? SA SB K D|? l2 F2|]; subst; [destruct SA|]. apply Ty_array. clear H G. revert l2 F2 IH.
    induction F; intros l2 F2 IH; inversion F2; subst; constructor; inversion IH; subst; eauto.
  - inversion G as [? ? SA SB K D| |? l2 F2]; subst; [destruct SA|]. apply Ty_table. clear H G. revert l2 F2 IH.
    induction F as [|? ? ? ? [E X] F IHF]; intros l2 F2 IH; inversion F2 as [|? ? ? ? [E2 X2] F3]; subst; constructor; inversion IH; subst; auto.
    split; [congruence|eauto].
Qed.
Lemma types_kind : forall a b, same_types a b -> DocSpec.kind a = DocSpec.kind b.
Proof. intros a b H. inversion H; subst; auto. Qed.
Lemma types_turns : forall l l', Forall2 same_types l l' -> same_turns l l'.
Proof.
  induction 1 as [|a b l l' X F IH]; cbn [same_turns]; auto. split; auto. inversion F as [|c d r r' Y]; subst; auto.
  rewrite (types_kind _ _ X), (types_kind _ _ Y). tauto.
Qed.
Lemma types_kindred : forall a b, same_types a b -> kindred a b.
Proof.
  induction a as [| | | | |vs IH|kvs IH] using value_ind'; intros b0 H; inversion H as [? ? SA SB K D|? l' F|? l' F]; subst; try (apply Ki_scalar; auto; fail); try destruct SA.
  - apply Ki_array; [|apply types_turns; auto]. clear H. revert IH. induction F; intros IH; constructor; inversion IH; subst; auto.
  - apply Ki_table. clear H. revert IH. induction F as [|? ? ? ? [E X] F IHF]; intros IH; constructor; inversion IH; subst; auto.
Qed.
Lemma types_shape : forall a b, same_types a b -> same_shape a b.
Proof.
  induction a as [| | | | |vs IH|kvs IH] using value_ind'; intros b0 H; inversion H as [? ? SA SB K D|? l' F|? l' F]; subst; try (apply SS_scalar; auto; fail); try destruct SA.
  - apply SS_array. clear H. revert IH. induction F; intros IH; constructor; inversion IH; subst; auto.
  - apply SS_table. clear H. revert IH. induction F as [|? ? ? ? [E X] F IHF]; intros IH; constructor; inversion IH; subst; auto.
Qed.

(** ** What writing keeps *)
Lemma ids_upd : forall h n id nv, leaf (h id) -> leaf nv -> forall c, Forall (good h n) (subcells c) ->
  ids (subcells (upd_c id nv c)) = ids (subcells c).
Proof.
  intros h n id nv L Ln c. induction c as [i t IH] using cell_ind'. intros G. rewrite upd_c_eq, !ids_subcells. cbn [c_id c_val]. f_equal.
  assert (GI := Forall_inv G). destruct GI as [_ GI]. cbn [c_id c_val] in GI.
  destruct (i =? id) eqn:E; [apply N.eqb_eq in E; subst i; rewrite GI in L; rewrite !leaf_cells; auto|].
  apply Forall_inv_tail in G. cbn [c_val] in G. rewrite (tcells_kids t) in G. rewrite (tcells_kids (upd_tval id nv t)), (tcells_kids t), upd_kids. clear - IH G.
  induction IH as [|k ks X F IHF]; auto. cbn [map flat_map] in *. apply Forall_app in G as [G1 G2]. rewrite !ids_app, X, IHF; auto.
Qed.
Definition crel (c c' : cell) : Prop := c.(c_id) = c'.(c_id) /\ (c.(c_val) = TTable <-> c'.(c_val) = TTable).
(** the same keys with the same children and the same cells, whose contents may differ *)
Record sess (s s' : pst) : Prop := {
  se_val : forall k, orel crel (valof s.(p_map) k) (valof s'.(p_map) k);
  se_kids : forall k, get_children s' k = get_children s k;
  se_ids : ids (toml_cells s'.(p_root)) = ids (toml_cells s.(p_root));
  se_errors : s'.(p_errors) = s.(p_errors)
}.
Lemma sess_refl : forall s, sess s s.
Proof. intros s. constructor; auto. intros k. destruct (valof _ _); cbn; auto. split; tauto. Qed.
Lemma sess_trans : forall a b c, sess a b -> sess b c -> sess a c.
Proof.
  intros a b c [A1 A2 A3 A4] [B1 B2 B3 B4]. constructor; [|intros; rewrite B2; auto|congruence|congruence].
  intros k. specialize (A1 k). specialize (B1 k). destruct (valof (p_map a) k), (valof (p_map b) k), (valof (p_map c) k); cbn [orel] in *; try contradiction; auto.
  destruct A1, B1. split; [congruence|tauto].
Qed.
Lemma sess_write : forall h s id nv, wf h s -> plain_leaf (h id) -> plain_leaf nv -> sess s (write s (id, nv)).
Proof.
  intros h s id nv W [L NT] [Ln NN]. constructor.
  - intros k. unfold write. cbn [p_map set_root set_map]. rewrite valof_upd. destruct (valof (p_map s) k) as [c|] eqn:V; [|exact I].
    cbn [orel]. split; [rewrite upd_c_id; auto|]. rewrite upd_c_eq. cbn [c_val].
    pose proof (co_good _ _ (wf_co _ _ W) _ _ V) as G. apply Forall_inv in G. destruct G as [_ G].
    destruct (c_id c =? id) eqn:E; [apply N.eqb_eq in E; subst id; rewrite G in NT; tauto|].
    destruct (c_val c); cbn [upd_tval]; split; auto; discriminate.
  - intros k. apply get_children_write.
  - unfold write. cbn [p_root set_root]. pose proof (wf_root _ _ W) as G. rewrite !toml_cells_tops in *. rewrite upd_tops. clear NT NN.
    induction (tops (p_root s)) as [|c cs IH]; auto. cbn [map flat_map] in *. apply Forall_app in G as [G1 G2].
    rewrite !ids_app, IH by auto. f_equal. eapply ids_upd; eauto.
  - reflexivity.
Qed.
Lemma sess_writes : forall ws h s, wf h s ->
  Forall (fun w => plain_leaf (snd w) /\ plain_leaf (h (fst w)) /\ fst w < s.(p_next)) ws -> sess s (fold_left write ws s).
Proof.
  induction ws as [|[id nv] ws IH]; intros h s W F; [apply sess_refl|]. inversion F as [|x y (P & Q & LT) F2]; subst. cbn [fst snd fold_left] in *.
  apply (sess_trans _ (write s (id, nv))); [apply (sess_write h); auto|].
  eapply IH; [apply wf_write; [exact W|apply fresh_leaf; [exact LT|exact (proj1 P)]]|].
  eapply Forall_impl; [|exact F2]. cbv beta. intros w (A & B & C). rewrite write_next. split; auto. split; auto. apply heap_plain; auto.
Qed.
(** the cells that set_value writes to *)
Lemma targets : forall s h k c old v ws, wf h s -> valof s.(p_map) k = Some c -> to_val c.(c_val) = Ok old -> same_shape old v ->
  ApiFacts.filled c.(c_val) old v c.(c_id) ws ->
  Forall (fun w => plain_leaf (snd w) /\ plain_leaf (h (fst w)) /\ fst w < s.(p_next)) ws.
Proof.
  intros s h k c old v ws W VC T S F. pose proof (replace_targets _ _ _ _ _ T S (fi_ws _ _ _ _ _ F)) as RT.
  eapply Forall_impl; [|exact RT]. cbv beta. intros w (A & x & I & Q & P). destruct c as [ci ct]. cbn [c_id c_val] in *.
  pose proof (co_good _ _ (wf_co _ _ W) _ _ VC) as G. rewrite Forall_forall in G. destruct (G _ I) as [LT E]. rewrite Q in LT, E.
  split; auto. split; auto. rewrite E. exact P.
Qed.
Lemma set_none : forall s k v, get_value s k = Ok None -> set_value s k v = Ok (s, false).
Proof. intros s k v G. apply get_value_none in G. unfold valof in G. unfold set_value. destruct (hget k (p_map s)) as [[[c|] x]|]; cbn [hv_value] in *; auto; discriminate. Qed.
Lemma keeping_sess : forall ovf (R : value -> value -> Prop) s us s', (forall a b, R a b -> same_shape a b) -> updates_keeping R s us s' -> reach ovf s -> written s ->
  reach ovf s' /\ written s' /\ sess s s'.
Proof.
  intros ovf R s us s' RS U. induction U as [s|s k old v s1 b us s2 G S V E U IH|s k v s1 b us s2 G E U IH]; intros RE WR.
  - split; [|split]; auto. apply sess_refl.
  - destruct IH as (A & B & C); [eapply R_set; eauto|eapply written_same; eauto|]. split; [|split]; auto. eapply sess_trans; [|exact C].
    destruct (reach_wf _ _ RE) as (h & W). apply get_value_some in G as (c & VC & T).
    destruct (fill_ok _ _ _ c.(c_id) T (RS _ _ S) V) as (ws & F). rewrite (UpdateFacts.set_same _ _ _ _ _ _ VC F) in E. inversion E; subst.
    eapply sess_writes; eauto. eapply targets; eauto.
  - rewrite (set_none _ _ _ G) in E. inversion E; subst. auto.
Qed.
Lemma keeping_updates : forall R s us s', updates_keeping R s us s' -> updates s us s'.
Proof. induction 1; econstructor; eauto. Qed.

(** ** The values of all cells *)
Fixpoint subvals (v : value) : list value :=
  v :: match v with
       | VArray l => flat_map subvals l
       | VInlineTable l => flat_map (fun kv => subvals (snd kv)) l
       | _ => []
       end.
Definition holds (c : cell) (w : value) : Prop := to_val c.(c_val) = Ok w.
Lemma holds_sub : forall t i v, to_val t = Ok v -> Forall2 holds (subcells (Cell i t)) (subvals v).
Proof.
  induction t using tval_ind'; intros i v0 T.
  5:{ pose proof T as T0. cbn [to_val] in T. apply rbind_ok in T as (l0 & T & Q). inversion Q; subst. clear Q. constructor; [exact T0|].
      cbn [c_val]. rewrite tcells_kids. cbn [kids]. clear T0. revert l0 T. induction H as [|x vals Hx F IH]; intros l0 T.
      - inversion T; subst. constructor.
      - apply rmap_cons in T as (a & b & Ta & Tb & ->). cbn [map flat_map]. apply Forall2_app; auto. destruct (av_val x); apply Hx; auto. }
  6:{ pose proof T as T0. cbn [to_val] in T. apply rbind_ok in T as (l0 & T & Q). inversion Q; subst. clear Q. constructor; [exact T0|].
      cbn [c_val]. rewrite tcells_kids. cbn [kids]. clear T0. revert l0 T. induction H as [|x vals Hx F IH]; intros l0 T.
      - inversion T; subst. constructor.
      - apply rmap_cons in T as (a & b & Ta & Tb & ->). apply rbind_ok in Ta as (a' & Ta & Q). inversion Q; subst. cbn [map flat_map snd]. apply Forall2_app; auto.
        destruct (kv_val (tk_kv x)); apply Hx; auto. }
  all: cbn [to_val] in T; inversion T; subst; cbn [subvals]; constructor; try constructor.
Qed.
Notation stand := (Forall2 (fun x e => e.(ne_nl) = fst x /\ stands_for (snd x) e.(ne_expr))).
Definition itemvals (i : item) : list value := match i with IPair _ v => subvals v | _ => [] end.
Lemma holds_doc : forall l t, stand l t -> Forall2 holds (toml_cells t) (flat_map itemvals (contents l)).
Proof.
  induction 1 as [|[nl d] e l t [_ S] F IH]; [constructor|]. change (toml_cells (e :: t)) with (ex_cells (ne_expr e) ++ toml_cells t).
  change (contents ((nl, d) :: l)) with (content d ++ contents l). rewrite flat_map_app. apply Forall2_app; auto. cbn [snd] in S.
  destruct d as [[w c|w0 key w1 w2 v tx w3 c|w0 w1 n m w2 w3 c]|w0 w1 n m w2 w3 c]; cbn [stands_for content flat_map itemvals app] in *; try (rewrite S; constructor; fail).
  destruct S as (x & T & ->). rewrite app_nil_r. unfold ex_cells, kv_cells. cbn. destruct x. apply holds_sub; auto.
Qed.
Lemma holds_two : forall l l2 ws, Forall2 holds l ws -> Forall2 holds l2 ws -> ids l = ids l2 -> NoDup (ids l) ->
  forall c d, In c l -> In d l2 -> c.(c_id) = d.(c_id) -> exists w, holds c w /\ holds d w.
Proof.
  induction l as [|a l IH]; intros l2 ws F G E N c d I J Q; [destruct I|]. inversion F as [|? w ? ws' X F']; subst. inversion G as [|b ? l2' ? Y G']; subst.
  cbn [ids map] in E. inversion E as [[E1 E2]]. inversion N as [|? ? NI N']; subst. 
  destruct I as [->|I], J as [->|J]; eauto.
  - exfalso. apply NI. fold (ids l2'). fold (ids l2') in E2. change (map c_id l) with (ids l) in *. rewrite E2, Q. apply in_map; auto.
  - exfalso. apply NI. rewrite E1, <- Q. apply in_map; auto.
Qed.

(** ** Reading again *)
Lemma not_nested : ~ starts_nested [].
Proof. intros (k & w1 & w2 & c & x & E & _). apply (f_equal (@length N)) in E. rewrite !app_length in E. cbn [length] in E. lia. Qed.
Lemma read_again : forall ovf (R : value -> value -> Prop) l s r us s' l', (forall a b, R a b -> same_shape a b) -> formed_doc l -> parse (new_parser ovf) (tdoc_text l) = Ok (s, r) ->
  updates_keeping R s us s' -> formed_doc l' -> stand l' s'.(p_root) -> Forall2 kindred_item (contents l) (contents l') ->
  exists s2 r2, parse (new_parser ovf) (tdoc_text l') = Ok (s2, r2) /\
    (forall k, get_value s2 k = get_value s' k) /\ (forall k, get_children s2 k = get_children s' k) /\
    same_errors s'.(p_errors) s2.(p_errors) /\ kindred_result r r2 /\ kindred_answers s s2.
Proof.
  intros ovf R l s r us s' l' RS F P U F' ST KI. pose proof (parse_kin (new_parser ovf) l l' F F' KI) as K. rewrite P in K.
  destruct (parse (new_parser ovf) (tdoc_text l')) as [[s2 r2]| |] eqn:P2; try contradiction. destruct K as (K & NI & KR).
  assert (WR : written s).
  { eapply parse_written; [exact P|]. destruct (doc_whole _ _ _ _ F P) as (_ & LO & _). rewrite LO. exact not_nested. }
  assert (WR2 : written s2).
  { eapply parse_written; [exact P2|]. destruct (doc_whole _ _ _ _ F' P2) as (_ & LO & _). rewrite LO. exact not_nested. }
  destruct (keeping_sess ovf R s us s' RS U) as (RE & WR' & SE); auto; [eapply R_parse; [apply R_new|exact P]|].
  exists s2, r2. split; [reflexivity|]. destruct (doc_whole _ _ _ _ F' P2) as (_ & _ & ST2). split; [|split; [|split; [|split]]]; auto; [| | |eapply kin_answers; exact K].
  - intros k. pose proof (kn_map _ _ _ K k) as M. pose proof (se_val _ _ SE k) as M'.
    assert (M2 : orel crel (valof (p_map s) k) (valof (p_map s2) k)).
    { unfold valof. destruct (hget k (p_map s)) as [[o x]|], (hget k (p_map s2)) as [[o2 x2]|]; cbn [orel] in M; try contradiction; cbn; auto.
      destruct M as [M _]. cbn [hv_value] in M. destruct o as [c|], o2 as [d|]; cbn [orel] in *; try contradiction; auto. destruct M as [M1 M]. split; auto.
      destruct M as [->|(v & v' & A & B & _)]; [tauto|]. split; intros Q; rewrite Q in *; discriminate. }
    clear M. assert (GV : forall z, get_value z k = match valof (p_map z) k with Some c => rbind (to_val (c_val c)) (fun v => Ok (Some v)) | None => Ok None end).
    { intros z. unfold get_value, valof. destruct (hget k (p_map z)) as [[[c|] x]|]; auto. }
    rewrite !GV. destruct (valof (p_map s) k) as [c|]; cbn [orel] in *; destruct (valof (p_map s') k) as [c'|] eqn:V'; try contradiction; destruct (valof (p_map s2) k) as [c2|] eqn:V2; try contradiction; auto.
    destruct M' as [I1 T1], M2 as [I2 T2]. destruct (WR' _ _ V') as [T|IN].
    + rewrite T. assert (T0 : c_val c2 = TTable) by tauto. rewrite T0. reflexivity.
    + destruct (WR2 _ _ V2) as [T|IN2]; [assert (T0 : c_val c' = TTable) by tauto; rewrite T, T0; reflexivity|].
      destruct (reach_wf _ _ RE) as (h & W).
      destruct (holds_two _ _ _ (holds_doc _ _ ST) (holds_doc _ _ ST2)) with (c := c') (d := c2) as (w & H1 & H2); auto;
        [rewrite (se_ids _ _ SE); exact NI|apply (wf_dup _ _ W)|congruence|]. unfold holds in *. rewrite H1, H2. reflexivity.
  - intros k. destruct (kin_answers _ _ _ K) as [KC _]. rewrite (se_kids _ _ SE), KC. reflexivity.
  - rewrite (se_errors _ _ SE). apply (kn_errors _ _ _ K).
Qed.

(** ** Updates that keep the types *)
Definition typed (t t' : tval) : Prop := exists v v', to_val t = Ok v /\ to_val t' = Ok v' /\ same_types v v'.
Lemma typed_trans : forall a b c, typed a b -> typed b c -> typed a c.
Proof. intros a b c (v & v' & A & B & S) (w & w' & C & D & T). rewrite B in C. inversion C; subst. exists v, w'. repeat split; auto. eapply types_trans; eauto. Qed.
Lemma typed_sym : forall a b, typed a b -> typed b a.
Proof. intros a b (v & v' & A & B & S). exists v', v. repeat split; auto. apply types_sym; auto. Qed.
Lemma upd_typed : forall h n id nv, typed (h id) nv -> forall t i v, Forall (good h n) (subcells (Cell i t)) -> to_val t = Ok v ->
  exists v', to_val (upd_c id nv (Cell i t)).(c_val) = Ok v' /\ same_types v v'.
Proof.
  intros h n id nv TY. induction t using tval_ind'; intros i v0 G T; pose proof (Forall_inv G) as [_ GI]; cbn [c_id c_val] in GI; rewrite upd_c_eq; cbn [c_id c_val];
    (destruct (i =? id) eqn:E; [apply N.eqb_eq in E; subst i; rewrite GI in TY; destruct TY as (a & a' & A & B & S); rewrite A in T; inversion T; subst; eauto|]).
  5:{ clear GI. apply Forall_inv_tail in G. cbn [c_val] in G. rewrite tcells_kids in G. cbn [kids] in G. cbn [to_val] in T. apply rbind_ok in T as (l0 & T & Q). inversion Q; subst. clear Q.
      rewrite upd_arr. cbn [to_val].
      enough (X : exists l', rmap (fun av => to_val av.(av_val).(c_val)) (map (upd_av id nv) vals) = Ok l' /\ Forall2 same_types l0 l').
      { destruct X as (l' & -> & X). cbn [rbind]. eexists. split; [reflexivity|]. apply Ty_array; auto. }
      revert l0 T G. induction H as [|x vals Hx F IH]; intros l0 T G.
      - inversion T; subst. exists []. split; [reflexivity|constructor].
      - apply rmap_cons in T as (a & b & Ta & Tb & ->). cbn [map flat_map] in G. apply Forall_app in G as [G1 G2].
        destruct (IH b Tb G2) as (l' & A & B). destruct x as [[xi xt] sp nl]. cbn [av_val c_val] in *. destruct (Hx xi a G1 Ta) as (a' & A' & B').
        exists (a' :: l'). split; [|constructor; auto]. cbn [map]. apply rmap_eq; auto. }
  6:{ clear GI. apply Forall_inv_tail in G. cbn [c_val] in G. rewrite tcells_kids in G. cbn [kids] in G. cbn [to_val] in T. apply rbind_ok in T as (l0 & T & Q). inversion Q; subst. clear Q.
      rewrite upd_inl. cbn [to_val].
      enough (X : exists l', rmap (fun tk => let? x := to_val tk.(tk_kv).(kv_val).(c_val) in Ok (tk.(tk_kv).(kv_key), x)) (map (upd_tk id nv) kvs) = Ok l' /\
        Forall2 (fun x y => fst x = fst y /\ same_types (snd x) (snd y)) l0 l').
      { destruct X as (l' & -> & X). cbn [rbind]. eexists. split; [reflexivity|]. apply Ty_table; auto. }
      revert l0 T G. induction H as [|x kvs Hx F IH]; intros l0 T G.
      - inversion T; subst. exists []. split; [reflexivity|constructor].
      - apply rmap_cons in T as (a & b & Ta & Tb & ->). apply rbind_ok in Ta as (a1 & Ta & Q). inversion Q; subst. cbn [map flat_map] in G. apply Forall_app in G as [G1 G2].
        destruct (IH b Tb G2) as (l' & A & B). destruct x as [[kk ks [xi xt]] sp nl]. cbn [tk_kv kv_val kv_key c_val] in *. destruct (Hx xi a1 G1 Ta) as (a' & A' & B').
        exists ((kk, a') :: l'). split; [|constructor; auto]. cbn [map]. apply rmap_eq; auto. cbn [upd_tk tk_kv kv_val kv_key]. rewrite A'. reflexivity. }
  all: try discriminate T; cbn [upd_tval]; exists v0; split; auto; apply types_refl.
Qed.
Definition tline_rel (e e' : nl_expression) : Prop :=
  match e.(ne_expr).(e_keyval), e'.(ne_expr).(e_keyval) with
  | Some x, Some y => typed x.(kv_val).(c_val) y.(kv_val).(c_val)
  | None, None => True
  | _, _ => False
  end.
Lemma rel_trans : forall a b, Forall2 tline_rel a b -> forall c, Forall2 tline_rel b c -> Forall2 tline_rel a c.
Proof.
  induction 1 as [|x y a b X F IH]; intros c G; inversion G as [|? z ? ? Y G']; subst; constructor; auto. unfold tline_rel in *.
  destruct (e_keyval (ne_expr x)), (e_keyval (ne_expr y)), (e_keyval (ne_expr z)); try contradiction; auto. eapply typed_trans; eauto.
Qed.
Definition sound (t : toml) : Prop := Forall2 tline_rel t t.
Lemma rel_sound : forall a b, Forall2 tline_rel a b -> sound b.
Proof.
  unfold sound. induction 1 as [|x y a b X F IH]; constructor; auto. unfold tline_rel in *. destruct (e_keyval (ne_expr x)), (e_keyval (ne_expr y)); try contradiction; auto.
  eapply typed_trans; [apply typed_sym|]; eauto.
Qed.
Lemma rel_write : forall h s id nv, wf h s -> typed (h id) nv -> sound s.(p_root) -> Forall2 tline_rel s.(p_root) (write s (id, nv)).(p_root).
Proof.
  intros h s id nv W TY SO. pose proof (wf_root _ _ W) as G. unfold write. cbn [p_root set_root]. unfold sound in SO. induction (p_root s) as [|e t IH]; [constructor|].
  inversion SO as [|? ? ? ? X SO']; subst. change (toml_cells (e :: t)) with (ex_cells (ne_expr e) ++ toml_cells t) in G. apply Forall_app in G as [G1 G2].
  constructor; auto. unfold tline_rel in *. cbn [ne_expr upd_expr e_keyval]. unfold ex_cells, kv_cells in G1. destruct (e_keyval (ne_expr e)) as [kv|]; auto.
  cbn [kv_val]. destruct X as (v & v' & A & _). destruct (kv_val kv) as [i t0]. cbn [c_val] in A. destruct (upd_typed h (p_next s) id nv TY t0 i v G1 A) as (w & B & C).
  exists v, w. auto.
Qed.
Lemma typed_heap : forall h id nv x w, typed (h id) nv -> leaf (h x) -> typed (h x) w -> typed (heap_upd id nv h x) w.
Proof.
  intros h id nv x w A L B. unfold heap_upd. destruct (x =? id) eqn:E; [|rewrite upd_leaf; auto].
  apply N.eqb_eq in E. subst x. eapply typed_trans; [apply typed_sym; exact A|exact B].
Qed.
Lemma rel_writes : forall ws h s, wf h s -> sound s.(p_root) ->
  Forall (fun w => plain_leaf (snd w) /\ plain_leaf (h (fst w)) /\ fst w < s.(p_next)) ws -> Forall (fun w => typed (h (fst w)) (snd w)) ws ->
  Forall2 tline_rel s.(p_root) (fold_left write ws s).(p_root).
Proof.
  induction ws as [|[id nv] ws IH]; intros h s W SO F TY; [exact SO|]. inversion F as [|x y (P & Q & LT) F2]; subst. inversion TY as [|? ? T1 T2]; subst. cbn [fst snd fold_left] in *.
  pose proof (rel_write h s id nv W T1 SO) as R. apply (rel_trans _ _ R).
  apply (IH (heap_upd id nv h)); [apply wf_write; [exact W|apply fresh_leaf; [exact LT|exact (proj1 P)]]|eapply rel_sound; exact R| |].
  - eapply Forall_impl; [|exact F2]. cbv beta. intros w (A & B & C). rewrite write_next. split; auto. split; auto. apply heap_plain; auto.
  - rewrite Forall_forall in *. intros w I. apply typed_heap; auto. destruct (F2 w I) as (_ & B & _). exact (proj1 B).
Qed.
Lemma replace_typed : forall t id v0 v ws, to_val t = Ok v0 -> same_types v0 v -> replace_values id t v = Ok ws ->
  Forall (fun w => exists c, In c (subcells (Cell id t)) /\ c.(c_id) = fst w /\ typed c.(c_val) (snd w)) ws.
Proof.
  assert (ONE : forall id t nv, typed t nv ->
    Forall (fun w : N * tval => exists c, In c (subcells (Cell id t)) /\ c.(c_id) = fst w /\ typed c.(c_val) (snd w)) [(id, nv)]).
  { intros. constructor; [|constructor]. exists (Cell id t). split; [left; auto|auto]. }
  induction t using tval_ind'; intros id v0 v ws0 T S E.
  5:{ cbn [to_val] in T. apply rbind_ok in T as (l0 & T & Q). inversion Q; subst. inversion S as [a b SA|l l' S1|]; subst; [destruct SA|].
      cbn [replace_values] in E. clear Q S ONE.
      enough (G : Forall (fun w => exists x, In x vals /\ exists c, In c (subcells (av_val x)) /\ c.(c_id) = fst w /\ typed c.(c_val) (snd w)) ws0).
      { eapply Forall_impl; [|exact G]. cbv beta. intros w (x & I & c & J & B). exists c. split; auto.
        right. cbn [c_val]. rewrite tcells_kids. apply in_flat_subcells. exists (av_val x). split; auto. cbn [kids]. apply in_map; auto. }
      revert l0 l' ws0 T S1 E. induction H as [|x vals Hx F IH]; intros l0 l' ws0 T S1 E.
      - inversion T; subst. inversion S1; subst. inversion E. constructor.
      - apply rmap_cons in T as (a & b & Ta & Tb & ->). inversion S1 as [|? y ? l2 Sa Sb]; subst.
        cbn [rzip] in E. apply rbind_ok in E as (wa & Ea & E). apply rbind_ok in E as (wb & Eb & E). inversion E; subst.
        apply Forall_app. split.
        + eapply Forall_impl; [|eapply Hx; eauto]. cbv beta. intros w (c & I & B). exists x. split; [left; auto|].
          exists c. split; auto. destruct (av_val x); auto.
        + eapply Forall_impl; [|eapply IH; eauto]. cbv beta. intros w (z & I & B). exists z. split; [right; auto|auto]. }
  6:{ cbn [to_val] in T. apply rbind_ok in T as (l0 & T & Q). inversion Q; subst. inversion S as [a b SA| |l l' S1]; subst; [destruct SA|].
      cbn [replace_values] in E. clear Q S ONE.
      enough (G : Forall (fun w => exists x, In x kvs /\ exists c, In c (subcells (kv_val (tk_kv x))) /\ c.(c_id) = fst w /\ typed c.(c_val) (snd w)) ws0).
      { eapply Forall_impl; [|exact G]. cbv beta. intros w (x & I & c & J & B). exists c. split; auto.
        right. cbn [c_val]. rewrite tcells_kids. apply in_flat_subcells. exists (kv_val (tk_kv x)). split; auto. cbn [kids].
        apply in_map_iff. eauto. }
      revert l0 l' ws0 T S1 E. induction H as [|x kvs Hx F IH]; intros l0 l' ws0 T S1 E.
      - inversion T; subst. inversion S1; subst. inversion E. constructor.
      - apply rmap_cons in T as (a & b & Ta & Tb & ->). apply rbind_ok in Ta as (a' & Ta & Q). inversion Q; subst.
        inversion S1 as [|? y ? l2 [_ Sa] Sb]; subst.
        cbn [rzip] in E. apply rbind_ok in E as (wa & Ea & E). apply rbind_ok in E as (wb & Eb & E). inversion E; subst.
        apply Forall_app. split.
        + eapply Forall_impl; [|eapply Hx; eauto]. cbv beta. intros w (c & I & B). exists x. split; [left; auto|].
          exists c. split; auto. destruct (kv_val (tk_kv x)); auto.
        + eapply Forall_impl; [|eapply IH; eauto]. cbv beta. intros w (z & I & B). exists z. split; [right; auto|auto]. }
  6:{ discriminate. }
  all: cbn [to_val] in T; inversion T; subst; inversion S as [? ? SA SB| |]; subst; cbn [replace_values] in E; destruct v; try destruct SB;
    inversion E; subst; apply ONE; eexists; eexists; (split; [reflexivity|]); (split; [reflexivity|exact S]).
Qed.
Lemma keeping_types : forall ovf s us s', updates_keeping same_types s us s' -> reach ovf s -> sound s.(p_root) -> Forall2 tline_rel s.(p_root) s'.(p_root).
Proof.
  intros ovf s us s' U. induction U as [s|s k old v s1 b us s2 G S V E U IH|s k v s1 b us s2 G E U IH]; intros RE SO.
  - exact SO.
  - assert (X : Forall2 tline_rel (p_root s) (p_root s1)).
    { destruct (reach_wf _ _ RE) as (h & W). apply get_value_some in G as (c & VC & T).
      destruct (fill_ok _ _ _ c.(c_id) T (types_shape _ _ S) V) as (ws & F). rewrite (UpdateFacts.set_same _ _ _ _ _ _ VC F) in E. inversion E; subst.
      apply (rel_writes ws h); auto; [eapply targets; eauto using types_shape|].
      pose proof (replace_typed _ _ _ _ _ T S (fi_ws _ _ _ _ _ F)) as RT. eapply Forall_impl; [|exact RT]. cbv beta. intros w (x & I & Q & P). destruct c as [ci ct]. cbn [c_id c_val] in *.
      pose proof (co_good _ _ (wf_co _ _ W) _ _ VC) as G. rewrite Forall_forall in G. destruct (G _ I) as [_ E1]. rewrite Q in E1. rewrite E1. exact P. }
    apply (rel_trans _ _ X). apply IH; [eapply R_set; eauto|eapply rel_sound; exact X].
  - rewrite (set_none _ _ _ G) in E. inversion E; subst. auto.
Qed.
Lemma stand_sound : forall l t, stand l t -> sound t.
Proof.
  unfold sound. induction 1 as [|[nl d] e l t [_ S] F IH]; constructor; auto. unfold tline_rel. cbn [snd] in S.
  destruct d as [[w c|w0 key w1 w2 v tx w3 c|w0 w1 n m w2 w3 c]|w0 w1 n m w2 w3 c]; cbn [stands_for] in S; try (rewrite S; exact I).
  destruct S as (x & T & ->). cbn. exists v, v. repeat split; auto. apply types_refl.
Qed.
Lemma rel_kindred : forall t t', Forall2 tline_rel t t' -> kindred_values t t'.
Proof.
  unfold kindred_values. induction 1 as [|x y t t' X F IH]; constructor; auto. unfold tline_rel in X. destruct (e_keyval (ne_expr x)), (e_keyval (ne_expr y)); auto.
  destruct X as (v & v' & A & B & C). exists v, v'. repeat split; auto. apply types_kindred; auto.
Qed.
Lemma stand_kindred : forall l t l' t', stand l t -> stand l' t' -> Forall2 (fun x y => fst x = fst y /\ same_but_value (snd x) (snd y)) l l' ->
  kindred_values t t' -> Forall2 kindred_item (contents l) (contents l').
Proof.
  intros l t l' t' S. revert l' t'. induction S as [|[nl d] e l t [_ S] F IH]; intros l' t' S' B R; inversion B as [|? [nl' d'] ? l2 [_ B1] B2]; subst; [constructor|].
  inversion S' as [|? e' ? t2 [_ S1] S2]; subst. inversion R as [|? ? ? ? R1 R2]; subst. cbn [snd fst] in *.
  change (contents ((nl, d) :: l)) with (content d ++ contents l). change (contents ((nl', d') :: l2)) with (content d' ++ contents l2). apply Forall2_app; [|eapply IH; eauto].
  destruct d as [[w c|w0 key w1 w2 v tx w3 c|w0 w1 n m w2 w3 c]|w0 w1 n m w2 w3 c];
    try (cbn [same_but_value] in B1; subst d'; cbn [content]; first [constructor; [reflexivity|constructor]|constructor]).
  destruct d' as [[w' c'|w0' key' w1' w2' v' tx' w3' c'|w0' w1' n' m' w2' w3' c']|w0' w1' n' m' w2' w3' c']; cbn [same_but_value] in B1; try discriminate B1.
  destruct B1 as (_ & -> & _). cbn [content]. constructor; [|constructor]. split; [reflexivity|]. cbn [stands_for] in S, S1. destruct S as (x & T & Q), S1 as (x' & T' & Q').
  rewrite Q, Q' in R1. cbn in R1. destruct R1 as (a & a' & A & A' & Y). rewrite T in A. rewrite T' in A'. inversion A; subst. inversion A'; subst. exact Y.
Qed.
Lemma again_kindred : forall ovf l s r us s', formed_doc l -> parse (new_parser ovf) (tdoc_text l) = Ok (s, r) ->
  updates_keeping same_shape s us s' -> Forall (fun u => well_spelled (snd u)) us -> kindred_values s.(p_root) s'.(p_root) ->
  forall t, show_parser s' = Ok t -> exists s2 r2, parse (new_parser ovf) t = Ok (s2, r2) /\
    (forall k, get_value s2 k = get_value s' k) /\ (forall k, get_children s2 k = get_children s' k) /\
    same_errors s'.(p_errors) s2.(p_errors) /\ kindred_result r r2 /\ kindred_answers s s2.
Proof.
  intros ovf l s r us s' F P U WS K t SH. destruct (doc_stays _ _ _ _ _ _ F P (keeping_updates _ _ _ _ U) WS) as (l' & F' & B & ST & T & _).
  rewrite (T t SH). destruct (doc_whole _ _ _ _ F P) as (_ & _ & S0).
  apply (read_again ovf same_shape l s r us s' l'); auto. eapply stand_kindred; eauto.
Qed.
Lemma keeping_impl : forall (R R' : value -> value -> Prop) s us s', (forall a b, R a b -> R' a b) -> updates_keeping R s us s' -> updates_keeping R' s us s'.
Proof. intros R R' s us s' I U. induction U; [constructor|eapply Uk_one; eauto|eapply Uk_missing; eauto]. Qed.
Lemma again_typed : forall ovf l s r us s', formed_doc l -> parse (new_parser ovf) (tdoc_text l) = Ok (s, r) ->
  updates_keeping same_types s us s' -> Forall (fun u => well_spelled (snd u)) us ->
  forall t, show_parser s' = Ok t -> exists s2 r2, parse (new_parser ovf) t = Ok (s2, r2) /\
    (forall k, get_value s2 k = get_value s' k) /\ (forall k, get_children s2 k = get_children s' k) /\
    same_errors s'.(p_errors) s2.(p_errors) /\ kindred_result r r2 /\ kindred_answers s s2.
Proof.
  intros ovf l s r us s' F P U WS. apply (again_kindred ovf l s r us s'); auto; [eapply keeping_impl; [exact types_shape|exact U]|].
  destruct (doc_whole _ _ _ _ F P) as (_ & _ & S0).
  apply rel_kindred. eapply keeping_types; eauto; [eapply R_parse; [apply R_new|exact P]|eapply stand_sound; eauto].
Qed.
