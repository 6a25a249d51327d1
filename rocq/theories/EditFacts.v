(** Values that are found stay in the document when values are replaced. *)
From Coq Require Import Lia ZifyBool ZifyNat ZifyN.
From Verif Require Import TotalFacts Str Regex Types Ast State Nom Keys Grammar Api Facts Spec RegexFacts NomFacts DateFacts RoundTrip Effects
  ParseFacts WalkFacts StringFacts LineFacts ScalarFacts HeadSpec SafeFacts CountFacts IdFacts WriteFacts SetFacts ApiSpec ApiFacts UpdateFacts
  CtorFacts ReportFacts WrittenFacts WrittenSpec.

Definition plain_leaf (t : tval) : Prop := leaf t /\ t <> TTable.

Lemma upd_sub : forall h n id nv, leaf (h id) -> forall c1 c, Forall (good h n) (subcells c1) -> In c (subcells c1) ->
  In (upd_c id nv c) (subcells (upd_c id nv c1)).
Proof.
  intros h n id nv L. assert (A : forall t i c, Forall (good h n) (subcells (Cell i t)) -> In c (subcells (Cell i t)) ->
    In (upd_c id nv c) (subcells (upd_c id nv (Cell i t)))).
  { induction t using tval_ind'; intros i c G I; (destruct I as [<-|I]; [left; auto|]); try contradiction.
    all: assert (NE : i <> id) by (intros ->; inversion G as [|? ? [_ X] _]; subst; cbn [c_id c_val] in X; rewrite X in L; exact L).
    all: match goal with |- In ?x (subcells (upd_c ?a ?b ?c)) => rewrite (upd_c_eq a b c) end; cbn [c_id]; rewrite (proj2 (N.eqb_neq _ _) NE); right; cbn [c_val] in *.
    all: rewrite tcells_kids in I |- *; rewrite upd_kids; apply in_flat_subcells in I as (c1 & I & J); apply in_flat_subcells;
      exists (upd_c id nv c1); split; [apply in_map; auto|].
    all: assert (G1 : Forall (good h n) (subcells c1)) by (eapply good_sub; [exact G|]; right; cbn [c_val]; rewrite tcells_kids;
      apply in_flat_subcells; exists c1; split; auto; left; auto).
    all: cbn [kids] in I; apply in_map_iff in I as (x & E & I); rewrite Forall_forall in H; specialize (H x I).
    - subst c1. destruct (av_val x) as [xi xt]. apply H; auto.
    - subst c1. destruct (kv_val (tk_kv x)) as [xi xt]. apply H; auto. }
  intros [i t]. apply A.
Qed.
Lemma upd_root : forall h n id nv d c, leaf (h id) -> Forall (good h n) (toml_cells d) -> In c (toml_cells d) ->
  In (upd_c id nv c) (toml_cells (upd_toml id nv d)).
Proof.
  intros h n id nv d c L G I. rewrite toml_cells_tops in G, I |- *. rewrite upd_tops. apply in_flat_subcells in I as (c1 & I & J).
  apply in_flat_subcells. exists (upd_c id nv c1). split; [apply in_map; auto|]. eapply upd_sub; eauto.
  rewrite Forall_forall in *. intros x X. apply G. apply in_flat_subcells. eauto.
Qed.
Lemma written_write : forall h s id nv, wf h s -> plain_leaf (h id) -> leaf nv -> written s -> written (write s (id, nv)).
Proof.
  intros h s id nv W [L NT] Ln WR k c V. cbn [write p_map p_root set_root set_map] in *. rewrite valof_upd in V.
  destruct (valof (p_map s) k) as [c0|] eqn:E; [|discriminate]. inversion V; subst. destruct (WR _ _ E) as [T|I].
  - left. pose proof (co_good _ _ (wf_co _ _ W) _ _ E) as G. inversion G as [|? ? [_ X] _]; subst. rewrite upd_c_eq.
    destruct (c_id c0 =? id) eqn:Q; [exfalso; apply N.eqb_eq in Q; apply NT; congruence|]. cbn [c_val]. rewrite T. reflexivity.
  - right. eapply upd_root; eauto. apply (wf_root _ _ W).
Qed.

Lemma heap_plain : forall h id nv x, plain_leaf nv -> plain_leaf (h x) -> plain_leaf (heap_upd id nv h x).
Proof.
  intros h id nv x N H. unfold heap_upd. destruct (x =? id); auto. rewrite upd_leaf; auto. apply H.
Qed.
Lemma written_writes : forall ws h s, wf h s -> written s ->
  Forall (fun w => plain_leaf (snd w) /\ plain_leaf (h (fst w)) /\ fst w < s.(p_next)) ws -> written (fold_left write ws s).
Proof.
  induction ws as [|[id nv] ws IH]; intros h s W WR F; auto. inversion F as [|x y (P & Q & LT) F2]; subst. cbn [fst snd fold_left] in *.
  eapply IH; [apply wf_write; [exact W|apply fresh_leaf; [exact LT|exact (proj1 P)]]|eapply written_write; eauto; apply P|].
  eapply Forall_impl; [|exact F2]. cbv beta. intros w (A & B & C). rewrite write_next. split; auto. split; auto. apply heap_plain; auto.
Qed.

Lemma replace_targets : forall t id v0 v ws, to_val t = Ok v0 -> same_shape v0 v -> replace_values id t v = Ok ws ->
  Forall (fun w => plain_leaf (snd w) /\ exists c, In c (subcells (Cell id t)) /\ c.(c_id) = fst w /\ plain_leaf c.(c_val)) ws.
Proof.
  assert (ONE : forall id t nv, plain_leaf nv -> plain_leaf t ->
    Forall (fun w : N * tval => plain_leaf (snd w) /\ exists c, In c (subcells (Cell id t)) /\ c.(c_id) = fst w /\ plain_leaf c.(c_val)) [(id, nv)]).
  { intros. constructor; [|constructor]. split; auto. exists (Cell id t). split; [left; auto|auto]. }
  induction t using tval_ind'; intros id v0 v ws0 T S E.
  5:{ cbn [to_val] in T. apply rbind_ok in T as (l0 & T & Q). inversion Q; subst. inversion S as [a b SA|l l' S1|]; subst; [destruct SA|].
      cbn [replace_values] in E. clear Q S ONE.
      enough (G : Forall (fun w => plain_leaf (snd w) /\ exists x, In x vals /\ exists c, In c (subcells (av_val x)) /\
        c.(c_id) = fst w /\ plain_leaf c.(c_val)) ws0).
      { eapply Forall_impl; [|exact G]. cbv beta. intros w (A & x & I & c & J & B). split; auto. exists c. split; auto.
        right. cbn [c_val]. rewrite tcells_kids. apply in_flat_subcells. exists (av_val x). split; auto. cbn [kids]. apply in_map; auto. }
      revert l0 l' ws0 T S1 E. induction H as [|x vals Hx F IH]; intros l0 l' ws0 T S1 E.
      - inversion T; subst. inversion S1; subst. inversion E. constructor.
      - apply rmap_cons in T as (a & b & Ta & Tb & ->). inversion S1 as [|? y ? l2 Sa Sb]; subst.
        cbn [rzip] in E. apply rbind_ok in E as (wa & Ea & E). apply rbind_ok in E as (wb & Eb & E). inversion E; subst.
        apply Forall_app. split.
        + eapply Forall_impl; [|eapply Hx; eauto]. cbv beta. intros w (A & c & I & B). split; auto. exists x. split; [left; auto|].
          exists c. split; auto. destruct (av_val x); auto.
        + eapply Forall_impl; [|eapply IH; eauto]. cbv beta. intros w (A & z & I & B). split; auto. exists z. split; [right; auto|auto]. }
  6:{ cbn [to_val] in T. apply rbind_ok in T as (l0 & T & Q). inversion Q; subst. inversion S as [a b SA| |l l' S1]; subst; [destruct SA|].
      cbn [replace_values] in E. clear Q S ONE.
      enough (G : Forall (fun w => plain_leaf (snd w) /\ exists x, In x kvs /\ exists c, In c (subcells (kv_val (tk_kv x))) /\
        c.(c_id) = fst w /\ plain_leaf c.(c_val)) ws0).
      { eapply Forall_impl; [|exact G]. cbv beta. intros w (A & x & I & c & J & B). split; auto. exists c. split; auto.
        right. cbn [c_val]. rewrite tcells_kids. apply in_flat_subcells. exists (kv_val (tk_kv x)). split; auto. cbn [kids].
        apply in_map_iff. eauto. }
      revert l0 l' ws0 T S1 E. induction H as [|x kvs Hx F IH]; intros l0 l' ws0 T S1 E.
      - inversion T; subst. inversion S1; subst. inversion E. constructor.
      - apply rmap_cons in T as (a & b & Ta & Tb & ->). apply rbind_ok in Ta as (a' & Ta & Q). inversion Q; subst.
        inversion S1 as [|? y ? l2 [_ Sa] Sb]; subst.
        cbn [rzip] in E. apply rbind_ok in E as (wa & Ea & E). apply rbind_ok in E as (wb & Eb & E). inversion E; subst.
        apply Forall_app. split.
        + eapply Forall_impl; [|eapply Hx; eauto]. cbv beta. intros w (A & c & I & B). split; auto. exists x. split; [left; auto|].
          exists c. split; auto. destruct (kv_val (tk_kv x)); auto.
        + eapply Forall_impl; [|eapply IH; eauto]. cbv beta. intros w (A & z & I & B). split; auto. exists z. split; [right; auto|auto]. }
  6:{ discriminate. }
  all: cbn [to_val] in T; inversion T; subst; inversion S as [? ? SA SB| |]; subst; cbn [replace_values] in E; destruct v; try destruct SB;
    inversion E; subst; apply ONE; split; solve [exact I|discriminate].
Qed.

(** ** the calls of set_value *)
Lemma written_same : forall ovf s k old v s' b, reach ovf s -> written s -> get_value s k = Ok (Some old) -> same_shape old v -> all_valid v ->
  set_value s k v = Ok (s', b) -> written s'.
Proof.
  intros ovf s k old v s' b R WR G S V H. destruct (reach_wf _ _ R) as (h & W). apply get_value_some in G as (c & VC & T).
  destruct (fill_ok _ _ _ c.(c_id) T S V) as (ws & F). rewrite (set_same _ _ _ _ _ _ VC F) in H. inversion H; subst.
  eapply written_writes; eauto. pose proof (replace_targets _ _ _ _ _ T S (fi_ws _ _ _ _ _ F)) as RT.
  eapply Forall_impl; [|exact RT]. cbv beta. intros w (A & x & I & Q & P). destruct c as [ci ct]. cbn [c_id c_val] in *.
  pose proof (co_good _ _ (wf_co _ _ W) _ _ VC) as G. rewrite Forall_forall in G. destruct (G _ I) as [LT E]. rewrite Q in LT, E.
  split; auto. split; auto. rewrite E. exact P.
Qed.
Lemma written_refused : forall s k v s', written s -> set_value s k v = Ok (s', false) -> written s'.
Proof.
  intros s k v s' WR H. apply set_value_cases in H. inversion H; subst; auto.
  intros k0 c0 V0. cbn [p_map p_root set_next set_map] in *. apply removed_sub in V0. exact (WR _ _ V0).
Qed.
Lemma reach_edited : forall ovf s s', reach ovf s -> edited s s' -> reach ovf s'.
Proof. intros ovf s s' R E. induction E; eauto using R_set. Qed.
Lemma written_edited : forall ovf s s', reach ovf s -> written s -> edited s s' -> written s'.
Proof.
  intros ovf s s' R WR E. induction E; auto; [|eapply written_refused; eauto].
  eapply (written_same ovf s1); eauto. eapply reach_edited; eauto.
Qed.

(** ** the text of a value *)
Fixpoint blank (v : value) : value :=
  match v with
  | VArray l => VArray (map blank l)
  | VInlineTable l => VInlineTable (map (fun kv => (fst kv, blank (snd kv))) l)
  | _ => VBoolean true
  end.
Lemma blank_shape : forall v, same_shape v (blank v).
Proof.
  induction v using value_ind'; cbn [blank]; try (apply SS_scalar; exact I).
  - apply SS_array. induction H; constructor; auto.
  - apply SS_table. induction H; constructor; auto.
Qed.
Lemma blank_valid : forall v, all_valid (blank v).
Proof.
  induction v using value_ind'; cbn [blank]; try (intros x [<-|[]]; reflexivity); intros x I; cbn [leaves] in I;
    apply in_flat_map in I as (y & I & J); apply in_map_iff in I as (z & <- & I); rewrite Forall_forall in H; eapply H; eauto.
Qed.
Lemma found_text : forall s k v pre post t, shaped s.(p_root) -> get_value s k = Ok (Some v) -> key_at s k pre post -> show_parser s = Ok t ->
  exists f, length f = S (length (leaves v)) /\ t = pre ++ weave f (map spelling (leaves v)) ++ post.
Proof.
  intros s k v pre post t Sh G (c & V & L) E. apply get_value_some in G as (c' & V' & T). rewrite V in V'. inversion V'; subst c'.
  destruct (fill_ok _ _ _ c.(c_id) T (blank_shape v) (blank_valid v)) as (ws & F). destruct (fi_src _ _ _ _ _ F) as (f & F1 & F2 & F3 & F4).
  destruct (located_place _ _ _ _ L) as (P & a & b & EP & PL). exists f. rewrite map_length in F1. split; auto.
  destruct (show_place s s P a b pre post c c PL Sh Sh (eq_sym EP) (eq_sym EP) (fun x => x) t E) as [X _]. rewrite X, F3. reflexivity.
Qed.

Lemma scalar_text : forall s k v pre post t, shaped s.(p_root) -> get_value s k = Ok (Some v) -> scalar_value v -> key_at s k pre post ->
  show_parser s = Ok t -> t = pre ++ spelling v ++ post.
Proof.
  intros s k v pre post t Sh G S (c & V & L) E. apply get_value_some in G as (c' & V' & T). rewrite V in V'. inversion V'; subst c'.
  destruct (located_place _ _ _ _ L) as (P & a & b & EP & PL).
  destruct (show_place s s P a b pre post c c PL Sh Sh (eq_sym EP) (eq_sym EP) (fun x => x) t E) as [X _].
  rewrite X, (scalar_tval _ _ T S), tsrc_leaf by auto. reflexivity.
Qed.

Lemma found_printed : forall ovf i s0 r s k v, parse (new_parser ovf) i = Ok (s0, r) -> ~ starts_nested s0.(p_leftover) -> edited s0 s ->
  get_value s k = Ok (Some v) -> exists pre post, printed_at s k v pre post.
Proof.
  intros ovf i s0 r s k v H NS E G. assert (R0 : reach ovf s0) by (eapply R_parse; [apply R_new|exact H]).
  pose proof (reach_edited _ _ _ R0 E) as R. pose proof (reach_shape _ _ R) as Sh.
  pose proof (written_edited _ _ _ R0 (parse_written _ _ _ _ H NS) E) as WR.
  apply get_value_some in G as (c & V & T). destruct (WR _ _ V) as [X|I]; [rewrite X in T; discriminate|].
  destruct (toml_located _ _ I) as (pre & post & L). exists pre, post.
  assert (K : key_at s k pre post) by (exists c; auto). assert (G : get_value s k = Ok (Some v)) by (apply get_value_some; eauto).
  split; auto. intros t St. split; [eapply found_text; eauto|intros S; eapply scalar_text; eauto].
Qed.

(** a text is updated where the value is written *)
Lemma change_printed : forall ovf i s0 r s k old v, parse (new_parser ovf) i = Ok (s0, r) -> ~ starts_nested s0.(p_leftover) -> edited s0 s ->
  get_value s k = Ok (Some old) -> same_shape old v -> all_valid v ->
  exists s', set_value s k v = Ok (s', true) /\ get_value s' k = Ok (Some v) /\
    exists pre post, forall t, show_parser s = Ok t ->
      exists f, length f = S (length (leaves old)) /\ length (leaves v) = length (leaves old) /\
        t = pre ++ weave f (map spelling (leaves old)) ++ post /\
        show_parser s' = Ok (pre ++ weave f (map spelling (leaves v)) ++ post).
Proof.
  intros ovf i s0 r s k old v H NS E G SS AV. destruct (found_printed _ _ _ _ _ _ _ H NS E G) as (pre & post & K & _).
  assert (R0 : reach ovf s0) by (eapply R_parse; [apply R_new|exact H]). pose proof (reach_edited _ _ _ R0 E) as R.
  destruct (reach_wf _ _ R) as (h & W). destruct (set_same_all h s k old v W (reach_shape _ _ R) G SS AV) as (s' & A & B & _ & D).
  exists s'. split; auto. split; auto. exists pre, post. intros t St. destruct (D _ _ _ K St) as (f & F). exists f. exact F.
Qed.
