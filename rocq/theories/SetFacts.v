(** set_value keeps the cells of a parser coherent; the states a program can reach. *)
From Coq Require Import Lia ZifyBool ZifyNat ZifyN.
From Verif Require Import Str Regex Types Ast State Nom Keys Grammar Api Facts Spec NomFacts CtorFacts RoundTrip.
From Verif Require Import FlatFacts ParseFacts WalkFacts DocFacts IdFacts WriteFacts ApiSpec.

(** ** Heaps for new cells *)
Lemma heap_for : forall l h, NoDup (ids l) ->
  exists h', (forall x, ~ In x (ids l) -> h' x = h x) /\ forall c, In c l -> h' c.(c_id) = c.(c_val).
Proof.
  induction l as [|c l IH]; intros h N; [exists h; split; [auto|intros c []]|].
  inversion N; subst. destruct (IH h H2) as (h1 & A & B). exists (heap_put c.(c_id) c.(c_val) h1). unfold heap_put. split.
  - intros x I. destruct (x =? c_id c) eqn:E; [exfalso; apply I; left; lia|]. apply A. intros J. apply I. right; auto.
  - intros c' [<-|I]; [rewrite N.eqb_refl; auto|].
    destruct (c_id c' =? c_id c) eqn:E; auto. exfalso. apply H1. replace (c_id c) with (c_id c') by lia. apply in_map; auto.
Qed.

(** ** convert_vector *)
Definition between (n n' : N) (l : list cell) : Prop := NoDup (ids l) /\ Forall (fun c => n <= c.(c_id) < n') l.
Lemma between_nil : forall n n', between n n' [].
Proof. split; constructor. Qed.
Lemma between_app : forall n m n' a b, n <= m -> m <= n' -> between n m a -> between m n' b -> between n n' (a ++ b).
Proof.
  intros n m n' a b L1 L2 [A1 A2] [B1 B2]. split.
  - rewrite ids_app. clear L1 L2. induction a as [|c a IH]; auto. inversion A1; subst. inversion A2; subst. cbn [ids map app].
    constructor; auto. rewrite in_app_iff. intros [I|I]; auto. apply in_ids_cell in I as (c' & I & E).
    rewrite Forall_forall in B2. apply B2 in I. lia.
  - apply Forall_app. split; [eapply Forall_impl; [|exact A2]|eapply Forall_impl; [|exact B2]]; cbv beta; intros; lia.
Qed.
Lemma between_snoc : forall n m a t, n <= m -> between n m a -> between n (m + 1) (Cell m t :: a).
Proof.
  intros n m a t L [A1 A2]. split.
  - cbn [ids map]. constructor; auto. intros I. apply in_ids_cell in I as (c' & I & E).
    rewrite Forall_forall in A2. apply A2 in I. cbn [c_id] in E. lia.
  - constructor; [cbn [c_id]; lia|]. eapply Forall_impl; [|exact A2]. cbv beta. intros; lia.
Qed.

Definition conv_ok (v : value) : Prop := forall n o n', convert_vector v n = Ok (o, n') ->
  n <= n' /\ forall t, o = Some t -> between n n' (tcells t).

Lemma conv_array_cells : forall l, Forall conv_ok l -> forall n o n', conv_array convert_vector l n = Ok (o, n') ->
  n <= n' /\ forall vs, o = Some vs -> between n n' (tcells (TArray vs [] [])).
Proof.
  induction l as [|x l IH]; intros F n o n' H; cbn [conv_array] in H.
  - inversion H; subst. split; [lia|]. intros vs E. inversion E; subst. apply between_nil.
  - inversion F; subst. apply rbind_ok in H as ([o1 n1] & E1 & H). destruct (H2 _ _ _ E1) as [L1 B1].
    destruct o1 as [t|]; [|inversion H; subst; split; auto; discriminate].
    apply rbind_ok in H as ([r n2] & E2 & H). destruct (IH H3 _ _ _ E2) as [L2 B2]. inversion H; subst. split; [lia|].
    intros vs E. destruct r as [vs0|]; [|discriminate]. inversion E; subst.
    specialize (B1 _ eq_refl). specialize (B2 _ eq_refl).
    match goal with |- between _ _ (tcells (TArray (?a :: vs0) [] [])) =>
      change (tcells (TArray (a :: vs0) [] [])) with (subcells (av_val a) ++ tcells (TArray vs0 [] []));
      replace (subcells (av_val a)) with (Cell n1 t :: tcells t) by (destruct l; reflexivity) end.
    apply between_app with (n1 + 1); auto; [lia|]. apply between_snoc; auto.
Qed.
Lemma conv_table_cells : forall l w, Forall (fun kv => conv_ok (snd kv)) l -> forall n o n',
  conv_table convert_vector l n = Ok (o, n') -> n <= n' /\ between n n' (tcells (TInlineTable o w)).
Proof.
  induction l as [|x l IH]; intros w F n o n' H; cbn [conv_table] in H.
  - inversion H; subst. split; [lia|]. apply between_nil.
  - inversion F; subst. apply rbind_ok in H as ([o1 n1] & E1 & H). destruct (H2 _ _ _ E1) as [L1 B1].
    destruct o1 as [t|]; [|discriminate].
    apply rbind_ok in H as ([r n2] & E2 & H). destruct (IH w H3 _ _ _ E2) as [L2 B2]. inversion H; subst. split; [lia|].
    specialize (B1 _ eq_refl).
    match goal with |- between _ _ (tcells (TInlineTable (?a :: r) w)) =>
      change (tcells (TInlineTable (a :: r) w)) with (subcells (kv_val (tk_kv a)) ++ tcells (TInlineTable r w));
      replace (subcells (kv_val (tk_kv a))) with (Cell n1 t :: tcells t) by (destruct l; reflexivity) end.
    apply between_app with (n1 + 1); auto; [lia|]. apply between_snoc; auto.
Qed.
Lemma convert_cells : forall v, conv_ok v.
Proof.
  induction v using value_ind'; intros n o n' E; cbn [convert_vector] in E;
    match type of E with (if negb ?b then _ else _) = _ => destruct b eqn:V end; cbn [negb] in E;
    try (inversion E; subst; split; [lia|]; intros t0 Q; inversion Q; subst; apply between_nil).
  - apply rbind_ok in E as ([o1 n1] & E1 & E). apply conv_array_cells in E1 as [L B]; auto. inversion E; subst.
    split; auto. intros t Q. destruct o1; inversion Q; subst. auto.
  - apply rbind_ok in E as ([o1 n1] & E1 & E). apply conv_table_cells with (w := {| ws1 := lit " "; ws2 := lit " " |}) in E1 as [L B]; auto.
    inversion E; subst. split; auto. intros t Q. inversion Q; subst. auto.
Qed.

(** ** rebuild_vector *)
Definition map_inj (m : vmap) : Prop := forall k1 k2 c1 c2, valof m k1 = Some c1 -> valof m k2 = Some c2 ->
  c1.(c_id) = c2.(c_id) -> k1 = k2.
(** the cells [cs], at most, were added *)
Record gains (cs : list cell) (m m' : vmap) : Prop := {
  ga_in : forall k c, valof m' k = Some c -> valof m k = Some c \/ In c cs;
  ga_inj : map_inj m -> NoDup (ids cs) -> (forall k c, valof m k = Some c -> ~ In c.(c_id) (ids cs)) -> map_inj m'
}.
Lemma gains_refl : forall cs m, gains cs m m.
Proof. constructor; auto. Qed.
Lemma gains_keep : forall cs m k v, v.(hv_value) = valof m k -> gains cs m (hput k v m).
Proof.
  intros cs m k v E. assert (X : forall k', valof (hput k v m) k' = valof m k').
  { intros k'. rewrite valof_put. destruct (str_eqb k' k) eqn:Q; auto. apply str_eqb_eq in Q. subst. auto. }
  constructor.
  - intros k' c. rewrite X. auto.
  - intros I _ _ k1 k2 c1 c2. rewrite !X. apply I.
Qed.
Lemma gains_put : forall m k c x, gains [c] m (hput k (HashValue (Some c) x) m).
Proof.
  intros m k c x. constructor.
  - intros k' c'. rewrite valof_put. destruct (str_eqb k' k); auto. intros E. inversion E. right; left; auto.
  - intros I _ D k1 k2 c1 c2. rewrite !valof_put. cbn [hv_value].
    destruct (str_eqb k1 k) eqn:Q1, (str_eqb k2 k) eqn:Q2; rewrite ?str_eqb_eq in *; intros V1 V2 E; subst; auto.
    + inversion V1; subst. exfalso. eapply D; [exact V2|]. left; auto.
    + inversion V2; subst. exfalso. eapply D; [exact V1|]. left; auto.
    + eauto.
Qed.
Lemma gains_trans : forall a b m m1 m2, gains a m m1 -> gains b m1 m2 -> gains (a ++ b) m m2.
Proof.
  intros a b m m1 m2 [A1 A2] [B1 B2]. constructor.
  - intros k c V. rewrite in_app_iff. apply B1 in V as [V|V]; auto. apply A1 in V as [V|V]; auto.
  - intros I N D. rewrite ids_app in N. assert (Na : NoDup (ids a)) by (eapply NoDup_app_l; eauto).
    assert (Nb : NoDup (ids b)). { clear - N. induction (ids a); auto. inversion N; auto. }
    apply B2; auto.
    + apply A2; auto. intros k c V J. apply (D k c V). rewrite ids_app. apply in_app_iff; auto.
    + intros k c V J. apply A1 in V as [V|V].
      * apply (D k c V). rewrite ids_app. apply in_app_iff; auto.
      * clear - N V J. apply (in_map c_id) in V. fold (ids a) in V. induction (ids a); [destruct V|].
        inversion N; subst. destruct V as [->|V]; auto. apply H1. apply in_app_iff; auto.
Qed.
Lemma gains_fold : forall A (f : N -> A -> vmap -> res vmap) (g : A -> list cell) l,
  (forall i x m m', In x l -> f i x m = Ok m' -> gains (g x) m m') ->
  forall i m m', rfold f i l m = Ok m' -> gains (flat_map g l) m m'.
Proof.
  induction l as [|x l IH]; intros H i m m' E; cbn [rfold] in E; [inversion E; apply gains_refl|].
  apply rbind_ok in E as (m1 & E1 & E). cbn [flat_map]. apply gains_trans with m1.
  - eapply H; eauto. left; auto.
  - eapply IH; eauto. intros. eapply H; eauto. right; auto.
Qed.

Lemma rebuild_gains : forall t id key m m', rebuild_vector t id key false m = Ok m' -> gains (subcells (Cell id t)) m m'.
Proof.
  induction t using tval_ind'; intros id key m m' E; cbn [rebuild_vector] in E;
    try (inversion E; destruct (hmem key m); [apply gains_refl|apply gains_put]).
  - destruct (hget key m); [|discriminate]. unfold subcells. cbn [c_val tcells].
    match type of E with rfold _ _ _ ?m1 = _ => apply (gains_trans [Cell id (TArray vals n1 n2)] _ m m1) end; [apply gains_put|].
    eapply gains_fold; [|exact E]. cbv beta. intros i x ma mb I E1. rewrite Forall_forall in H.
    destruct x as [[xi xt] sp nls]. eapply H in E1; eauto.
  - destruct (hget key m); [|discriminate]. unfold subcells. cbn [c_val tcells].
    match type of E with rfold _ _ _ ?m1 = _ => apply (gains_trans [Cell id (TInlineTable kvs ws)] _ m m1) end; [apply gains_put|].
    eapply gains_fold; [|exact E]. cbv beta. intros i x ma mb I E1. rewrite Forall_forall in H.
    destruct x as [[k ks [xi xt]] sp nls]. eapply H in E1; eauto.
Qed.
Lemma rebuild_top : forall t id key m m', rebuild_vector t id key true m = Ok m' -> ~ leaf t -> gains (tcells t) m m'.
Proof.
  intros t id key m m' E L. destruct t; try (exfalso; apply L; exact I); cbn [rebuild_vector] in E.
  - destruct (hget key m) as [hv|] eqn:G; [|discriminate].
    match type of E with rfold _ _ _ ?m1 = _ => apply (gains_trans [] _ m m1) end.
    + apply gains_keep. unfold valof. rewrite G. auto.
    + eapply gains_fold; [|exact E]. cbv beta. intros i x ma mb I E1. destruct x as [[xi xt] sp nls].
      apply rebuild_gains in E1. exact E1.
  - destruct (hget key m) as [hv|] eqn:G; [|discriminate].
    match type of E with rfold _ _ _ ?m1 = _ => apply (gains_trans [] _ m m1) end.
    + apply gains_keep. unfold valof. rewrite G. auto.
    + eapply gains_fold; [|exact E]. cbv beta. intros i x ma mb I E1. destruct x as [[k ks [xi xt]] sp nls].
      apply rebuild_gains in E1. exact E1.
Qed.

(** ** get_all_subkeys *)

Lemma below_trans : forall a b c, below a b -> below b c -> below a c.
Proof.
  intros a b c (x & r & -> & E) (y & r' & -> & E'). exists x, (r ++ y :: r'). rewrite <- app_assoc. auto.
Qed.
Lemma below_longer : forall a b, below a b -> (length a < length b)%nat.
Proof. intros a b (x & r & -> & E). rewrite app_length. cbn [length]. lia. Qed.
Lemma below_neq : forall a, ~ below a a.
Proof. intros a H. apply below_longer in H. lia. Qed.

Lemma max_key : forall m k (hv : hash_value), hget k m = Some hv -> (length k <= max_key_len m)%nat.
Proof.
  intros m k hv H. apply hget_In in H. unfold max_key_len. induction m as [|[k' v'] m IH]; [destruct H|].
  cbn [fold_right fst]. destruct H as [H|H]; [inversion H; subst; lia|]. apply IH in H. lia.
Qed.

Definition direct (key : str) (ch : children) : list str :=
  match ch with
  | Count n => map (fun i => key ++ idx_str i) (nrange n)
  | Keys l => map (fun k => key ++ lit "." ++ k) l
  end.
Lemma direct_below : forall key ch k, In k (direct key ch) -> below key k.
Proof.
  intros key [n|l] k I; cbn [direct] in I; apply in_map_iff in I as (x & <- & I).
  - exists 91, (dec x ++ lit "]"). auto.
  - exists 46, x. auto.
Qed.

Lemma rflat_ok : forall A B (f : A -> res (list B)) (P : B -> Prop) l,
  (forall x, In x l -> exists b, f x = Ok b /\ Forall P b) -> exists b, rflat f l = Ok b /\ Forall P b.
Proof.
  induction l as [|x l IH]; intros H; [exists []; split; [reflexivity|constructor]|].
  destruct (H x) as (a & E & F); [left; auto|]. destruct IH as (b & E2 & F2); [intros; apply H; right; auto|].
  exists (a ++ b). split; [|apply Forall_app; auto]. cbn [rflat]. rewrite E. cbn [rbind].
  change ((fix go (l0 : list A) : res (list B) := match l0 with | [] => Ok [] | x0 :: l' => let? a0 := f x0 in let? b0 := go l' in Ok (a0 ++ b0) end) l)
    with (rflat f l). rewrite E2. auto.
Qed.
Lemma subkeys_total : forall f m key, (1 <= f)%nat -> (max_key_len m + 2 <= f + length key)%nat ->
  exists l, get_all_subkeys_ f m key = Ok l /\ Forall (below key) l.
Proof.
  induction f as [|f IH]; intros m key L1 L2; [lia|]. cbn [get_all_subkeys_].
  destruct (hget key m) as [hv|] eqn:G; [|exists []; split; [auto|constructor]].
  apply max_key in G. fold (direct key hv.(hv_subkeys)). apply rflat_ok. intros x I. apply direct_below in I.
  pose proof (below_longer _ _ I). destruct (IH m x) as (l & E & F); [lia|lia|]. rewrite E. cbn [rbind].
  eexists. split; [reflexivity|]. constructor; auto. eapply Forall_impl; [|exact F]. intros k K. eapply below_trans; eauto.
Qed.
Lemma get_all_subkeys_ok : forall m key, exists l, get_all_subkeys m key = Ok l /\ Forall (below key) l.
Proof. intros. apply subkeys_total; lia. Qed.

Lemma rflat_in : forall A B (f : A -> res (list B)) l b x a y, rflat f l = Ok b -> In x l -> f x = Ok a -> In y a -> In y b.
Proof.
  induction l as [|z l IH]; intros b x a y H I E Y; [destruct I|]. cbn [rflat] in H.
  apply rbind_ok in H as (a0 & E0 & H). apply rbind_ok in H as (b0 & E1 & H). inversion H; subst. apply in_app_iff.
  destruct I as [->|I]; [left; congruence|right; eauto].
Qed.
Lemma subkeys_direct : forall m key l hv k, get_all_subkeys m key = Ok l -> hget key m = Some hv ->
  In k (direct key hv.(hv_subkeys)) -> In k l.
Proof.
  intros m key l hv k H G I. unfold get_all_subkeys in H. remember (S (max_key_len m)) as f. cbn [get_all_subkeys_] in H.
  rewrite G in H. fold (direct key hv.(hv_subkeys)) in H.
  pose proof (direct_below _ _ _ I) as B. apply below_longer in B. pose proof (max_key _ _ _ G).
  destruct (subkeys_total f m k) as (l' & E & _); [lia|lia|].
  eapply rflat_in; [exact H|exact I|cbv beta; rewrite E; reflexivity|left; auto].
Qed.
Lemma subkeys_none : forall m key hv, hget key m = Some hv -> direct key hv.(hv_subkeys) = [] -> get_all_subkeys m key = Ok [].
Proof.
  intros m key hv G D. unfold get_all_subkeys. cbn [get_all_subkeys_]. rewrite G.
  fold (direct key hv.(hv_subkeys)). rewrite D. reflexivity.
Qed.

Definition removed (ks : list str) (m : vmap) : vmap := fold_left (fun m k => hremove k m) ks m.
Lemma hget_removed : forall ks m k, hget k (removed ks m) = if vcontains ks k then None else hget k m.
Proof.
  unfold removed. induction ks as [|x ks IH]; intros m k; [reflexivity|]. cbn [fold_left vcontains]. rewrite IH.
  destruct (str_eqb x k) eqn:E; cbn [orb].
  - apply str_eqb_eq in E. subst. rewrite hget_hremove_same. destruct (vcontains ks k); auto.
  - apply str_eqb_neq in E. rewrite hget_hremove_other; auto.
Qed.
Lemma removed_sub : forall ks m, sub m (removed ks m).
Proof.
  intros ks m k c V. unfold valof in *. rewrite hget_removed in V. destruct (vcontains ks k); [discriminate|auto].
Qed.
Lemma removed_keep : forall ks m k, ~ In k ks -> hget k (removed ks m) = hget k m.
Proof.
  intros ks m k N. rewrite hget_removed. destruct (vcontains ks k) eqn:E; auto.
  exfalso. apply N. apply vcontains_in. auto.
Qed.
Lemma removed_gone : forall ks m k, In k ks -> hget k (removed ks m) = None.
Proof. intros ks m k I. rewrite hget_removed. apply vcontains_in in I. rewrite I. auto. Qed.

(** ** replace_values *)
Lemma rzip_all : forall A B C (f : A -> B -> res (list C)) (Q : C -> Prop) l l2 r, rzip f l l2 = Ok r ->
  (forall x y a, In x l -> f x y = Ok a -> Forall Q a) -> Forall Q r.
Proof.
  induction l as [|x l IH]; intros l2 r H G; cbn [rzip] in H; [inversion H; constructor|].
  destruct l2 as [|y l2]; [discriminate|]. apply rbind_ok in H as (a & E & H). apply rbind_ok in H as (b & E2 & H).
  inversion H; subst. apply Forall_app. split; [eapply G; eauto; left; auto|eapply IH; eauto; intros; eapply G; eauto; right; auto].
Qed.
Lemma replace_writes : forall t id v ws, replace_values id t v = Ok ws ->
  Forall (fun w => leaf (snd w) /\ In (fst w) (ids (subcells (Cell id t)))) ws.
Proof.
  assert (L : forall id t nv, leaf nv -> Forall (fun w : N * tval => leaf (snd w) /\ In (fst w) (ids (subcells (Cell id t)))) [(id, nv)]).
  { intros. constructor; [|constructor]. split; auto. left; auto. }
  induction t using tval_ind'; intros id v ws0 E; cbn [replace_values] in E; destruct v; inversion E; subst; try (apply L; exact I).
  - eapply rzip_all; [exact E|]. cbv beta. intros x y a J K. rewrite Forall_forall in H. eapply H in K; eauto.
    eapply Forall_impl; [|exact K]. cbv beta. intros w [W1 W2]. split; auto. right. rewrite <- (map_id (ids _)).
    rewrite map_id. cbn [c_val]. rewrite tcells_kids. apply in_ids_flat. exists (av_val x). split; [apply in_map; auto|].
    destruct (av_val x). exact W2.
  - eapply rzip_all; [exact E|]. cbv beta. intros x y a J K. rewrite Forall_forall in H. eapply H in K; eauto.
    eapply Forall_impl; [|exact K]. cbv beta. intros w [W1 W2]. split; auto. right.
    cbn [c_val]. rewrite tcells_kids. apply in_ids_flat. exists (kv_val (tk_kv x)). split; [cbn [kids]; apply in_map_iff; eauto|].
    destruct (kv_val (tk_kv x)). exact W2.
Qed.

Lemma write_next : forall s w, p_next (write s w) = p_next s.
Proof. intros s []; auto. Qed.
Lemma wf_writes : forall ws h s, wf h s -> Forall (fun w => leaf (snd w) /\ fst w < s.(p_next)) ws ->
  exists h', wf h' (fold_left write ws s).
Proof.
  induction ws as [|[id nv] ws IH]; intros h s W F; [eauto|]. inversion F as [|x y [L I] F2]; subst. cbn [fst snd] in *.
  cbn [fold_left]. eapply IH; [apply wf_write; [exact W|apply fresh_leaf; auto]|]. rewrite write_next. auto.
Qed.

(** ** set_value, case by case *)
Inductive set_case (s : pst) (key : str) (v : value) : pst -> bool -> Prop :=
| SC_missing : valof s.(p_map) key = None -> set_case s key v s false
| SC_same : forall c ws, valof s.(p_map) key = Some c -> same_structure c.(c_val) v = true ->
    replace_values c.(c_id) c.(c_val) v = Ok ws -> set_case s key v (fold_left write ws s) true
| SC_refuse : forall c ks n, valof s.(p_map) key = Some c -> same_structure c.(c_val) v = false ->
    get_all_subkeys s.(p_map) key = Ok ks -> convert_vector v s.(p_next) = Ok (None, n) ->
    set_case s key v (set_next n (set_map (removed ks s.(p_map)) s)) false
| SC_restructure : forall c ks n nv m s1, valof s.(p_map) key = Some c -> same_structure c.(c_val) v = false ->
    get_all_subkeys s.(p_map) key = Ok ks -> convert_vector v s.(p_next) = Ok (Some nv, n) -> ~ leaf nv ->
    s1 = write (set_next n (set_map (removed ks s.(p_map)) s)) (c.(c_id), nv) ->
    rebuild_vector nv n key true s1.(p_map) = Ok m ->
    set_case s key v (set_map m (set_next (n + 1) s1)) true.

Lemma set_value_cases : forall s key v s' b, set_value s key v = Ok (s', b) -> set_case s key v s' b.
Proof.
  intros s key v s' b H. unfold set_value in H.
  destruct (hget key (p_map s)) as [hv|] eqn:G; [|inversion H; subst; apply SC_missing; unfold valof; rewrite G; auto].
  destruct (hv_value hv) as [c|] eqn:V; [|inversion H; subst; apply SC_missing; unfold valof; rewrite G; auto].
  assert (VC : valof (p_map s) key = Some c) by (unfold valof; rewrite G; auto).
  destruct (same_structure (c_val c) v) eqn:SS.
  - apply rbind_ok in H as (ws & E & H). inversion H; subst. eapply SC_same; eauto.
  - apply rbind_ok in H as (ks & E & H). fold (removed ks (p_map s)) in H.
    apply rbind_ok in H as ([o n] & E2 & H). cbn [p_next set_map] in E2.
    destruct o as [nv|]; [|inversion H; subst; eapply SC_refuse; eauto].
    destruct (get_all_subkeys_ok (p_map s) key) as (l & E3 & F). rewrite E in E3. inversion E3; subst.
    cbn [p_map set_map set_next] in H. rewrite removed_keep in H
      by (intros I; rewrite Forall_forall in F; apply F in I; apply below_neq in I; auto).
    rewrite G, V in H. cbn [rbind] in H. destruct nv; try discriminate.
    + apply rbind_ok in H as (m & E4 & H). inversion H; subst. eapply SC_restructure; eauto.
    + apply rbind_ok in H as (m & E4 & H). inversion H; subst. eapply SC_restructure; eauto.
Qed.

Lemma wf_valof_id : forall h s k c, wf h s -> valof s.(p_map) k = Some c ->
  forall x, In x (ids (subcells c)) -> x < s.(p_next).
Proof.
  intros h s k c W V x I. apply (co_good _ _ (wf_co _ _ W)) in V. apply in_ids_cell in I as (c' & I & <-).
  rewrite Forall_forall in V. apply V in I as [L _]. auto.
Qed.

Lemma wf_set : forall h s key v s' b, wf h s -> set_value s key v = Ok (s', b) -> exists h', wf h' s'.
Proof.
  intros h s key v s' b W H. apply set_value_cases in H. destruct H as [V|c ws V SS R|c ks n V SS K C|c ks n nv m s1 V SS K C L E R].
  - eauto.
  - eapply wf_writes; eauto. eapply Forall_impl; [|eapply replace_writes; eauto]. cbv beta. intros w [A B]. split; auto.
    eapply wf_valof_id; eauto.
  - destruct (convert_cells v _ _ _ C) as [LN _]. exists h. destruct W as [WC WD WR]. constructor; auto.
    + destruct WC as [A B DD]. constructor; cbn [p_map p_next set_next set_map].
      * intros k1 k2 c1 c2 V1 V2. apply removed_sub in V1, V2. eauto.
      * intros k c0 V0. apply removed_sub in V0. eapply Forall_impl; [|eapply B; eauto]. intros x X.
        eapply good_more; [exact LN| |exact X]. auto.
      * intros k c0 V0. apply removed_sub in V0. eauto.
    + cbn [p_root p_next set_next set_map]. eapply Forall_impl; [|exact WR]. intros x X. eapply good_more; [exact LN| |exact X]; auto.
  - destruct (convert_cells v _ _ _ C) as [LN B]. specialize (B _ eq_refl). destruct B as [ND BW].
    destruct (heap_for (tcells nv) h ND) as (h1 & H1 & H2).
    assert (Old : forall x, x < p_next s -> h1 x = h x).
    { intros x X. apply H1. intros I. apply in_ids_cell in I as (c' & I & Q). rewrite Forall_forall in BW. apply BW in I. lia. }
    set (s0 := set_next n (set_map (removed ks (p_map s)) s)) in *.
    assert (W0 : wf h1 s0).
    { destruct W as [WC WD WR]. constructor; auto.
      - destruct WC as [A B DD]. constructor; cbn [s0 p_map p_next set_next set_map].
        + intros k1 k2 c1 c2 V1 V2. apply removed_sub in V1, V2. eauto.
        + intros k c0 V0. apply removed_sub in V0. eapply Forall_impl; [|eapply B; eauto]. intros x X.
          eapply good_more; [exact LN| |exact X]. auto.
        + intros k c0 V0. apply removed_sub in V0. eauto.
      - cbn [s0 p_root p_next set_next set_map]. eapply Forall_impl; [|exact WR]. intros x X.
        eapply good_more; [exact LN| |exact X]; auto. }
    assert (Cid : c_id c < p_next s) by (eapply wf_valof_id; eauto; left; auto).
    assert (GN : Forall (good h1 n) (tcells nv)).
    { rewrite Forall_forall in *. intros x X. split; [apply BW in X; lia|auto]. }
    assert (FN : forall x, In x (ids (tcells nv)) -> p_next s <= x).
    { intros x I. apply in_ids_cell in I as (c' & I & <-). rewrite Forall_forall in BW. apply BW in I. lia. }
    assert (W1 : wf (heap_upd (c_id c) nv h1) s1).
    { subst s1. apply wf_write; auto. constructor; auto.
      - cbn [s0 p_next set_next]. lia.
      - intros I. apply FN in I. lia.
      - intros x I J. apply FN in I. apply in_ids_cell in J as (c' & J & <-). destruct W as [_ _ WR].
        cbn [s0 p_root set_next set_map] in J. rewrite Forall_forall in WR. apply WR in J as [J _]. lia.
      - intros x k c0 I V0 J. apply FN in I. cbn [s0 p_map set_next set_map] in V0. apply removed_sub in V0.
        pose proof (wf_valof_id _ _ _ _ W V0 x J). lia. }
    set (h2 := heap_upd (c_id c) nv h1) in *. exists h2.
    assert (N1 : p_next s1 = n) by (subst s1; apply write_next).
    apply rebuild_top in R; auto. destruct R as [GI GJ]. destruct W1 as [[A1 B1 D1] WD WR].
    constructor; auto.
    + constructor; cbn [p_map p_next set_map set_next].
      * apply GJ; auto. intros k c0 V0 I. apply FN in I. assert (X : valof (p_map s) k <> None -> c_id c0 < p_next s).
        { intros NN. rewrite E in V0. cbn [write p_map set_root set_map] in V0. rewrite valof_upd in V0.
          cbn [s0 p_map set_next set_map] in V0. destruct (valof (removed ks (p_map s)) k) as [c1|] eqn:E1; [|discriminate].
          injection V0 as V0. rewrite <- V0, upd_c_id. apply removed_sub in E1. eapply wf_valof_id; eauto. left; auto. }
        assert (Y : valof (p_map s) k <> None).
        { rewrite E in V0. cbn [write p_map set_root set_map] in V0. rewrite valof_upd in V0.
          cbn [s0 p_map set_next set_map] in V0. destruct (valof (removed ks (p_map s)) k) as [c1|] eqn:E1; [|discriminate].
          apply removed_sub in E1. congruence. }
        apply X in Y. lia.
      * intros k c0 V0. apply GI in V0 as [V0|I].
        -- eapply Forall_impl; [|eapply B1; eauto]. intros x X. eapply good_more; [| |exact X]; [lia|auto].
        -- assert (GF : Forall (good h2 n) (tcells nv)).
           { apply good_fresh; auto. intros J. apply FN in J. lia. }
           rewrite tcells_kids in I, GF. apply in_flat_map in I as (k0 & I1 & I2).
           eapply Forall_impl; [|eapply good_sub; [|exact I2]].
           { intros x X. eapply good_more; [| |exact X]; [|auto]. instantiate (1 := n). lia. }
           rewrite Forall_forall in *. intros y Y. apply GF. apply in_flat_map. eauto.
      * intros k c0 V0. apply GI in V0 as [V0|I]; [eauto|]. rewrite tcells_kids in I, ND.
        apply in_flat_map in I as (k0 & I1 & I2). eapply dup_sub; [|exact I2].
        apply in_split in I1 as (l1 & l2 & Q). rewrite Q, flat_map_app in ND. cbn [flat_map] in ND. rewrite !ids_app in ND.
        clear - ND. induction (ids (flat_map subcells l1)); cbn [app] in ND; [apply NoDup_app_l in ND; auto|]. inversion ND; auto.
    + cbn [p_root p_next set_next set_map]. eapply Forall_impl; [|exact WR]. intros x X. eapply good_more; [| |exact X]; [lia|auto].
Qed.

(** ** The states a program can reach with one parser *)
Inductive reach (ovf : bool) : pst -> Prop :=
| R_new : reach ovf (new_parser ovf)
| R_parse : forall s i s' r, reach ovf s -> parse s i = Ok (s', r) -> reach ovf s'
| R_set : forall s k v s' b, reach ovf s -> set_value s k v = Ok (s', b) -> reach ovf s'.

Lemma reach_wf : forall ovf s, reach ovf s -> exists h, wf h s.
Proof.
  intros ovf s R. induction R as [|s i s' r R (h & W) P|s k v s' b R (h & W) S].
  - eexists. apply wf_new.
  - eapply wf_parse; eauto.
  - eapply wf_set; eauto.
Qed.

Lemma upd_shape : forall id nv d, doc_shape d -> doc_shape (upd_toml id nv d).
Proof.
  intros id nv d [N F]. split; [destruct d; [congruence|discriminate]|]. unfold upd_toml. apply Forall_map.
  eapply Forall_impl; [|exact F]. intros [nl [w kv tb cm]] S. unfold expr_shape, upd_expr in *.
  cbn [ne_expr e_keyval e_table e_ws] in *. destruct kv; auto.
Qed.
Definition shaped (d : toml) : Prop := d = [] \/ doc_shape d.
Lemma shaped_write : forall s w, shaped s.(p_root) -> shaped (write s w).(p_root).
Proof. intros s [id nv] [E|S]; cbn [write p_root set_root]; [left; rewrite E; auto|right; apply upd_shape; auto]. Qed.
Lemma shaped_writes : forall ws s, shaped s.(p_root) -> shaped (fold_left write ws s).(p_root).
Proof. induction ws; intros; auto. cbn [fold_left]. apply IHws, shaped_write; auto. Qed.
Lemma reach_shape : forall ovf s, reach ovf s -> shaped s.(p_root).
Proof.
  intros ovf s R. induction R as [|s i s' r R IH P|s k v s' b R IH S].
  - left; auto.
  - destruct (parse_inv _ _ _ _ P) as (s1 & rest & t & T & E & -> & _). right. eapply toml_shape; eauto.
  - apply set_value_cases in S. destruct S as [V|c ws V SS R1|c ks n V SS K C|c ks n nv m s1 V SS K C L E R1]; auto.
    + apply shaped_writes; auto.
    + cbn [p_root set_map set_next]. subst s1. apply shaped_write. auto.
Qed.

Lemma shaped_show : forall s t, shaped s.(p_root) -> (show_parser s = Ok t <-> s.(p_root) <> [] /\ doc_printable s.(p_root) /\ t = toml_src s.(p_root)).
Proof.
  intros s t [E|S]; unfold show_parser.
  - rewrite E. split; [discriminate|]. intros [H _]. congruence.
  - rewrite show_toml_iff by auto. destruct S. tauto.
Qed.
