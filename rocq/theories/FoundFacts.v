(** Walking through documents: lemmas for property C74. *)
From Coq Require Import Lia ZifyBool ZifyNat ZifyN.
From Verif Require Import Str Types Ast State Nom Keys Grammar Api Spec Facts DocSpec ApiSpec FoundSpec CtorFacts FlatFacts
  PathFacts NestFacts SectFacts LookFacts DotSpec DotFacts TreeSpec TreeView TreeFacts ShowFacts PropDocs.

(** ** In general *)
Lemma combine_count : forall n b x, In x (combine_child_keys (Count n) b) <-> exists i, i < n /\ x = b ++ lit "[" ++ dec i ++ lit "]".
Proof.
  intros n b x. cbn [combine_child_keys]. rewrite in_map_iff. unfold nrange. split.
  - intros (i & <- & I). apply in_map_iff in I as (j & <- & J). apply in_seq in J. exists (N.of_nat j). split; auto. lia.
  - intros (i & L & ->). exists i. split; auto. apply in_map_iff. exists (N.to_nat i). split; [lia|]. apply in_seq. lia.
Qed.
Lemma combine_names : forall l b x, b <> [] -> In x (combine_child_keys (Keys l) b) <-> exists k, In k l /\ x = b ++ lit "." ++ k.
Proof.
  intros l b x N. cbn [combine_child_keys]. rewrite in_map_iff. destruct b as [|c b]; [congruence|]. split.
  - intros (k & <- & I). eauto.
  - intros (k & I & ->). eauto.
Qed.
Lemma combine_top : forall l, combine_child_keys (Keys l) [] = l.
Proof. intros. cbn [combine_child_keys]. apply map_id. Qed.

Section Walk.
  Variable s : pst.
  Variable top : list str.
  Variable K : str -> Prop.
  Hypothesis TOP : get_children s [] = Some (Keys top).
  Hypothesis ONLY : forall x ch, get_children s x = Some ch -> x = [] \/ x = root_key \/ K x.
  Hypothesis KNOWN : forall x, K x -> x <> [] /\ x <> root_key /\ get_children s x <> None.
  Hypothesis UP : forall x, K x -> In x top \/ exists y ch, K y /\ get_children s y = Some ch /\
    In x (combine_child_keys ch y) /\ (length y < length x)%nat.

  Lemma known_found : forall x, K x -> found s x.
  Proof using TOP UP.
    clear ONLY KNOWN.
    assert (H : forall n x, (length x < n)%nat -> K x -> found s x).
    { induction n as [|n IH]; intros x L KX; [lia|]. destruct (UP x KX) as [I|(y & ch & KY & G & I & LY)].
      - eapply Fo_top; [exact TOP|]. rewrite combine_top. exact I.
      - eapply Fo_next; [|exact G|exact I]. apply IH; auto. lia. }
    intros x. eapply H. constructor.
  Qed.
  Lemma in_document_known : forall x, in_document s x <-> K x.
  Proof using ONLY KNOWN.
    intros x. split; [|apply KNOWN]. intros (N & NR & G). destruct (get_children s x) as [ch|] eqn:E; [|congruence].
    destruct (ONLY x ch E) as [H|[H|H]]; auto; contradiction.
  Qed.

  Hypothesis DTOP : forall x, In x top -> K x.
  Hypothesis DOWN : forall y ch x, K y -> get_children s y = Some ch -> In x (combine_child_keys ch y) -> K x.
  Lemma found_known : forall x, found s x -> K x.
  Proof using TOP DTOP DOWN.
    intros x F. induction F as [ch x G I|y ch x F IH G I].
    - rewrite TOP in G. injection G as <-. rewrite combine_top in I. auto.
    - eauto.
  Qed.
End Walk.

(** ** Inside a value *)
Lemma first_value_in : forall k l, In k (map fst l) -> exists x : value, first_value k l = Some x.
Proof.
  intros k l. induction l as [|[k' x] l IH]; intros I; [destruct I|]. cbn [first_value].
  destruct (same_key k k') eqn:E; [eauto|]. destruct I as [<-|I]; auto. cbn [fst] in E.
  rewrite same_key_refl in E. discriminate.
Qed.
Lemma value_in_first : forall k l (x : value), first_value k l = Some x -> In k (map fst l).
Proof.
  intros k l x. induction l as [|[k' y] l IH]; intros H; [discriminate|]. cbn [first_value] in H.
  destruct (same_key k k') eqn:E; [apply same_key_eq in E; left; auto|right; auto].
Qed.

Lemma keys_of_spells :
  (forall v t, spells v t -> forall p l, at_path v p = Some (VInlineTable l) -> Forall key_name (map fst l)) /\
  (forall vs t, elems vs t -> forall v, In v vs -> forall p l, at_path v p = Some (VInlineTable l) -> Forall key_name (map fst l)) /\
  (forall kvs t, fields kvs t -> Forall key_name (map fst kvs) /\
     forall kv, In kv kvs -> forall p l, at_path (snd kv) p = Some (VInlineTable l) -> Forall key_name (map fst l)).
Proof.
  apply spells_all.
  - intros v t S p l H. destruct S; destruct p as [|[i|k] p]; discriminate H.
  - intros vs g t _ _ IH _ [|[i|k] p] l H; cbn [at_path] in H; try discriminate.
    destruct (nth_error vs (N.to_nat i)) as [x|] eqn:E; [|discriminate]. eapply IH; eauto. eapply nth_error_In; eauto.
  - intros kvs w t _ _ [KN IH] _ [|[i|k] p] l H; cbn [at_path] in H; try discriminate.
    + injection H as <-. exact KN.
    + destruct (first_value k kvs) as [x|] eqn:E; [|discriminate].
      assert (I : In (k, x) kvs).
      { clear - E. induction kvs as [|[k' y] kvs IH]; [discriminate|]. cbn [first_value] in E.
        destruct (same_key k k') eqn:Q; [apply same_key_eq in Q; subst; injection E as ->; left; auto|right; auto]. }
      exact (IH _ I p l H).
  - intros v [].
  - intros v t g _ IH _ x [<-|[]]. auto.
  - intros v t w g vs r _ IH _ _ _ IH2 x [<-|I]; [exact IH|exact (IH2 x I)].
  - split; [constructor|intros kv []].
  - intros k w1 w2 v t g K _ _ _ IH _. split; [constructor; auto; constructor|]. intros kv [<-|[]]. auto.
  - intros k w1 w2 v t w g l r K _ _ _ IH _ _ _ [KN IH2]. split; [constructor; auto|]. intros kv [<-|I]; [exact IH|exact (IH2 kv I)].
Qed.

Section Value.
  Variable base : str.
  Variable v : value.
  Hypothesis NE : base <> [].
  Hypothesis NAMES : forall p l, at_path v p = Some (VInlineTable l) -> Forall key_name (map fst l).

  Lemma base_ne : forall p, base ++ path_text p <> [].
  Proof using NE. intros p E. apply app_eq_nil in E as [E _]. auto. Qed.

  Lemma inner_up : forall p w, good_path p -> at_path v p = Some w -> p = [] \/
    exists q u, good_path q /\ at_path v q = Some u /\ In (base ++ path_text p) (combine_child_keys (kids_of u) (base ++ path_text q)) /\
      (length (base ++ path_text q) < length (base ++ path_text p))%nat.
  Proof using NE.
    clear NAMES.
    intros p w G AP. destruct p as [|st p _] using rev_ind; auto. right.
    apply Forall_app in G as [G GS]. rewrite at_path_app in AP. destruct (at_path v p) as [u|] eqn:AU; [|discriminate].
    exists p, u. split; auto. split; auto.
    assert (LEN : forall a b : str, (0 < length b)%nat -> (length a < length (a ++ b))%nat) by (intros; rewrite app_length; lia).
    destruct st as [i|k]; cbn [at_path] in AP.
    - destruct u; try discriminate. destruct (nth_error l (N.to_nat i)) as [x|] eqn:E; [|discriminate].
      rewrite path_idx. split.
      + cbn [kids_of]. apply combine_count. exists i. split; auto. assert (Y : nth_error l (N.to_nat i) <> None) by congruence.
        apply nth_error_Some in Y. lia.
      + apply LEN. cbn. lia.
    - destruct u; try discriminate. destruct (first_value k l) as [x|] eqn:E; [|discriminate].
      rewrite path_key. split.
      + cbn [kids_of]. apply combine_names; [apply base_ne|]. exists k. split; auto. eapply value_in_first; eauto.
      + apply LEN. cbn. lia.
  Qed.

  Lemma inner_down : forall p w x, good_path p -> at_path v p = Some w ->
    In x (combine_child_keys (kids_of w) (base ++ path_text p)) ->
    exists q u, good_path q /\ at_path v q = Some u /\ x = base ++ path_text q.
  Proof using NE NAMES.
    intros p w x G AP I. destruct w as [z|z|z|z|z y|l|l]; cbn [kids_of] in I; try (cbn in I; contradiction).
    - apply combine_count in I as (i & L & ->). destruct (nth_error l (N.to_nat i)) as [u|] eqn:E.
      + exists (p ++ [PIdx i]), u. rewrite path_idx, at_path_app, AP. cbn [at_path]. rewrite E. split; auto.
        apply Forall_app. split; auto. constructor; [exact Logic.I|constructor].
      + apply nth_error_None in E. lia.
    - apply combine_names in I as (k & IK & ->); [|apply base_ne]. destruct (first_value_in k l IK) as [u E].
      exists (p ++ [PKey k]), u. rewrite path_key, at_path_app, AP. cbn [at_path]. rewrite E. split; auto.
      apply Forall_app. split; auto. constructor; [|constructor]. cbn [good_step].
      pose proof (NAMES p l AP) as F. rewrite Forall_forall in F. auto.
  Qed.
End Value.

(** ** Documents with tables and arrays of tables *)
Lemma top_name_iff : forall l t seen n, In n (top_names t l) <->
  In n (table_names l) \/ In n (array_names l) \/ exists v, In (TRoot, n, v) (placed t seen l).
Proof.
  induction l as [|[w c|w0 k w1 w2 v tx w3 c|w0 w1 m w2 w3 c|w0 w1 m w2 w3 c] l IH]; intros t seen n;
    cbn [top_names table_names array_names placed].
  - split; [intros []|intros [[]|[[]|[v []]]]].
  - apply IH.
  - rewrite in_app_iff, (IH t seen n). destruct t as [|m|m i]; cbn [In].
    + split.
      * intros [[->|[]]|[H|[H|[u H]]]]; eauto.
      * intros [H|[H|[u [H|H]]]]; auto; [injection H as -> _; auto|eauto 6].
    + split; [intros [[]|[H|[H|[u H]]]]; eauto|intros [H|[H|[u [H|H]]]]; eauto; discriminate].
    + split; [intros [[]|[H|[H|[u H]]]]; eauto|intros [H|[H|[u [H|H]]]]; eauto; discriminate].
  - cbn [In]. rewrite (IH (TName m) seen n). tauto.
  - cbn [In].
    assert (E : forall a b, top_names (TElem m a) l = top_names (TElem m b) l).
    { clear. generalize m as m'. induction l as [|[w c|w0 k w1 w2 v tx w3 c|w0 w1 m2 w2 w3 c|w0 w1 m2 w2 w3 c] l IH]; intros m' a b; cbn [top_names app]; try reflexivity; rewrite (IH m' a b); reflexivity. }
    rewrite (E 0 (times m seen)), (IH (TElem m (times m seen)) (m :: seen) n). tauto.
Qed.
Lemma keys_in_iff : forall t l k, In k (keys_in t l) <-> exists v, In (t, k, v) l.
Proof.
  intros t l k. unfold keys_in. rewrite in_map_iff. split.
  - intros ([[t' k'] v] & E & I). cbn [fst snd] in E. subst. apply filter_In in I as [I X]. cbn [fst] in X.
    destruct (taddr_dec t' t); [subst; eauto|discriminate].
  - intros [v I]. exists (t, k, v). split; auto. apply filter_In. split; auto. cbn [fst]. destruct (taddr_dec t t); congruence.
Qed.
Lemma placed_spells : forall l t seen a k v, Forall dline_ok l -> In (a, k, v) (placed t seen l) -> exists x, spells v x.
Proof.
  induction l as [|[w c|w0 k w1 w2 v tx w3 c|w0 w1 m w2 w3 c|w0 w1 m w2 w3 c] l IH]; intros t seen a k' v' F I;
    cbn [placed] in I; try contradiction; inversion F; subst; eauto.
  destruct I as [I|I]; [|eauto]. injection I as <- <- <-. cbn [dline_ok] in *. exists tx. tauto.
Qed.

Definition known1 (ls : list (str * dline)) (x : str) : Prop :=
  In x (table_names (body ls)) \/ In x (array_names (body ls)) \/
  (exists n i, i < times n (array_names (body ls)) /\ x = tname (TElem n i)) \/
  exists t k v p w, In (t, k, v) (pairs (body ls)) /\ good_path p /\ at_path v p = Some w /\ x = address t k ++ path_text p.

Lemma found_sections : forall ls s, lines_ok ls -> distinct (body ls) -> reads_as ls s ->
  forall x, found s x <-> in_document s x.
Proof.
  intros ls s OK DS RA x. pose proof (bare_lines ls OK) as B.
  set (top := first_keys [] (top_names TRoot (body ls))).
  assert (TOP : get_children s [] = Some (Keys top)) by (apply (look_root ls s RA)).
  assert (ONLY : forall x ch, get_children s x = Some ch -> x = [] \/ x = root_key \/ known1 ls x).
  { intros y ch H. unfold known1. destruct (look_only ls s RA y ch H) as [C|[C|[C|[C|[C|C]]]]]; auto 8. }
  assert (TN : forall n, In n (table_names (body ls)) -> key_name n).
  { destruct B as [B _ _]. rewrite Forall_forall in B. auto. }
  assert (AN : forall n, In n (array_names (body ls)) -> key_name n).
  { destruct B as [_ B _]. rewrite Forall_forall in B. auto. }
  assert (NR : forall n, key_name n -> n <> [] /\ n <> root_key).
  { intros n KN. split; [apply bare_ne; auto|]. intros ->. apply bare_not_root in KN. discriminate. }
  assert (ELN : forall n i, i < times n (array_names (body ls)) -> In n (array_names (body ls))).
  { intros n i L. apply times_in. lia. }
  assert (KNOWN : forall x, known1 ls x -> x <> [] /\ x <> root_key /\ get_children s x <> None).
  { intros y [I|[I|[(n & i & L & ->)|(t & k & v & p & w & I & G & AP & ->)]]].
    - destruct (NR y (TN y I)). destruct (look_table ls s OK RA y I) as [E _]. repeat split; auto. congruence.
    - destruct (NR y (AN y I)). destruct (look_array ls s OK RA y I) as [E _]. repeat split; auto. congruence.
    - destruct (look_elem ls s OK RA n i L) as [E _].
      assert (GA : good_addr (n, [PIdx i])) by (split; [apply AN; eauto|constructor; [exact Logic.I|constructor]]).
      split; [rewrite elem_text; apply atext_ne; auto|]. split; [rewrite elem_text; apply atext_root; auto|]. congruence.
    - destruct (line_addr ls t k v p OK I G). destruct (look_value ls s OK DS RA t k v p I G) as [_ E].
      repeat split; auto. rewrite E, AP. discriminate. }
  assert (BASE : forall t k v, In (t, k, v) (pairs (body ls)) -> address t k <> [] /\
     (forall p, good_path p -> get_children s (address t k ++ path_text p) = option_map kids_of (at_path v p)) /\
     (forall p l, at_path v p = Some (VInlineTable l) -> Forall key_name (map fst l))).
  { intros t k v I. split; [|split].
    - destruct (line_addr ls t k v [] OK I (Forall_nil _)) as [NE _]. change (path_text []) with (@nil N) in NE. rewrite app_nil_r in NE. exact NE.
    - intros p G. apply (look_value ls s OK DS RA t k v p I G).
    - destruct (placed_spells (body ls) TRoot [] t k v (ok_lines ls OK) I) as [tx S]. apply (proj1 keys_of_spells v tx S). }
  assert (SELF : forall t k v, In (t, k, v) (pairs (body ls)) -> known1 ls (address t k)).
  { intros t k v I. right; right; right. exists t, k, v, [], v. repeat split; auto; [constructor|].
    change (path_text []) with (@nil N). rewrite app_nil_r. reflexivity. }
  assert (LEN : forall a b : str, (0 < length b)%nat -> (length a < length (a ++ b))%nat) by (intros; rewrite app_length; lia).
  assert (UP : forall x, known1 ls x -> In x top \/ exists y ch, known1 ls y /\ get_children s y = Some ch /\
    In x (combine_child_keys ch y) /\ (length y < length x)%nat).
  { intros y [I|[I|[(n & i & L & ->)|(t & k & v & p & w & I & G & AP & ->)]]].
    - left. apply first_keys_in. split; [|intros []]. apply (top_name_iff _ _ []). auto.
    - left. apply first_keys_in. split; [|intros []]. apply (top_name_iff _ _ []). auto.
    - right. exists n. destruct (look_array ls s OK RA n (ELN n i L)) as [E _]. eexists. split; [right; left; eauto|]. split; [exact E|].
      split; [apply combine_count; exists i; split; auto; reflexivity|]. cbn [tname]. apply LEN. cbn. lia.
    - destruct (BASE t k v I) as (NB & LK & KN). destruct (inner_up (address t k) v NB p w G AP) as [->|(q & u & GQ & AQ & IQ & LQ)].
      + change (path_text []) with (@nil N). rewrite app_nil_r.
        pose proof (pairs_declared (body ls) t k v I) as DT. destruct t as [|n|n i]; cbn [declared] in DT.
        * left. apply first_keys_in. split; [|intros []]. apply (top_name_iff _ _ []). right; right. eauto.
        * right. exists n. destruct (look_table ls s OK RA n DT) as [E _]. eexists. split; [left; exact DT|]. split; [exact E|]. split.
          -- apply combine_names; [apply NR; auto|]. exists k. split; auto. apply keys_in_iff. eauto.
          -- cbn [address tname]. apply LEN. cbn. lia.
        * right. exists (tname (TElem n i)). destruct (look_elem ls s OK RA n i DT) as [E _].
          assert (KE : known1 ls (tname (TElem n i))) by (right; right; left; eauto).
          eexists. split; [exact KE|]. split; [exact E|]. split.
          -- apply combine_names; [apply KNOWN; auto|]. exists k. split; auto. apply keys_in_iff. eauto.
          -- cbn [address]. apply LEN. cbn. lia.
      + right. exists (address t k ++ path_text q), (kids_of u). split; [right; right; right; exists t, k, v, q, u; auto|].
        split; [rewrite LK by auto; rewrite AQ; reflexivity|]. auto. }
  assert (DTOP : forall x, In x top -> known1 ls x).
  { intros y I. apply first_keys_in in I as [I _]. apply (top_name_iff _ _ []) in I as [I|[I|[v I]]].
    - left; auto.
    - right; left; auto.
    - exact (SELF TRoot y v I). }
  assert (DOWN : forall y ch x, known1 ls y -> get_children s y = Some ch -> In x (combine_child_keys ch y) -> known1 ls x).
  { intros y ch z KY G I. pose proof (KNOWN y KY) as (NY & _). destruct KY as [J|[J|[(n & i & L & ->)|(t & k & v & p & w & J & GP & AP & ->)]]].
    - destruct (look_table ls s OK RA y J) as [E _]. rewrite E in G. injection G as <-.
      apply combine_names in I as (k & IK & ->); auto. apply keys_in_iff in IK as [v IK]. exact (SELF (TName y) k v IK).
    - destruct (look_array ls s OK RA y J) as [E _]. rewrite E in G. injection G as <-.
      apply combine_count in I as (i & L & ->). right; right; left. exists y, i. auto.
    - destruct (look_elem ls s OK RA n i L) as [E _]. rewrite E in G. injection G as <-.
      apply combine_names in I as (k & IK & ->); auto. apply keys_in_iff in IK as [v IK]. exact (SELF (TElem n i) k v IK).
    - destruct (BASE t k v J) as (NB & LK & KN). rewrite LK, AP in G by auto. cbn [option_map] in G. injection G as <-.
      destruct (inner_down (address t k) v NB KN p w z GP AP I) as (q & u & GQ & AQ & ->).
      right; right; right. exists t, k, v, q, u. auto. }
  rewrite (in_document_known s (known1 ls) ONLY KNOWN x). split.
  - apply (found_known s top (known1 ls) TOP DTOP DOWN).
  - apply (known_found s top (known1 ls) TOP UP).
Qed.

(** ** Documents whose table headers have dotted names *)
Lemma dotted_child : forall q k, q <> [] -> dotted_name (q ++ [k]) = dotted_name q ++ lit "." ++ k.
Proof. intros [|n q] k N; [congruence|]. rewrite dotted_snoc. unfold dpre. rewrite <- app_assoc. reflexivity. Qed.
Lemma entry_spells : forall l p q k v, Forall hline_ok l -> In (q, k, v) (entries_from p l) -> exists x, spells v x.
Proof.
  induction l as [|[w c|w0 k w1 w2 v tx w3 c|w0 w1 m mo w2 w3 c] l IH]; intros p q k' v' F I;
    cbn [entries_from] in I; try contradiction; inversion F; subst; eauto.
  destruct I as [I|I]; [|eauto]. injection I as <- <- <-. cbn [hline_ok] in *. exists tx. tauto.
Qed.

Definition known2 (l : list hline) (x : str) : Prop :=
  (exists q, q <> [] /\ table_of l q /\ x = dotted_name q) \/
  exists p k v r w, In (p, k, v) (entries l) /\ good_path r /\ at_path v r = Some w /\ x = dotted_name (p ++ [k]) ++ path_text r.

Lemma found_dotted : forall l cs s, Forall hline_ok l -> hdistinct l -> hmap l cs s.(p_map) ->
  forall x, found s x <-> in_document s x.
Proof.
  intros l cs s OK DS MI x. pose proof (hok_bare l OK) as B.
  assert (TOP : get_children s [] = Some (Keys (table_keys [] l))) by (apply (hlook_root l cs s MI)).
  assert (ONLY : forall x ch, get_children s x = Some ch -> x = [] \/ x = root_key \/ known2 l x).
  { intros y ch H. exact (hlook_only l cs s y ch MI H). }
  assert (ENB : forall p k v r, In (p, k, v) (entries l) -> good_path r -> good_addr (ext (aq (p ++ [k])) r)).
  { intros p k v r I G. apply good_ext; auto. apply aq_good; [apply snoc_ne|eapply bare_entry; eauto]. }
  assert (KNOWN : forall x, known2 l x -> x <> [] /\ x <> root_key /\ get_children s x <> None).
  { intros y [(q & N & T & ->)|(p & k & v & r & w & I & G & AP & ->)].
    - pose proof (bare_table_of _ _ B T) as BQ. destruct (hlook_table l cs s q B MI N T) as [E _].
      split; [apply dotted_ne; auto|]. split; [apply dotted_root; auto|]. congruence.
    - pose proof (ENB p k v r I G) as GA. rewrite <- aq_text, <- atext_ext. split; [apply atext_ne; auto|]. split; [apply atext_root; auto|].
      rewrite atext_ext, aq_text. destruct (hlook_value l cs s p k v r B DS MI I G) as [_ E]. rewrite E, AP. discriminate. }
  assert (BASE : forall p k v, In (p, k, v) (entries l) -> dotted_name (p ++ [k]) <> [] /\
     (forall r, good_path r -> get_children s (dotted_name (p ++ [k]) ++ path_text r) = option_map kids_of (at_path v r)) /\
     (forall r f, at_path v r = Some (VInlineTable f) -> Forall key_name (map fst f))).
  { intros p k v I. split; [|split].
    - apply dotted_ne; [apply snoc_ne|]. eapply bare_entry; eauto.
    - intros r G. apply (hlook_value l cs s p k v r B DS MI I G).
    - destruct (entry_spells l [] p k v OK I) as [tx S]. apply (proj1 keys_of_spells v tx S). }
  assert (SELF : forall p k v, In (p, k, v) (entries l) -> known2 l (dotted_name (p ++ [k]))).
  { intros p k v I. right. exists p, k, v, [], v. repeat split; auto; [constructor|].
    change (path_text []) with (@nil N). rewrite app_nil_r. reflexivity. }
  assert (LEN : forall a b : str, (0 < length b)%nat -> (length a < length (a ++ b))%nat) by (intros; rewrite app_length; lia).
  assert (NAMED : forall p k, reached l p -> In k (table_keys p l) -> In (dotted_name (p ++ [k])) (table_keys [] l) \/
    exists y ch, known2 l y /\ get_children s y = Some ch /\ In (dotted_name (p ++ [k])) (combine_child_keys ch y) /\
      (length y < length (dotted_name (p ++ [k])))%nat).
  { intros p k RP IK. destruct p as [|n p].
    - left. exact IK.
    - right. destruct RP as [RP|RP]; [discriminate|]. set (q := n :: p) in *.
      assert (NQ : q <> []) by discriminate. destruct (hlook_table l cs s q B MI NQ RP) as [E _].
      exists (dotted_name q), (Keys (table_keys q l)). split; [left; eauto|]. split; [exact E|]. rewrite dotted_child by auto. split.
      + apply combine_names; [apply dotted_ne; auto; eapply bare_table_of; eauto|]. eauto.
      + apply LEN. cbn. lia. }
  assert (UP : forall x, known2 l x -> In x (table_keys [] l) \/ exists y ch, known2 l y /\ get_children s y = Some ch /\
    In x (combine_child_keys ch y) /\ (length y < length x)%nat).
  { intros y [(q & N & T & ->)|(p & k & v & r & w & I & G & AP & ->)].
    - destruct q as [|k q _] using rev_ind; [congruence|]. apply NAMED.
      + destruct q; [left; reflexivity|right]. eapply table_of_front; eauto.
      + apply table_keys_in, named_iff. auto.
    - destruct (BASE p k v I) as (NB & LK & KN).
      destruct (inner_up (dotted_name (p ++ [k])) v NB r w G AP) as [->|(q & u & GQ & AQ & IQ & LQ)].
      + change (path_text []) with (@nil N). rewrite app_nil_r. apply NAMED; [eapply entries_reached; eauto|].
        apply table_keys_in, named_iff. eauto.
      + right. exists (dotted_name (p ++ [k]) ++ path_text q), (kids_of u). split; [right; exists p, k, v, q, u; auto|].
        split; [rewrite LK by auto; rewrite AQ; reflexivity|]. auto. }
  assert (GIVEN : forall p k, In k (table_keys p l) -> known2 l (dotted_name (p ++ [k]))).
  { intros p k I. apply table_keys_in, named_iff in I as [I|[v I]].
    - left. exists (p ++ [k]). split; [apply snoc_ne|auto].
    - exact (SELF p k v I). }
  assert (DTOP : forall x, In x (table_keys [] l) -> known2 l x) by (intros y I; apply (GIVEN [] y I)).
  assert (DOWN : forall y ch x, known2 l y -> get_children s y = Some ch -> In x (combine_child_keys ch y) -> known2 l x).
  { intros y ch z KY G I. pose proof (KNOWN y KY) as (NY & _). destruct KY as [(q & N & T & ->)|(p & k & v & r & w & J & GP & AP & ->)].
    - destruct (hlook_table l cs s q B MI N T) as [E _]. rewrite E in G. injection G as <-.
      apply combine_names in I as (k & IK & ->); auto. rewrite <- dotted_child by auto. auto.
    - destruct (BASE p k v J) as (NB & LK & KN). rewrite LK, AP in G by auto. cbn [option_map] in G. injection G as <-.
      destruct (inner_down (dotted_name (p ++ [k])) v NB KN r w z GP AP I) as (q & u & GQ & AQ & ->).
      right. exists p, k, v, q, u. auto. }
  rewrite (in_document_known s (known2 l) ONLY KNOWN x). split.
  - apply (found_known s (table_keys [] l) (known2 l) TOP DTOP DOWN).
  - apply (known_found s (table_keys [] l) (known2 l) TOP UP).
Qed.

(** ** Documents with arrays of tables inside arrays of tables *)
Record covers (l : list tline) (v : view) : Prop := {
  co_top : forall n, In ([], n) v.(w_names) -> In n (tlist l);
  co_name : forall q n, In (q, n) v.(w_names) -> (exists x, In (q, n, x) v.(w_entries)) \/ In (q ++ [PKey n]) v.(w_tables) \/
    exists i, In (q ++ [PKey n], i) v.(w_elems);
  co_elem : forall a i, i < elem_count a v.(w_elems) -> In (a, i) v.(w_elems);
  co_value : forall q k x, In (q, k, x) v.(w_entries) -> exists t, spells x t }.
Lemma covers_says : forall l v, Forall tline_ok l -> says l = Some v -> covers l v.
Proof.
  induction l as [|d l IH] using rev_ind; intros v F H.
  { injection H as <-. constructor; cbn; try tauto. intros. lia. }
  rewrite says_snoc in H. destruct (says l) as [u|] eqn:SU; [|discriminate]. cbn [add_lines_view] in H.
  apply Forall_app in F as [F FD]. apply Forall_inv in FD. destruct (IH u F eq_refl) as [T N E V]. pose proof (ti_cur _ _ (top_says l u SU)) as C.
  destruct d as [[w0 c|w0 k w1 w2 x xt w3 c|w0 w1 n m w2 w3 c]|w0 w1 n m w2 w3 c]; cbn [add_line] in H.
  - injection H as <-. constructor; rewrite ?tlist_snoc, ?app_nil_r; auto.
  - destruct (in_dec name_dec (w_cur u, k) (w_names u)) as [|NI]; [discriminate|]. injection H as <-.
    constructor; rewrite ?tlist_snoc; cbn [w_names w_entries w_tables w_elems].
    + intros n I. apply in_or_app. apply in_app_or in I as [I|[I|[]]]; [auto|]. injection I as I <-. right. rewrite (proj2 C I). left. reflexivity.
    + intros q n I. apply in_app_or in I as [I|[I|[]]].
      * destruct (N q n I) as [[y J]|J]; auto. left. exists y. apply in_or_app. auto.
      * injection I as <- <-. left. exists x. apply in_or_app. right. left. reflexivity.
    + auto.
    + intros q n y I. apply in_app_or in I as [I|[I|[]]]; [eauto|]. injection I as <- <- <-. cbn [tline_ok hline_ok] in FD. exists xt. tauto.
  - destruct (resolve u [] (removelast (head_path n m))) as [p|] eqn:R; [|discriminate].
    destruct (in_dec name_dec (p, last (head_path n m) []) (w_names u)) as [|NI]; [discriminate|]. injection H as <-.
    constructor; rewrite ?tlist_snoc; cbn [w_names w_entries w_tables w_elems]; auto.
    + intros k I. apply in_or_app. apply in_app_or in I as [I|[I|[]]]; [auto|]. injection I as _ <-. right. left. reflexivity.
    + intros q k I. apply in_app_or in I as [I|[I|[]]].
      * destruct (N q k I) as [J|[J|J]]; auto. right; left. apply in_or_app. auto.
      * injection I as <- <-. right; left. apply in_or_app. right. left. reflexivity.
  - destruct (resolve u [] (removelast (head_path n m))) as [p|] eqn:R; [|discriminate].
    set (a := p ++ [PKey (last (head_path n m) [])]) in *.
    assert (EE : forall i, i = elem_count a (w_elems u) -> forall b j, j < elem_count b (w_elems u ++ [(a, i)]) -> In (b, j) (w_elems u ++ [(a, i)])).
    { intros i -> b j J. rewrite count_snoc in J. apply in_or_app. destruct (place_dec a b) as [<-|_].
      - destruct (N.eq_dec j (elem_count a (w_elems u))) as [->|X]; [right; left; reflexivity|left; apply E; lia].
      - left. apply E. lia. }
    destruct (0 <? elem_count a (w_elems u)) eqn:Z.
    + injection H as <-. constructor; rewrite ?tlist_snoc; cbn [w_names w_entries w_tables w_elems]; auto.
      * intros k I. apply in_or_app. auto.
      * intros q k I. destruct (N q k I) as [J|[J|[i J]]]; auto. right; right. exists i. apply in_or_app. auto.
    + destruct (in_dec name_dec (p, last (head_path n m) []) (w_names u)) as [|NI]; [discriminate|]. injection H as <-.
      constructor; rewrite ?tlist_snoc; cbn [w_names w_entries w_tables w_elems]; auto.
      * intros k I. apply in_or_app. apply in_app_or in I as [I|[I|[]]]; [auto|]. injection I as -> <-. right. destruct m as [|y m]; [left; reflexivity|].
        exfalso. eapply resolve_deep; [exact R| |reflexivity]. left. destruct m; discriminate.
      * intros q k I. apply in_app_or in I as [I|[I|[]]].
        -- destruct (N q k I) as [J|[J|[i J]]]; auto. right; right. exists i. apply in_or_app. auto.
        -- injection I as <- <-. right; right. exists 0. apply in_or_app. right. left. reflexivity.
      * apply EE. apply N.ltb_ge in Z. lia.
Qed.

Definition known3 (v : view) (x : str) : Prop := exists y, tknown v y /\ x = pt y.

Lemma found_nested : forall l v cs s, covers l v -> says l = Some v -> vok v -> tmap v (tlist l) cs s.(p_map) ->
  forall x, (in_document s x -> found s x) /\ (short_heads l -> found s x -> in_document s x).
Proof.
  intros l v cs s [CT CN CE CV] SA OK MI x.
  set (top := first_keys [] (tlist l)).
  assert (TOP : get_children s [] = Some (Keys top)) by (apply (tlook_root v _ cs s MI)).
  assert (ONLY : forall x ch, get_children s x = Some ch -> x = [] \/ x = root_key \/ known3 v x).
  { intros y ch H. exact (tlook_only v _ cs s y ch MI H). }
  assert (KEY : forall q k, pt (q ++ [PKey k]) = pt (q ++ PKey k :: [])) by reflexivity.
  assert (ENT : forall q k y r, In (q, k, y) (w_entries v) -> gplace (q ++ [PKey k]) /\ pt (q ++ PKey k :: r) = pt (q ++ [PKey k]) ++ path_text r).
  { intros q k y r I. destruct (vo_spot _ OK _ _ (vo_named _ OK _ _ _ I)) as [SQ BK].
    assert (G : gplace (q ++ [PKey k])) by (apply gplace_key; auto; apply (vo_good _ OK); auto). split; auto.
    replace (q ++ PKey k :: r) with ((q ++ [PKey k]) ++ r) by (rewrite <- app_assoc; auto). apply pt_path; auto. apply snoc_place. }
  assert (KNOWN : forall x, known3 v x -> x <> [] /\ x <> root_key /\ get_children s x <> None).
  { intros z (y & K & ->). destruct (tknown_good v y OK K) as [G N]. split; [apply pt_ne; auto|]. split; [apply pt_root; auto|].
    destruct K as [y I|a i I|a i I|q k y r w I GR W].
    - destruct (tlook_spot v _ cs s y OK MI (Sp_tab _ _ I) N) as [E _]. congruence.
    - destruct (tlook_spot v _ cs s _ OK MI (Sp_elem _ _ _ I) N) as [E _]. congruence.
    - destruct (tlook_array v _ cs s a i OK MI I) as [E _]. congruence.
    - destruct (tlook_value v _ cs s q k y r OK MI I GR) as [_ E]. rewrite E, W. discriminate. }
  assert (SPOT : forall q, spot v q -> q <> [] -> known3 v (pt q)).
  { intros q [|y I|a i I] N; [congruence|exists y; split; auto; apply TK_tab; auto|exists (a ++ [PIdx i]); split; auto; apply TK_elem; auto]. }
  assert (SELF : forall q k y, In (q, k, y) (w_entries v) -> known3 v (pt (q ++ [PKey k]))).
  { intros q k y I. exists (q ++ [PKey k]). split; auto. eapply (TK_val v q k y []); eauto; [constructor|reflexivity]. }
  assert (LEN : forall a b : str, (0 < length b)%nat -> (length a < length (a ++ b))%nat) by (intros; rewrite app_length; lia).
  assert (DOT : forall q k, gplace q -> q <> [] -> pt (q ++ [PKey k]) = pt q ++ lit "." ++ k).
  { intros q k G N. rewrite pt_key by auto. destruct q; [congruence|]. unfold pdot. rewrite <- app_assoc. reflexivity. }
  assert (NAMED : forall q k, In (q, k) (w_names v) -> In (pt (q ++ [PKey k])) top \/
    exists y ch, known3 v y /\ get_children s y = Some ch /\ In (pt (q ++ [PKey k])) (combine_child_keys ch y) /\
      (length y < length (pt (q ++ [PKey k])))%nat).
  { intros q k I. destruct (vo_spot _ OK _ _ I) as [SQ BK]. destruct q as [|n p].
    - left. cbn [app place_text]. change (path_text []) with (@nil N). rewrite app_nil_r. apply first_keys_in. split; [auto|intros []].
    - right. set (q := n :: p) in *. assert (NQ : q <> []) by discriminate. pose proof (vo_good _ OK _ SQ) as GQ.
      destruct (tlook_spot v _ cs s q OK MI SQ NQ) as [E _]. exists (pt q), (Keys (names_at q (w_names v))).
      split; [auto|]. split; [exact E|]. rewrite DOT by auto. split.
      + apply combine_names; [apply pt_ne; auto|]. exists k. split; auto. apply names_in. auto.
      + apply LEN. cbn. lia. }
  assert (NB : forall q k y, In (q, k, y) (w_entries v) -> pt (q ++ [PKey k]) <> []).
  { intros q k y I. apply pt_ne; [apply snoc_place|apply (ENT q k y [] I)]. }
  assert (UP : forall x, known3 v x -> In x top \/ exists y ch, known3 v y /\ get_children s y = Some ch /\
    In x (combine_child_keys ch y) /\ (length y < length x)%nat).
  { intros z (y & K & ->). destruct K as [y I|a i I|a i I|q k y r w I GR W].
    - destruct (vo_tables _ OK _ I) as (q & t & -> & _ & IN & _). auto.
    - right. destruct (tknown_good v a OK (TK_arr _ _ _ I)) as [GA NA]. destruct (tlook_array v _ cs s a i OK MI I) as [E _].
      exists (pt a). eexists. split; [exists a; split; auto; eapply TK_arr; eauto|]. split; [exact E|]. rewrite pt_idx by auto. split.
      + apply combine_count. exists i. split; [apply (vo_elems _ OK _ _ I)|reflexivity].
      + apply LEN. cbn. lia.
    - destruct (vo_elems _ OK _ _ I) as (_ & _ & q & n & -> & _ & IN & _). auto.
    - destruct (ENT q k y r I) as [G ->].
      destruct (inner_up (pt (q ++ [PKey k])) y (NB q k y I) r w GR W) as [->|(r' & u & GQ & AQ & IQ & LQ)].
      + change (path_text []) with (@nil N). rewrite app_nil_r. apply NAMED. apply (vo_named _ OK _ _ _ I).
      + right. exists (pt (q ++ [PKey k]) ++ path_text r'), (kids_of u).
        destruct (ENT q k y r' I) as [_ EQ]. rewrite <- EQ. split; [exists (q ++ PKey k :: r'); split; auto; eapply TK_val; eauto|].
        rewrite EQ. split; [|auto]. rewrite <- EQ. destruct (tlook_value v _ cs s q k y r' OK MI I GQ) as [_ E]. rewrite E, AQ. reflexivity. }
  split.
  { rewrite (in_document_known s (known3 v) ONLY KNOWN x). apply (known_found s top (known3 v) TOP UP). }
  intros SH.
  assert (GIVEN : forall q k, In (q, k) (w_names v) -> known3 v (pt (q ++ [PKey k]))).
  { intros q k I. destruct (CN q k I) as [[y J]|[J|[i J]]]; [eauto|exists (q ++ [PKey k]); split; auto; apply TK_tab; auto|].
    exists (q ++ [PKey k]); split; auto. eapply TK_arr; eauto. }
  assert (DTOP : forall x, In x top -> known3 v x).
  { intros y I. unfold top in I. rewrite (ti_names _ _ (top_says _ _ SA) SH) in I. apply names_in, GIVEN in I.
    cbn [app place_text] in I. change (path_text []) with (@nil N) in I. rewrite app_nil_r in I. exact I. }
  assert (KIDS : forall q z, spot v q -> q <> [] -> In z (combine_child_keys (Keys (names_at q (w_names v))) (pt q)) -> known3 v z).
  { intros q z SQ NQ I. pose proof (vo_good _ OK _ SQ) as GQ. apply combine_names in I as (k & IK & ->); [|apply pt_ne; auto].
    rewrite <- DOT by auto. apply GIVEN, names_in. auto. }
  assert (DOWN : forall y ch x, known3 v y -> get_children s y = Some ch -> In x (combine_child_keys ch y) -> known3 v x).
  { intros z ch t (y & K & ->) G I. destruct (tknown_good v y OK K) as [GY NY]. destruct K as [y J|a i J|a i J|q k y r w J GR W].
    - destruct (tlook_spot v _ cs s y OK MI (Sp_tab _ _ J) NY) as [E _]. rewrite E in G. injection G as <-. apply (KIDS y); auto. apply Sp_tab; auto.
    - destruct (tlook_spot v _ cs s _ OK MI (Sp_elem _ _ _ J) NY) as [E _]. rewrite E in G. injection G as <-. eapply KIDS; [apply Sp_elem; eauto|auto|auto].
    - destruct (tlook_array v _ cs s a i OK MI J) as [E _]. rewrite E in G. injection G as <-.
      apply combine_count in I as (j & L & ->). exists (a ++ [PIdx j]). split; [apply TK_elem, CE; auto|]. rewrite pt_idx by auto. reflexivity.
    - destruct (tlook_value v _ cs s q k y r OK MI J GR) as [_ E]. rewrite E, W in G. cbn [option_map] in G. injection G as <-.
      destruct (ENT q k y r J) as [_ EQ]. rewrite EQ in I. destruct (CV _ _ _ J) as [tx S].
      destruct (inner_down (pt (q ++ [PKey k])) y (NB q k y J) (proj1 keys_of_spells y tx S) r w t GR W I) as (r' & u & GQ & AQ & ->).
      destruct (ENT q k y r' J) as [_ <-]. exists (q ++ PKey k :: r'). split; auto. eapply TK_val; eauto. }
  rewrite (in_document_known s (known3 v) ONLY KNOWN x). apply (found_known s top (known3 v) TOP DTOP DOWN).
Qed.
