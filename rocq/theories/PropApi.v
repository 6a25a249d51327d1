(** Properties of set_value, get_value and get_children on every reachable parser. *)
From Coq Require Import Lia ZifyBool ZifyNat ZifyN.
From Verif Require Import Str Regex Types Ast State Nom Keys Grammar Api Facts Spec ApiSpec.
From Verif Require Import IdFacts WriteFacts SetFacts ApiFacts UpdateFacts.

Definition int (s : string) : value := VInteger (lit s).
Definition nl : str := [10].
(** a document with comments and odd spacing, used by the examples *)
Definition doc1 : str :=
  lit "# top" ++ nl ++ lit "a  =  1 # one" ++ nl ++ lit "b = [ 1,  2 ,3 ]" ++ nl ++
  lit "c = {x=1,  y =  [2, 3] }" ++ nl ++ lit "d = 'q'" ++ nl.

(** ** C18 *)
Theorem C18_unknown_refused : forall s key v, get_value s key = Ok None -> set_value s key v = Ok (s, false).
Proof. intros s key v G. apply set_value_none, get_value_none, G. Qed.
Print Assumptions C18_unknown_refused.
Example C18_ex : exists s, parse (new_parser true) (lit "[[t]]" ++ nl ++ lit "x = 1" ++ nl) = Ok (s, Full) /\
  get_children s (lit "t") = Some (Count 1) /\ get_value s (lit "t") = Ok None /\ get_value s (lit "zz") = Ok None.
Proof. eexists. split; [vm_compute; reflexivity|]. vm_compute. repeat split. Qed.

(** ** C19 *)
Theorem C19_scalar_set : forall ovf s key old v, reach ovf s -> get_value s key = Ok (Some old) -> scalar_value old ->
  scalar_value v -> validate v = true ->
  exists s', set_value s key v = Ok (s', true) /\ get_value s' key = Ok (Some v) /\
    (forall k, k <> key -> (get_value s k = Ok None \/ exists w, get_value s k = Ok (Some w) /\ scalar_value w) ->
       get_value s' k = get_value s k) /\
    (forall k, get_children s' k = get_children s k).
Proof.
  intros ovf s key old v R G S0 S V. destruct (reach_wf _ _ R) as (h & W).
  destruct (set_scalar_all h s key old v W (reach_shape _ _ R) G S0 S V) as (s' & A & B & C & D & _). eauto 6.
Qed.
Print Assumptions C19_scalar_set.
Example C19_ex : exists s, parse (new_parser true) doc1 = Ok (s, Full) /\ reach true s /\
  get_value s (lit "c.y[1]") = Ok (Some (int "3")) /\ validate (VString (lit "three") SLiteral) = true.
Proof.
  eexists. split; [vm_compute; reflexivity|]. split; [apply (R_parse true (new_parser true) doc1 _ Full); [apply R_new|vm_compute; reflexivity]|].
  vm_compute. repeat split.
Qed.

(** ** C20 *)
Theorem C20_scalar_text : forall ovf s key old v pre post t, reach ovf s -> get_value s key = Ok (Some old) -> scalar_value old ->
  scalar_value v -> validate v = true -> key_at s key pre post -> show_parser s = Ok t ->
  exists s', set_value s key v = Ok (s', true) /\
    t = pre ++ spelling old ++ post /\ show_parser s' = Ok (pre ++ spelling v ++ post).
Proof.
  intros ovf s key old v pre post t R G S0 S V K H. destruct (reach_wf _ _ R) as (h & W).
  destruct (set_scalar_all h s key old v W (reach_shape _ _ R) G S0 S V) as (s' & A & _ & _ & _ & D).
  destruct (D pre post t K H). eauto.
Qed.
Print Assumptions C20_scalar_text.
(** every value of the document that the parser keeps under a key is at some place *)
Theorem C20_places : forall s key c, valof s.(p_map) key = Some c -> In c (WalkFacts.toml_cells s.(p_root)) ->
  exists pre post, key_at s key pre post.
Proof. intros s key c V I. destruct (toml_located _ _ I) as (pre & post & L). exists pre, post, c. auto. Qed.
Print Assumptions C20_places.

(** the keys of [doc1] are in its text; the place of the last element of `c.y` *)
Definition pre1 : str := lit "# top" ++ nl ++ lit "a  =  1 # one" ++ nl ++ lit "b = [ 1,  2 ,3 ]" ++ nl ++ lit "c = {x=1,  y =  [2, ".
Definition post1 : str := lit "] }" ++ nl ++ lit "d = 'q'" ++ nl.
Example C20_ex : exists s, parse (new_parser true) doc1 = Ok (s, Full) /\ show_parser s = Ok doc1 /\
  key_at s (lit "c.y[1]") pre1 post1.
Proof.
  eexists. split; [vm_compute; reflexivity|]. split; [vm_compute; reflexivity|].
  eexists. split; [vm_compute; reflexivity|].
  match goal with |- located _ ?d _ _ => let d' := eval vm_compute in d in change d with d' end.
  match goal with |- located ?c (?e0 :: ?e1 :: ?e2 :: ?e3 :: ?l) _ _ =>
    assert (L : exists pre post, located c ([e0; e1; e2] ++ e3 :: l) pre post /\ pre = pre1 /\ post = post1) end.
  { do 2 eexists. split.
    - apply Lo_doc.
      match goal with |- located_in _ (Cell _ (TInlineTable (?x :: ?l) _)) _ _ => apply (Lo_inl _ _ [x] []) end.
      match goal with |- located_in _ (Cell _ (TArray (?x :: ?l) _ _)) _ _ => apply (Lo_arr _ _ [x] []) end.
      apply Lo_here.
    - split; vm_compute; reflexivity. }
  destruct L as (pre & post & L & -> & ->). exact L.
Qed.

(** ** C21 *)
Theorem C21_same_structure : forall ovf s key old v, reach ovf s -> get_value s key = Ok (Some old) ->
  same_shape old v -> all_valid v ->
  exists s', set_value s key v = Ok (s', true) /\ get_value s' key = Ok (Some v) /\
    (forall k, get_children s' k = get_children s k) /\
    (forall pre post t, key_at s key pre post -> show_parser s = Ok t ->
       exists f, length f = S (length (leaves old)) /\ length (leaves v) = length (leaves old) /\
         t = pre ++ weave f (map spelling (leaves old)) ++ post /\
         show_parser s' = Ok (pre ++ weave f (map spelling (leaves v)) ++ post)).
Proof.
  intros ovf s key old v R G SS V. destruct (reach_wf _ _ R) as (h & W).
  exact (set_same_all h s key old v W (reach_shape _ _ R) G SS V).
Qed.
Print Assumptions C21_same_structure.
Definition c21_old : value := VInlineTable [(lit "x", int "1"); (lit "y", VArray [int "2"; int "3"])].
Definition c21_new : value := VInlineTable [(lit "x", VBoolean true); (lit "y", VArray [int "20"; int "30"])].
Example C21_ex : same_shape c21_old c21_new /\ all_valid c21_new /\
  exists s s', parse (new_parser true) doc1 = Ok (s, Full) /\ get_value s (lit "c") = Ok (Some c21_old) /\
    set_value s (lit "c") c21_new = Ok (s', true) /\
    show_parser s' = Ok (lit "# top" ++ nl ++ lit "a  =  1 # one" ++ nl ++ lit "b = [ 1,  2 ,3 ]" ++ nl ++
      lit "c = {x=true,  y =  [20, 30] }" ++ nl ++ lit "d = 'q'" ++ nl).
Proof.
  split; [|split].
  - apply SS_table. constructor; [split; [reflexivity|apply SS_scalar; exact I]|].
    constructor; [split; [reflexivity|]|constructor]. apply SS_array.
    constructor; [apply SS_scalar; exact I|]. constructor; [apply SS_scalar; exact I|constructor].
  - intros x I. cbn [c21_new leaves flat_map snd app] in I. destruct I as [<-|[<-|[<-|[]]]]; reflexivity.
  - eexists. eexists. split; [vm_compute; reflexivity|]. split; [vm_compute; reflexivity|].
    split; [vm_compute; reflexivity|]. vm_compute. reflexivity.
Qed.

(** ** C22: false as stated: refusing an invalid value drops the elements of an array *)
Theorem C22_refused_refuted : exists s s', parse (new_parser true) (lit "a = [1, 2]") = Ok (s, Full) /\
  set_value s (lit "a") (int "x") = Ok (s', false) /\
  get_value s (lit "a[0]") = Ok (Some (int "1")) /\ get_value s' (lit "a[0]") = Ok None.
Proof.
  eexists. eexists. split; [vm_compute; reflexivity|]. split; [vm_compute; reflexivity|]. split; vm_compute; reflexivity.
Qed.
Print Assumptions C22_refused_refuted.
(** the text never changes; lookups change at most at the keys below [key], and
    not at all when [key] has no children *)
Theorem C22_refused_partial : forall s key v s', set_value s key v = Ok (s', false) ->
  show_parser s' = show_parser s /\
  (forall k, ~ below key k -> get_value s' k = get_value s k /\ get_children s' k = get_children s k) /\
  (key <> [] -> get_children s key = Some (Count 0) \/ get_children s key = Some (Keys []) ->
   forall k, get_value s' k = get_value s k /\ get_children s' k = get_children s k).
Proof. exact refused. Qed.
Print Assumptions C22_refused_partial.
Example C22_ex : exists s s', parse (new_parser true) doc1 = Ok (s, Full) /\ set_value s (lit "a") (int "x") = Ok (s', false) /\
  get_children s (lit "a") = Some (Count 0) /\ ~ below (lit "a") (lit "b[1]").
Proof.
  eexists. eexists. split; [vm_compute; reflexivity|]. split; [vm_compute; reflexivity|].
  split; [vm_compute; reflexivity|]. intros (c & r & E & _). discriminate.
Qed.

(** ** C23: false as stated: an array cannot become a scalar *)
Theorem C23_any_value_refuted : exists s, parse (new_parser true) (lit "a = [1, 2]") = Ok (s, Full) /\
  get_value s (lit "a") = Ok (Some (VArray [int "1"; int "2"])) /\ validate (int "7") = true /\
  set_value s (lit "a") (int "7") = Panic.
Proof. eexists. split; [vm_compute; reflexivity|]. split; [vm_compute; reflexivity|]. split; vm_compute; reflexivity. Qed.
Print Assumptions C23_any_value_refuted.
(** proved: a new value of the same structure, a flat array or a flat inline table *)
Theorem C23_any_value_partial : forall ovf s key old v, reach ovf s -> key <> root_key -> get_value s key = Ok (Some old) ->
  all_valid v ->
  same_shape old v \/
  (exists l, v = VArray l /\ forall x, In x l -> scalar_value x) \/
  (exists l, v = VInlineTable l /\ forall x, In x l -> scalar_value (snd x)) ->
  exists s', set_value s key v = Ok (s', true) /\ get_value s' key = Ok (Some v).
Proof.
  intros ovf s key old v R NR G AV H. destruct (reach_wf _ _ R) as (h & W). pose proof (reach_shape _ _ R) as Sh.
  assert (D : same_shape old v \/ ~ same_shape old v).
  { apply get_value_some in G as (c & V & T). destruct (same_structure (c_val c) v) eqn:E.
    - left. eapply same_structure_shape; eauto.
    - right. intros SS. destruct (fill_ok _ _ _ 0 T SS AV) as (ws & F). pose proof (fi_same _ _ _ _ _ F). congruence. }
  destruct D as [SS|NS].
  - destruct (set_same_all h s key old v W Sh G SS AV) as (s' & A & B & _). eauto.
  - destruct H as [SS|[(l & -> & F)|(l & -> & F)]]; [contradiction| |].
    + destruct (set_flat_array h s key old l W Sh NR G) as (s' & A & B & _); eauto.
      intros x I. split; auto. apply AV. cbn [leaves]. apply in_flat_map. exists x. split; auto. rewrite scalar_leaves by auto. left; auto.
    + destruct (set_flat_table h s key old l W Sh NR G) as (s' & A & B & _); eauto.
      intros x I. split; auto. apply AV. cbn [leaves]. apply in_flat_map. exists x. split; auto. rewrite scalar_leaves by auto. left; auto.
Qed.
Print Assumptions C23_any_value_partial.
(** missing: scalars over arrays and inline tables, and new nested structures
    (both panic).  The answer is always reached without running out of fuel. *)
Theorem C23_terminates : forall s key v, set_value s key v <> Fuel.
Proof. exact set_no_fuel. Qed.
Print Assumptions C23_terminates.
Example C23_ex : exists s, parse (new_parser true) doc1 = Ok (s, Full) /\ lit "c.y" <> root_key /\
  get_value s (lit "c.y") = Ok (Some (VArray [int "2"; int "3"])) /\
  all_valid (VInlineTable [(lit "k", VBoolean true); (lit "l", VString (lit "w") SBasic)]).
Proof.
  eexists. split; [vm_compute; reflexivity|]. split; [discriminate|]. split; [vm_compute; reflexivity|].
  intros x I. cbn [leaves flat_map snd app] in I. destruct I as [<-|[<-|[]]]; reflexivity.
Qed.

(** ** C24: false as stated: an element of an earlier array survives *)
Definition c24_doc : str := lit "[a.b.c]" ++ nl ++ lit "[a]" ++ nl ++ lit "b = [1]" ++ nl.
Theorem C24_resize_refuted : exists s s', parse (new_parser true) c24_doc = Ok (s, Full) /\
  get_value s (lit "a.b") = Ok (Some (VArray [int "1"])) /\
  set_value s (lit "a.b") (VArray [int "5"; int "6"]) = Ok (s', true) /\
  get_value s' (lit "a.b[0]") = Ok (Some (int "1")).
Proof.
  eexists. eexists. split; [vm_compute; reflexivity|]. split; [vm_compute; reflexivity|]. split; vm_compute; reflexivity.
Qed.
Print Assumptions C24_resize_refuted.
(** with the extra condition that the children of [key] are its elements and no
    element beyond the end is known; the old value may be any other structure *)
Theorem C24_resize_partial : forall ovf s key old new n, reach ovf s -> key <> [] -> key <> root_key ->
  get_value s key = Ok (Some old) -> flat new -> ~ same_shape old (VArray new) ->
  get_children s key = Some (Count n) -> (forall i, n <= i -> get_children s (key ++ lit "[" ++ dec i ++ lit "]") = None) ->
  exists s', set_value s key (VArray new) = Ok (s', true) /\ get_value s' key = Ok (Some (VArray new)) /\
    get_children s' key = Some (Count (N.of_nat (length new))) /\
    (forall i, get_value s' (key ++ lit "[" ++ dec i ++ lit "]") = Ok (nth_error new (N.to_nat i))) /\
    other_same key s s' /\
    (forall pre post t, key_at s key pre post -> show_parser s = Ok t ->
       (exists oldtext, t = pre ++ oldtext ++ post) /\
       show_parser s' = Ok (pre ++ lit "[" ++ comma_list (map spelling new) ++ lit "]" ++ post)).
Proof.
  intros ovf s key old new n R NE NR G F NS Ch Ab. destruct (reach_wf _ _ R) as (h & W).
  destruct (set_flat_array h s key old new W (reach_shape _ _ R) NR G F NS) as (s' & A & B & C & D & E & T).
  exists s'. split; auto. split; auto. split; [apply D; auto|]. split; [intros i; apply (E n NE Ch Ab i)|]. split; auto.
Qed.
Print Assumptions C24_resize_partial.
Lemma other_length : forall l l', length l <> length l' -> ~ same_shape (VArray l) (VArray l').
Proof.
  intros l l' N S. inversion S as [a b SA|x y H|]; subst; [destruct SA|]. apply N. clear - H.
  induction H; cbn [length]; auto.
Qed.
Example C24_ex : exists s s', parse (new_parser true) doc1 = Ok (s, Full) /\
  get_value s (lit "b") = Ok (Some (VArray [int "1"; int "2"; int "3"])) /\ get_children s (lit "b") = Some (Count 3) /\
  set_value s (lit "b") (VArray [VBoolean true; VBoolean false]) = Ok (s', true) /\
  show_parser s' = Ok (lit "# top" ++ nl ++ lit "a  =  1 # one" ++ nl ++ lit "b = [true, false]" ++ nl ++
    lit "c = {x=1,  y =  [2, 3] }" ++ nl ++ lit "d = 'q'" ++ nl) /\
  get_value s' (lit "b[1]") = Ok (Some (VBoolean false)) /\ get_value s' (lit "b[2]") = Ok None.
Proof.
  eexists. eexists. split; [vm_compute; reflexivity|]. split; [vm_compute; reflexivity|]. split; [vm_compute; reflexivity|].
  split; [vm_compute; reflexivity|]. vm_compute. repeat split.
Qed.

(** ** C25: false as stated: the old keys stay in the list *)
Theorem C25_table_children_refuted : exists s s', parse (new_parser true) (lit "a = {x = 1}") = Ok (s, Full) /\
  set_value s (lit "a") (VInlineTable [(lit "y", int "2")]) = Ok (s', true) /\
  get_children s' (lit "a") = Some (Keys [lit "x"; lit "y"]) /\ get_value s' (lit "a.x") = Ok None.
Proof.
  eexists. eexists. split; [vm_compute; reflexivity|]. split; [vm_compute; reflexivity|]. split; vm_compute; reflexivity.
Qed.
Print Assumptions C25_table_children_refuted.
(** the list is the old one followed by the new keys that were not in it, so it is
    exactly the new one if no old key disappears and the order is kept *)
Theorem C25_table_children_partial : forall ovf s key old new l0, reach ovf s -> key <> [] -> key <> root_key ->
  get_value s key = Ok (Some old) -> flat2 new -> NoDup (map fst new) -> ~ same_shape old (VInlineTable new) ->
  get_children s key = Some (Keys l0) ->
  (forall k, In k (map fst new) -> ~ In k l0 -> get_children s (key ++ lit "." ++ k) = None) ->
  exists s' added, set_value s key (VInlineTable new) = Ok (s', true) /\ get_value s' key = Ok (Some (VInlineTable new)) /\
    get_children s' key = Some (Keys (l0 ++ added)) /\
    (forall k, In k added <-> In k (map fst new) /\ ~ In k l0) /\
    (forall more, map fst new = l0 ++ more -> added = more) /\
    (forall k x, In (k, x) new -> get_value s' (key ++ lit "." ++ k) = Ok (Some x)) /\
    (forall k, In k l0 -> ~ In k (map fst new) -> get_value s' (key ++ lit "." ++ k) = Ok None) /\
    other_same key s s'.
Proof.
  intros ovf s key old new l0 R NE NR G F ND NS Ch Ab. destruct (reach_wf _ _ R) as (h & W).
  destruct (set_flat_table h s key old new W (reach_shape _ _ R) NR G F NS) as (s' & A & B & C & D & E & T).
  exists s', (filter (fun k => negb (vcontains l0 k)) (map fst new)).
  split; auto. split; auto. split; [rewrite D, Ch; auto|].
  assert (Q : forall k, vcontains l0 k = false <-> ~ In k l0).
  { intros k. destruct (vcontains l0 k) eqn:X; split; try discriminate; auto.
    - intros N. exfalso. apply N. apply FlatFacts.vcontains_in; auto.
    - intros _ I. apply FlatFacts.vcontains_in in I. congruence. }
  split; [|split].
  - intros k. rewrite filter_In, negb_true_iff, Q. tauto.
  - intros more M. rewrite M in ND |- *. rewrite filter_app. clear - ND Q.
    replace (filter (fun k => negb (vcontains l0 k)) l0) with (@nil str).
    + cbn [app]. assert (H : forall k, In k more -> ~ In k l0).
      { intros k I J. clear Q. induction l0 as [|x l0 IH]; [destruct J|]. cbn [app] in ND. inversion ND; subst.
        destruct J as [->|J]; auto. apply H1. apply in_app_iff; auto. }
      clear ND. induction more as [|x more IH]; auto. cbn [filter].
      replace (vcontains l0 x) with false by (symmetry; apply Q, H; left; auto). cbn [negb]. f_equal.
      apply IH. intros; apply H; right; auto.
    + assert (H : forall l, incl l l0 -> filter (fun k => negb (vcontains l0 k)) l = []).
      { induction l as [|x l IH]; intros I; auto. cbn [filter].
        replace (vcontains l0 x) with true by (symmetry; apply FlatFacts.vcontains_in, I; left; auto). cbn [negb].
        apply IH. intros y Y. apply I. right; auto. }
      symmetry. apply H. intros y Y; auto.
  - destruct (E l0 NE ND Ch Ab) as [E1 E2]. split; auto.
Qed.
Print Assumptions C25_table_children_partial.
Example C25_ex : exists s s', parse (new_parser true) doc1 = Ok (s, Full) /\ get_children s (lit "c") = Some (Keys [lit "x"; lit "y"]) /\
  get_children s (lit "c.z") = None /\
  set_value s (lit "c") (VInlineTable [(lit "x", int "1"); (lit "y", int "2"); (lit "z", int "3")]) = Ok (s', true) /\
  get_children s' (lit "c") = Some (Keys [lit "x"; lit "y"; lit "z"]) /\ get_value s' (lit "c.y[0]") = Ok None /\
  get_value s' (lit "c.y") = Ok (Some (int "2")).
Proof.
  eexists. eexists. split; [vm_compute; reflexivity|]. split; [vm_compute; reflexivity|]. split; [vm_compute; reflexivity|].
  split; [vm_compute; reflexivity|]. vm_compute. repeat split.
Qed.

(** ** C26: false as stated for inline tables: there is a space inside the braces *)
Theorem C26_format_refuted : exists s s', parse (new_parser true) (lit "a = {x = 1}") = Ok (s, Full) /\
  set_value s (lit "a") (VInlineTable [(lit "y", int "2")]) = Ok (s', true) /\
  show_parser s' = Ok (lit "a = { y = 2 }").
Proof.
  eexists. eexists. split; [vm_compute; reflexivity|]. split; [vm_compute; reflexivity|]. vm_compute; reflexivity.
Qed.
Print Assumptions C26_format_refuted.
(** arrays are printed as documented; inline tables as documented except for one
    space after the opening and one before the closing brace *)
Theorem C26_format_partial : forall ovf s key old v pre post t, reach ovf s -> key <> root_key ->
  get_value s key = Ok (Some old) -> ~ same_shape old v -> key_at s key pre post -> show_parser s = Ok t ->
  (forall l, v = VArray l -> flat l -> exists s', set_value s key v = Ok (s', true) /\
     show_parser s' = Ok (pre ++ lit "[" ++ comma_list (map spelling l) ++ lit "]" ++ post)) /\
  (forall l, v = VInlineTable l -> flat2 l -> l <> [] -> exists s', set_value s key v = Ok (s', true) /\
     show_parser s' = Ok (pre ++ lit "{ " ++
       comma_list (map (fun kv => fst kv ++ lit " = " ++ spelling (snd kv)) l) ++ lit " }" ++ post)).
Proof.
  intros ovf s key old v pre post t R NR G NS K S. destruct (reach_wf _ _ R) as (h & W). split.
  - intros l -> F. destruct (set_flat_array h s key old l W (reach_shape _ _ R) NR G F NS) as (s' & A & _ & _ & _ & _ & T).
    destruct (T pre post t K S). eauto.
  - intros l -> F NE. destruct (set_flat_table h s key old l W (reach_shape _ _ R) NR G F NS) as (s' & A & _ & _ & _ & _ & T).
    destruct (T pre post t NE K S). eauto.
Qed.
Print Assumptions C26_format_partial.
Example C26_ex : exists s s', parse (new_parser true) doc1 = Ok (s, Full) /\
  set_value s (lit "c.y[1]") (VArray [int "7"; int "8"]) = Ok (s', true) /\
  show_parser s' = Ok (pre1 ++ lit "[7, 8]" ++ post1).
Proof.
  eexists. eexists. split; [vm_compute; reflexivity|]. split; [vm_compute; reflexivity|]. vm_compute; reflexivity.
Qed.

(** ** C27: the two parsers are equal, so everything about them is *)
Theorem C27_commute : forall ovf s k1 k2 old1 old2 v1 v2, reach ovf s -> k1 <> k2 ->
  get_value s k1 = Ok (Some old1) -> scalar_value old1 -> scalar_value v1 -> validate v1 = true ->
  get_value s k2 = Ok (Some old2) -> scalar_value old2 -> scalar_value v2 -> validate v2 = true ->
  exists s1 s2 s12, set_value s k1 v1 = Ok (s1, true) /\ set_value s1 k2 v2 = Ok (s12, true) /\
    set_value s k2 v2 = Ok (s2, true) /\ set_value s2 k1 v1 = Ok (s12, true).
Proof.
  intros ovf s k1 k2 old1 old2 v1 v2 R N G1 O1 S1 V1 G2 O2 S2 V2. destruct (reach_wf _ _ R) as (h & W).
  pose proof G1 as G1'. pose proof G2 as G2'.
  apply get_value_some in G1' as (c1 & C1 & T1). apply get_value_some in G2' as (c2 & C2 & T2).
  assert (D : c_id c1 <> c_id c2) by (intros E; apply N; eapply (co_inj _ _ (wf_co _ _ W)); eauto).
  pose proof (set_scalar s k1 c1 old1 v1 C1 T1 O1 S1 V1) as A1. pose proof (set_scalar s k2 c2 old2 v2 C2 T2 O2 S2 V2) as A2.
  assert (B : forall (c c' : cell) nv k, valof s.(p_map) k = Some c -> c_id c <> c_id c' -> leaf (c_val c) ->
    valof (write s (c_id c', nv)).(p_map) k = Some c).
  { intros c c' nv k V Q L. cbn [write p_map set_root set_map]. rewrite valof_upd, V. f_equal. apply upd_c_absent.
    rewrite ids_subcells, leaf_cells by auto. intros [I|[]]. auto. }
  assert (L1 : leaf (c_val c1)) by (rewrite (scalar_tval _ _ T1 O1); apply scalar_leaf).
  assert (L2 : leaf (c_val c2)) by (rewrite (scalar_tval _ _ T2 O2); apply scalar_leaf).
  pose proof (set_scalar _ k2 c2 old2 v2 (B c2 c1 (leaf_of v1) k2 C2 (fun e => D (eq_sym e)) L2) T2 O2 S2 V2) as A3.
  pose proof (set_scalar _ k1 c1 old1 v1 (B c1 c2 (leaf_of v2) k1 C1 D L1) T1 O1 S1 V1) as A4.
  do 3 eexists. split; [exact A1|]. split; [exact A3|]. split; [exact A2|]. rewrite A4. do 2 f_equal.
  apply write_comm; auto using scalar_leaf.
Qed.
Print Assumptions C27_commute.
Theorem C27_last_wins : forall ovf s key old v v', reach ovf s ->
  get_value s key = Ok (Some old) -> scalar_value old -> scalar_value v -> validate v = true ->
  scalar_value v' -> validate v' = true ->
  exists s1 s2, set_value s key v = Ok (s1, true) /\ set_value s1 key v' = Ok (s2, true) /\ set_value s key v' = Ok (s2, true).
Proof.
  intros ovf s key old v v' R G O S1 V1 S2 V2. pose proof G as G'. apply get_value_some in G' as (c & C & T).
  pose proof (set_scalar s key c old v C T O S1 V1) as A1. pose proof (set_scalar s key c old v' C T O S2 V2) as A2.
  assert (C' : valof (write s (c_id c, leaf_of v)).(p_map) key = Some (Cell c.(c_id) (leaf_of v))).
  { cbn [write p_map set_root set_map]. rewrite valof_upd, C, upd_c_eq, N.eqb_refl. auto. }
  pose proof (set_scalar _ key _ v v' C' (to_val_leaf v S1) S1 S2 V2) as A3. cbn [c_id] in A3.
  do 2 eexists. split; [exact A1|]. split; [exact A3|]. rewrite A2. do 2 f_equal. symmetry. apply write_last; apply scalar_leaf.
Qed.
Print Assumptions C27_last_wins.
Example C27_ex : exists s, parse (new_parser true) doc1 = Ok (s, Full) /\ lit "a" <> lit "c.x" /\
  get_value s (lit "a") = Ok (Some (int "1")) /\ get_value s (lit "c.x") = Ok (Some (int "1")) /\
  validate (VBoolean true) = true /\ validate (VString (lit "w") SMLBasic) = true.
Proof. eexists. split; [vm_compute; reflexivity|]. split; [discriminate|]. vm_compute. repeat split. Qed.

(** ** C28: false as stated: reading a declared table panics *)
Theorem C28_total_refuted : exists s, parse (new_parser true) (lit "[t]" ++ nl ++ lit "a = 1") = Ok (s, Full) /\
  get_value s (lit "t") = Panic.
Proof. eexists. split; [vm_compute; reflexivity|]. vm_compute; reflexivity. Qed.
Print Assumptions C28_total_refuted.

(** ** C29: false as stated: a declared table accepts a scalar that is not printed *)
Theorem C29_visible_refuted : exists s s', parse (new_parser true) (lit "[t]" ++ nl ++ lit "a = 1") = Ok (s, Full) /\
  set_value s (lit "t") (int "7") = Ok (s', true) /\ show_parser s' = show_parser s /\
  show_parser s = Ok (lit "[t]" ++ nl ++ lit "a = 1") /\ get_value s' (lit "t") = Ok (Some (int "7")).
Proof.
  eexists. eexists. split; [vm_compute; reflexivity|]. split; [vm_compute; reflexivity|]. vm_compute. repeat split.
Qed.
Print Assumptions C29_visible_refuted.
(** proved for keys that hold a scalar of the document *)
Theorem C29_visible_partial : forall ovf s key old v s' pre post t, reach ovf s -> get_value s key = Ok (Some old) ->
  scalar_value old -> scalar_value v -> set_value s key v = Ok (s', true) ->
  key_at s key pre post -> show_parser s = Ok t ->
  (show_parser s' = Ok t <-> spelling v = spelling old).
Proof.
  intros ovf s key old v s' pre post t R G S0 S SV K H.
  assert (V : validate v = true).
  { pose proof G as G'. apply get_value_some in G' as (c & C & T). apply set_value_cases in SV.
    destruct (validate v) eqn:E; auto. exfalso.
    inversion SV as [|c' ws C' SS RR| |c' ks n nv m s1 C' SS KK CC L EE RR]; subst; rewrite C in C'; inversion C'; subst c'.
    - destruct (c_val c); cbn [same_structure] in SS; rewrite E in SS; discriminate.
    - destruct v; try destruct S; cbn [convert_vector] in CC; rewrite E in CC; discriminate. }
  destruct (C20_scalar_text ovf s key old v pre post t R G S0 S V K H) as (s2 & A & B & C). rewrite SV in A. inversion A; subst s2.
  rewrite C. split.
  - intros Q. injection Q as Q. rewrite B in Q. apply app_inv_head in Q. apply app_inv_tail in Q. auto.
  - intros ->. rewrite B. auto.
Qed.
Print Assumptions C29_visible_partial.
Example C29_ex : exists s s', parse (new_parser true) doc1 = Ok (s, Full) /\ key_at s (lit "c.y[1]") pre1 post1 /\
  set_value s (lit "c.y[1]") (VBoolean false) = Ok (s', true) /\ show_parser s' = Ok (pre1 ++ lit "false" ++ post1).
Proof.
  destruct C20_ex as (s & P & _ & K). destruct (set_value s (lit "c.y[1]") (VBoolean false)) as [[s' b]| |] eqn:E.
  - exists s, s'. vm_compute in P. injection P as <-. vm_compute in E. injection E as <- <-.
    split; [vm_compute; reflexivity|]. split; [exact K|]. split; vm_compute; reflexivity.
  - exfalso. vm_compute in P. injection P as <-. vm_compute in E. discriminate.
  - exfalso. vm_compute in P. injection P as <-. vm_compute in E. discriminate.
Qed.

(** ** C45, proved part: on every reachable parser printing completes exactly when
    something was parsed and no inline table of the document is empty *)
Theorem C45_show_partial : forall ovf s, reach ovf s ->
  ((exists t, show_parser s = Ok t) <-> s.(p_root) <> [] /\ doc_printable s.(p_root)).
Proof.
  intros ovf s R. pose proof (reach_shape _ _ R) as Sh. split.
  - intros (t & H). apply (shaped_show s t Sh) in H. tauto.
  - intros [A B]. eexists. apply (shaped_show s _ Sh). split; [exact A|split; [exact B|reflexivity]].
Qed.
Print Assumptions C45_show_partial.
Example C45_ex : exists s s', parse (new_parser true) doc1 = Ok (s, Full) /\
  set_value s (lit "b") (VInlineTable []) = Ok (s', true) /\ show_parser s' = Panic.
Proof. eexists. eexists. split; [vm_compute; reflexivity|]. split; [vm_compute; reflexivity|]. vm_compute; reflexivity. Qed.
