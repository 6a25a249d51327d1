(** Properties C24, C25 and C28 (see /verif/properties.jsonl) for every accepted text without arrays
    of tables. *)
From Coq Require Import Lia ZifyBool ZifyNat ZifyN.
From Verif Require Import TotalFacts.
From Verif Require Import Str Regex Types Ast State Nom Keys Grammar Api Spec IdFacts ApiSpec SetFacts UpdateFacts DocSpec DotSpec HeadSpec ReachSpec KidsSpec.
From Verif Require Import FlatFacts PropTypes PropFlat ResizeFacts PropApi PropNest PropDocs.
From Verif Require KidsFacts.

(** ** C24: any array in any key/value of the text, however deep, becomes the new array: its
    value, its children and its elements, each element and no others *)
Theorem C24_accepted_partial : forall ovf i s r x u p old new, parse (new_parser ovf) i = Ok (s, r) -> plain_tables s.(p_root) -> all_taken s.(p_errors) ->
  s.(p_leftover) = [] -> apart s.(p_root) -> In x (keyed [] s.(p_root)) -> denotes (snd x).(kv_val).(c_val) u ->
  at_path u p = Some (VArray old) -> flat new -> ~ same_shape (VArray old) (VArray new) ->
  let key := line_name x ++ path_text p in
  exists s', set_value s key (VArray new) = Ok (s', true) /\ get_value s' key = Ok (Some (VArray new)) /\
    get_children s' key = Some (Count (N.of_nat (length new))) /\
    (forall j, get_value s' (key ++ lit "[" ++ dec j ++ lit "]") = Ok (nth_error new (N.to_nat j))) /\
    other_same key s s' /\
    (forall pre post t, key_at s key pre post -> show_parser s = Ok t ->
       (exists oldtext, t = pre ++ oldtext ++ post) /\
       show_parser s' = Ok (pre ++ lit "[" ++ comma_list (map spelling new) ++ lit "]" ++ post)).
Proof.
  intros ovf i s r x u p old new H PT AT LO AP I D A F NS key. pose proof (path_named _ _ _ _ _ _ H PT AT LO AP I D _ _ A) as NP.
  destruct (name_fresh _ _ _ _ _ H PT AT LO AP I _ NP) as [NE NR].
  apply (C24_resize_partial ovf s key (VArray old) new (N.of_nat (length old))); auto.
  - eapply R_parse; [apply R_new|exact H].
  - eapply name_value; eauto.
  - exact (KidsFacts.kids_values _ _ _ _ _ _ _ _ H PT AT LO AP I D A).
  - intros j L. unfold key. rewrite <- path_idx. eapply name_none; eauto; [apply KidsFacts.named_app; split; auto; constructor; [exact Logic.I|constructor]|].
    rewrite at_path_app, A. cbn [at_path]. rewrite (proj2 (nth_error_None old (N.to_nat j))) by lia. reflexivity.
Qed.
Print Assumptions C24_accepted_partial.

(** ** C25: any inline table in any key/value of the text, however deep, becomes the new one.
    Missing from C25: the keys that the new table does not have stay in the list of children
    (C25_table_children_refuted) *)
Theorem C25_accepted_partial : forall ovf i s r x u p old new, parse (new_parser ovf) i = Ok (s, r) -> plain_tables s.(p_root) -> all_taken s.(p_errors) ->
  s.(p_leftover) = [] -> apart s.(p_root) -> In x (keyed [] s.(p_root)) -> denotes (snd x).(kv_val).(c_val) u ->
  at_path u p = Some (VInlineTable old) -> flat2 new -> NoDup (map fst new) -> Forall name_text (map fst new) ->
  ~ same_shape (VInlineTable old) (VInlineTable new) ->
  let key := line_name x ++ path_text p in
  exists s' added, set_value s key (VInlineTable new) = Ok (s', true) /\ get_value s' key = Ok (Some (VInlineTable new)) /\
    get_children s' key = Some (Keys (map fst old ++ added)) /\
    (forall k, In k added <-> In k (map fst new) /\ ~ In k (map fst old)) /\
    (forall more, map fst new = map fst old ++ more -> added = more) /\
    (forall k y, In (k, y) new -> get_value s' (key ++ lit "." ++ k) = Ok (Some y)) /\
    (forall k, In k (map fst old) -> ~ In k (map fst new) -> get_value s' (key ++ lit "." ++ k) = Ok None) /\
    other_same key s s'.
Proof.
  intros ovf i s r x u p old new H PT AT LO AP I D A F ND NT NS key. pose proof (path_named _ _ _ _ _ _ H PT AT LO AP I D _ _ A) as NP.
  destruct (name_fresh _ _ _ _ _ H PT AT LO AP I _ NP) as [NE NR].
  apply (C25_table_children_partial ovf s key (VInlineTable old) new (map fst old)); auto.
  - eapply R_parse; [apply R_new|exact H].
  - eapply name_value; eauto.
  - exact (KidsFacts.kids_values _ _ _ _ _ _ _ _ H PT AT LO AP I D A).
  - intros k J NJ. unfold key. rewrite <- path_key. rewrite Forall_forall in NT. eapply name_none; eauto; [apply KidsFacts.named_app; split; auto; constructor; [exact (NT _ J)|constructor]|].
    rewrite at_path_app, A. cbn [at_path]. replace (first_value k old) with (@None value); [reflexivity|].
    clear - NJ. symmetry. induction old as [|[a b] old IH]; auto. cbn [first_value map fst In] in *.
    destruct (same_key k a) eqn:SK; [|tauto]. apply same_key_eq in SK. subst. tauto.
Qed.
Print Assumptions C25_accepted_partial.

(** an array and an inline table inside an inline table of a table with a dotted name, in a text
    with comments and blanks, the name quoted *)
Definition z_doc : str := lit "[t . u] # here" ++ [10] ++ lit "  ""b c"" = { x = [ 1,2 ] , y = {z = [[3]]} }".
Definition z_read : pst := match parse (new_parser true) z_doc with Ok (s, _) => s | _ => new_parser true end.
Definition z_in : value := VInlineTable [(lit "z", VArray [VArray [VInteger (lit "3")]])].
Definition z_val : value := VInlineTable [(lit "x", VArray [VInteger (lit "1"); VInteger (lit "2")]); (lit "y", z_in)].
Definition z_new : list value := [VBoolean true; VBoolean false; VBoolean true].
Definition z_tab : list (str * value) := [(lit "k", VInteger (lit "8")); (lit "z", VBoolean true)].
Example C24_accepted_ex : exists r x s1 s2,
  parse (new_parser true) z_doc = Ok (z_read, r) /\ plain_tables z_read.(p_root) /\ all_taken z_read.(p_errors) /\ z_read.(p_leftover) = [] /\ apart z_read.(p_root) /\
  In x (keyed [] z_read.(p_root)) /\ denotes (snd x).(kv_val).(c_val) z_val /\
  at_path z_val [PKey (lit "x")] = Some (VArray [VInteger (lit "1"); VInteger (lit "2")]) /\ flat z_new /\
  ~ same_shape (VArray [VInteger (lit "1"); VInteger (lit "2")]) (VArray z_new) /\
  line_name x ++ path_text [PKey (lit "x")] = lit "t.u.""b c"".x" /\
  set_value z_read (lit "t.u.""b c"".x") (VArray z_new) = Ok (s1, true) /\ get_value s1 (lit "t.u.""b c"".x[2]") = Ok (Some (VBoolean true)) /\
  show_parser s1 = Ok (lit "[t . u] # here" ++ [10] ++ lit "  ""b c"" = { x = [true, false, true] , y = {z = [[3]]} }") /\
  at_path z_val [PKey (lit "y")] = Some z_in /\ flat2 z_tab /\ NoDup (map fst z_tab) /\ Forall name_text (map fst z_tab) /\
  ~ same_shape z_in (VInlineTable z_tab) /\
  set_value z_read (lit "t.u.""b c"".y") (VInlineTable z_tab) = Ok (s2, true) /\
  get_children s2 (lit "t.u.""b c"".y") = Some (Keys [lit "z"; lit "k"]) /\ get_value s2 (lit "t.u.""b c"".y.k") = Ok (Some (VInteger (lit "8"))).
Proof.
  assert (HD : heads z_read.(p_root) = [[lit "t"; lit "u"]]) by (vm_compute; reflexivity).
  assert (LP : map line_path (keyed [] z_read.(p_root)) = [[lit "t"; lit "u"; lit """b c"""]]) by (vm_compute; reflexivity).
  exists Full, (match keyed [] z_read.(p_root) with [y] => y | _ => ([], KeyVal [] {| ws1 := []; ws2 := [] |} (Cell 0 TTable)) end).
  do 2 eexists.
  split; [vm_compute; reflexivity|]. split; [vm_compute; repeat constructor|]. split; [vm_compute; repeat constructor|]. split; [vm_compute; reflexivity|].
  split.
  { intros y I T. apply (in_map line_path) in I. rewrite LP in I. revert I T. generalize (line_path y). intros l I T. unfold table_of in T. rewrite HD in T.
    destruct I as [<-|[]]; (destruct T as [T|(a & b & [<-|[]] & T)]; vm_compute in T; discriminate T). }
  split; [vm_compute; auto|]. split; [vm_compute; repeat constructor|]. split; [vm_compute; reflexivity|].
  split; [intros y [<-|[<-|[<-|[]]]]; vm_compute; auto|].
  split; [apply other_length; discriminate|].
  split; [vm_compute; reflexivity|]. split; [vm_compute; reflexivity|]. split; [vm_compute; reflexivity|]. split; [vm_compute; reflexivity|]. split; [vm_compute; reflexivity|].
  split; [intros y [<-|[<-|[]]]; vm_compute; auto|].
  split; [repeat constructor; cbn; intros J; repeat (destruct J as [J|J]; [discriminate J|]); exact J|].
  split; [constructor; [bare|constructor; [bare|constructor]]|].
  split; [intros S; inversion S as [a b SA| |l l' S2]; subst; [destruct SA|inversion S2; subst; match goal with H : Forall2 _ _ [] |- _ => inversion H | H : Forall2 _ [] _ |- _ => inversion H end]|].
  split; [vm_compute; reflexivity|]. split; vm_compute; reflexivity.
Qed.

(** ** C28: get_value answers for every key that is neither the name of a table of the text nor
    the name of the root. Missing from C28: those names (C28_total_refuted) *)
Theorem C28_accepted_partial : forall ovf i s r k, parse (new_parser ovf) i = Ok (s, r) -> plain_tables s.(p_root) -> all_taken s.(p_errors) ->
  s.(p_leftover) = [] -> apart s.(p_root) ->
  k <> root_key -> (forall q, q <> [] -> table_of s.(p_root) q -> k <> dotted_name q) -> exists o, get_value s k = Ok o.
Proof. exact value_total. Qed.
Print Assumptions C28_accepted_partial.
(** the text above: a key that is there, keys that are not, the empty
    key; and the name of its table, which is excluded and does panic *)
Example C28_accepted_ex : exists r, parse (new_parser true) z_doc = Ok (z_read, r) /\ plain_tables z_read.(p_root) /\ all_taken z_read.(p_errors) /\ z_read.(p_leftover) = [] /\
  heads z_read.(p_root) = [[lit "t"; lit "u"]] /\
  (forall k, In k [lit "t.u.""b c"".y.z[0][0]"; lit "t.u.""b c"".y.z[0][1]"; lit "u"; lit "$%.["; []] ->
     k <> root_key /\ forall q, q <> [] -> table_of z_read.(p_root) q -> k <> dotted_name q) /\
  get_value z_read (lit "t.u.""b c"".y.z[0][0]") = Ok (Some (VInteger (lit "3"))) /\ get_value z_read (lit "$%.[") = Ok None /\
  get_value z_read (lit "t.u") = Panic /\ table_of z_read.(p_root) [lit "t"; lit "u"].
Proof.
  assert (HD : heads z_read.(p_root) = [[lit "t"; lit "u"]]) by (vm_compute; reflexivity).
  exists Full. split; [vm_compute; reflexivity|]. split; [vm_compute; repeat constructor|]. split; [vm_compute; repeat constructor|]. split; [vm_compute; reflexivity|].
  split; [exact HD|]. split.
  { intros k K. split; [repeat (destruct K as [<-|K]; [discriminate|]); destruct K|]. intros q NE T. unfold table_of in T. rewrite HD in T.
    destruct T as [T|(a & b & [<-|[]] & T)]; [congruence|]. destruct q as [|q1 [|q2 [|q3 q]]]; [congruence| | |discriminate T].
    - injection T as <- _. repeat (destruct K as [<-|K]; [discriminate|]). destruct K.
    - injection T as <- <- _. repeat (destruct K as [<-|K]; [discriminate|]). destruct K. }
  split; [vm_compute; reflexivity|]. split; [vm_compute; reflexivity|]. split; [vm_compute; reflexivity|].
  right. exists [lit "t"; lit "u"], []. rewrite HD. split; [left; reflexivity|reflexivity].
Qed.
