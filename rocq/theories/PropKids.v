(** * The children of the names of a document: theorems *)
From Verif Require Import Str Types Ast State Keys Api DocSpec DotSpec ReachSpec KidsSpec ReachFacts ExactFacts KidsFacts.

(** ** C94: for every text whose tables are all standard tables, that is read to its end,
    of which neither a key nor a table was refused, and in which no key/value has the
    name of a table. The children of a value, and of all that is inside it, are its
    own: the length of an array, the keys of an inline table in their order *)
Theorem C94_values : forall ovf i s r x u p w, parse (new_parser ovf) i = Ok (s, r) -> plain_tables s.(p_root) -> all_taken s.(p_errors) ->
  s.(p_leftover) = [] -> apart s.(p_root) ->
  In x (keyed [] s.(p_root)) -> denotes (snd x).(kv_val).(c_val) u -> at_path u p = Some w ->
  get_children s (line_name x ++ path_text p) = Some (kids_of w).
Proof. exact kids_values. Qed.
Print Assumptions C94_values.

(** the children of a table, written or implied, and of the root are its tables and its
    key/values, each once *)
Theorem C94_tables : forall ovf i s r q, parse (new_parser ovf) i = Ok (s, r) -> plain_tables s.(p_root) -> all_taken s.(p_errors) ->
  s.(p_leftover) = [] -> apart s.(p_root) -> table_of s.(p_root) q ->
  exists l, get_children s (dotted_name q) = Some (Keys l) /\ NoDup l /\
    forall n, In n l <-> table_of s.(p_root) (q ++ [n]) \/ exists x, In x (keyed [] s.(p_root)) /\ line_path x = q ++ [n].
Proof. exact kids_tables. Qed.
Print Assumptions C94_tables.

(** and no other name has children, but the name of the root itself *)
Theorem C94_only : forall ovf i s r k, parse (new_parser ovf) i = Ok (s, r) -> plain_tables s.(p_root) -> all_taken s.(p_errors) ->
  s.(p_leftover) = [] -> apart s.(p_root) ->
  k <> root_key -> (forall q, table_of s.(p_root) q -> k <> dotted_name q) ->
  (forall x u p w, In x (keyed [] s.(p_root)) -> denotes (snd x).(kv_val).(c_val) u -> at_path u p = Some w -> k <> line_name x ++ path_text p) ->
  get_children s k = None.
Proof. exact kids_only. Qed.
Print Assumptions C94_only.

(** ** Without [apart] this fails: the text is accepted without an error, the array has
    one element, but its children are those of the implied table *)
Definition kids_clash : str := lit "[a.b.c]
[a]
b = [ 1 ]
".
Theorem C94_apart_refuted : exists s x u, parse (new_parser true) kids_clash = Ok (s, Full) /\ plain_tables s.(p_root) /\ all_taken s.(p_errors) /\
  s.(p_leftover) = [] /\ In x (keyed [] s.(p_root)) /\ denotes (snd x).(kv_val).(c_val) u /\
  kids_of u = Count 1 /\ get_children s (line_name x) = Some (Keys [lit "c"]).
Proof.
  destruct (parse (new_parser true) kids_clash) as [[s r]| |] eqn:E; [|exfalso; vm_compute in E; discriminate..].
  vm_compute in E. injection E as <- <-. eexists _, _, (VArray [VInteger (lit "1")]). split; [reflexivity|]. split; [repeat constructor|].
  split; [repeat constructor|]. split; [reflexivity|]. split; [left; reflexivity|]. split; [apply val_denotes; reflexivity|]. split; reflexivity.
Qed.
Print Assumptions C94_apart_refuted.

(** implied tables, a table after its own sub-table, quoted keys, nested values *)
Definition kids_text : str := lit "t = 'x' # first
[a.b.c]
d = { e = [ 1, 2 ], f = {} }
[a]
""n m"" = [ [ 1 ], [] ]
[g]
".
Definition kids_read : pst := match parse (new_parser true) kids_text with Ok (s, _) => s | _ => new_parser true end.
Example C94_ex : (exists r, parse (new_parser true) kids_text = Ok (kids_read, r)) /\ plain_tables kids_read.(p_root) /\ all_taken kids_read.(p_errors) /\
  kids_read.(p_leftover) = [] /\ apart kids_read.(p_root) /\
  heads kids_read.(p_root) = [[lit "a"; lit "b"; lit "c"]; [lit "a"]; [lit "g"]] /\
  map line_name (keyed [] kids_read.(p_root)) = [lit "t"; lit "a.b.c.d"; lit "a.""n m"""] /\
  table_of kids_read.(p_root) [lit "a"; lit "b"] /\
  get_children kids_read [] = Some (Keys [lit "t"; lit "a"; lit "g"]) /\
  get_children kids_read (lit "a") = Some (Keys [lit "b"; lit """n m"""]) /\
  get_children kids_read (lit "a.b") = Some (Keys [lit "c"]) /\
  get_children kids_read (lit "g") = Some (Keys []) /\
  get_children kids_read (lit "a.b.c.d") = Some (Keys [lit "e"; lit "f"]) /\
  get_children kids_read (lit "a.b.c.d.e") = Some (Count 2) /\
  get_children kids_read (lit "a.""n m""[0]") = Some (Count 1) /\
  get_children kids_read (lit "a.b.c.d.e[2]") = None.
Proof.
  assert (HD : heads kids_read.(p_root) = [[lit "a"; lit "b"; lit "c"]; [lit "a"]; [lit "g"]]) by (vm_compute; reflexivity).
  assert (LP : map line_path (keyed [] kids_read.(p_root)) = [[lit "t"]; [lit "a"; lit "b"; lit "c"; lit "d"]; [lit "a"; lit """n m"""]]) by (vm_compute; reflexivity).
  split; [eexists; vm_compute; reflexivity|]. split; [vm_compute; repeat constructor|]. split; [vm_compute; repeat constructor|]. split; [vm_compute; reflexivity|].
  split; [|split; [exact HD|]].
  - intros x I T. apply (in_map line_path) in I. rewrite LP in I. revert I T. generalize (line_path x). intros p I T. unfold table_of in T. rewrite HD in T.
    destruct I as [<-|[<-|[<-|[]]]]; (destruct T as [T|(a & b & [<-|[<-|[<-|[]]]] & T)]; vm_compute in T; discriminate T).
  - split; [vm_compute; reflexivity|]. split; [right; unfold table_of; exists [lit "a"; lit "b"; lit "c"], [lit "c"]; rewrite HD; split; [left; reflexivity|reflexivity]|].
    repeat split; vm_compute; reflexivity.
Qed.
