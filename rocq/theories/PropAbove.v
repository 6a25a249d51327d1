(** Property C97 (see /verif/properties.jsonl). *)
From Verif Require Import TotalFacts.
From Verif Require Import Str Regex Types Ast State Nom Keys Grammar Api Spec IdFacts ApiSpec SetFacts DocSpec DotSpec ReachSpec KidsSpec AboveSpec AboveFacts LinkFacts.
From Verif Require StaySpec.

(** ** C97: after an accepted update, the value at a name above the key is the old one, or the
    old one with the value of the key put in its place and nothing else changed *)
Theorem C97_above : forall ovf s key v s' k V w, reach ovf s -> set_value s key v = Ok (s', true) -> below k key ->
  get_value s k = Ok (Some V) -> get_value s' key = Ok (Some w) ->
  get_value s' k = Ok (Some V) \/
  exists x V', get_value s key = Ok (Some x) /\ put_name k V key x w V' /\ get_value s' k = Ok (Some V').
Proof. exact above_value. Qed.
Print Assumptions C97_above.

(** ** C97: after an accepted update, a value found below the key is the part of the value of
    the key that its name tells, or was found there before *)
Theorem C97_below : forall ovf s key old v s' k x w, reach ovf s -> get_value s key = Ok (Some old) -> set_value s key v = Ok (s', true) -> below key k ->
  get_value s' k = Ok (Some x) -> get_value s' key = Ok (Some w) ->
  at_name key w k x \/ get_value s k = Ok (Some x).
Proof. exact below_value. Qed.
Print Assumptions C97_below.

(** ** C97: in an accepted document (without arrays of tables) a value and its parts agree, and
    they do so after any updates, as long as none is made above the part *)
Theorem C97_agree : forall ovf i s0 r x u w0 z0 p q us s, parse (new_parser ovf) i = Ok (s0, r) -> plain_tables s0.(p_root) -> all_taken s0.(p_errors) ->
  s0.(p_leftover) = [] -> apart s0.(p_root) -> In x (keyed [] s0.(p_root)) -> denotes (snd x).(kv_val).(c_val) u -> at_path u p = Some w0 -> at_path u (p ++ q) = Some z0 ->
  let k := line_name x ++ path_text p in let key := line_name x ++ path_text (p ++ q) in
  StaySpec.updates s0 us s -> Forall (fun y => ~ below (fst y) key) us ->
  forall V, get_value s k = Ok (Some V) -> exists y, get_value s key = Ok (Some y) /\ at_name k V key y.
Proof. exact doc_agree. Qed.
Print Assumptions C97_agree.

(** ** C97: and there an accepted update of the part always shows in the value *)
Theorem C97_shows : forall ovf i s0 r x u w0 z0 p q us s, parse (new_parser ovf) i = Ok (s0, r) -> plain_tables s0.(p_root) -> all_taken s0.(p_errors) ->
  s0.(p_leftover) = [] -> apart s0.(p_root) -> In x (keyed [] s0.(p_root)) -> denotes (snd x).(kv_val).(c_val) u -> at_path u p = Some w0 -> at_path u (p ++ q) = Some z0 ->
  let k := line_name x ++ path_text p in let key := line_name x ++ path_text (p ++ q) in
  StaySpec.updates s0 us s -> Forall (fun y => ~ below (fst y) key) us ->
  forall V v s' w, get_value s k = Ok (Some V) -> set_value s key v = Ok (s', true) -> get_value s' key = Ok (Some w) ->
  exists y V', get_value s key = Ok (Some y) /\ put_name k V key y w V' /\ get_value s' k = Ok (Some V').
Proof. exact doc_shows. Qed.
Print Assumptions C97_shows.

Definition u_doc : str := lit "a = [[1, 2], [3, 4]]" ++ [10] ++ lit "[t]" ++ [10] ++ lit "b = {x = {y = [1], z = 2}}".
Definition u_new : value := VArray [VInteger (lit "7"); VInteger (lit "8"); VInteger (lit "9")].
Definition u_34 : value := VArray [VInteger (lit "3"); VInteger (lit "4")].
(** an array inside an array gets longer, and so does an array two inline tables deep *)
Example C97_ex : exists s s1 s2 V V' U U', parse (new_parser true) u_doc = Ok (s, Full) /\ reach true s /\
  set_value s (lit "a[0]") u_new = Ok (s1, true) /\ below (lit "a") (lit "a[0]") /\ get_value s (lit "a") = Ok (Some V) /\ get_value s1 (lit "a[0]") = Ok (Some u_new) /\
  put_name (lit "a") V (lit "a[0]") (VArray [VInteger (lit "1"); VInteger (lit "2")]) u_new V' /\ get_value s1 (lit "a") = Ok (Some V') /\ V' = VArray [u_new; u_34] /\
  below (lit "a[0]") (lit "a[0][2]") /\ get_value s1 (lit "a[0][2]") = Ok (Some (VInteger (lit "9"))) /\ at_name (lit "a[0]") u_new (lit "a[0][2]") (VInteger (lit "9")) /\
  get_value s (lit "a[0][2]") = Ok None /\
  set_value s1 (lit "t.b.x.y") u_new = Ok (s2, true) /\ below (lit "t.b") (lit "t.b.x.y") /\ get_value s1 (lit "t.b") = Ok (Some U) /\ get_value s2 (lit "t.b.x.y") = Ok (Some u_new) /\
  put_name (lit "t.b") U (lit "t.b.x.y") (VArray [VInteger (lit "1")]) u_new U' /\ get_value s2 (lit "t.b") = Ok (Some U') /\
  U' = VInlineTable [(lit "x", VInlineTable [(lit "y", u_new); (lit "z", VInteger (lit "2"))])].
Proof.
  do 7 eexists. split; [vm_compute; reflexivity|]. split; [apply (R_parse true (new_parser true) u_doc _ Full); [apply R_new|vm_compute; reflexivity]|].
  split; [vm_compute; reflexivity|]. split; [exists 91, (lit "0]"); auto|]. split; [vm_compute; reflexivity|]. split; [vm_compute; reflexivity|].
  split; [apply (Put_elem (lit "a") [] _ [u_34]); apply Put_here|]. split; [vm_compute; reflexivity|]. split; [reflexivity|].
  split; [exists 91, (lit "2]"); auto|]. split; [vm_compute; reflexivity|].
  split; [apply (At_elem (lit "a[0]") [VInteger (lit "7"); VInteger (lit "8")] _ []); apply At_here|]. split; [vm_compute; reflexivity|].
  split; [vm_compute; reflexivity|]. split; [exists 46, (lit "x.y"); auto|]. split; [vm_compute; reflexivity|]. split; [vm_compute; reflexivity|].
  split; [apply (Put_entry (lit "t.b") [] (lit "x") _ []); apply (Put_entry (lit "t.b.x") [] (lit "y") _ [(lit "z", VInteger (lit "2"))]); apply Put_here|].
  split; [vm_compute; reflexivity|]. reflexivity.
Qed.

(** the case that nothing changes above: with [a] given twice, [a] is the first array and [a[1]]
    is in the second one *)
Definition u_twice : str := lit "a = [1]" ++ [10] ++ lit "a = [2, 3]".
Example C97_twice_ex : exists s s1 errs, parse (new_parser true) u_twice = Ok (s, FullError errs) /\ reach true s /\
  set_value s (lit "a[1]") (VInteger (lit "9")) = Ok (s1, true) /\ get_value s (lit "a[1]") = Ok (Some (VInteger (lit "3"))) /\
  get_value s1 (lit "a[1]") = Ok (Some (VInteger (lit "9"))) /\
  get_value s (lit "a") = Ok (Some (VArray [VInteger (lit "1")])) /\ get_value s1 (lit "a") = Ok (Some (VArray [VInteger (lit "1")])).
Proof.
  do 3 eexists. split; [vm_compute; reflexivity|]. split; [eapply (R_parse true (new_parser true) u_twice); [apply R_new|vm_compute; reflexivity]|].
  split; [vm_compute; reflexivity|]. split; [vm_compute; reflexivity|]. split; [vm_compute; reflexivity|]. split; vm_compute; reflexivity.
Qed.

(** the hypotheses of C97_agree and C97_shows: the same document, the entry t.b and in it x.y,
    after an update of a[0] *)
Definition u_read : pst := match parse (new_parser true) u_doc with Ok (s, _) => s | _ => new_parser true end.
Example C97_shows_ex : exists r x u w0 z0 s, let p := [PKey (lit "x")] in let q := [PKey (lit "y")] in
  parse (new_parser true) u_doc = Ok (u_read, r) /\ plain_tables u_read.(p_root) /\ all_taken u_read.(p_errors) /\ u_read.(p_leftover) = [] /\ apart u_read.(p_root) /\
  In x (keyed [] u_read.(p_root)) /\ denotes (snd x).(kv_val).(c_val) u /\ at_path u p = Some w0 /\ at_path u (p ++ q) = Some z0 /\
  line_name x ++ path_text p = lit "t.b.x" /\ line_name x ++ path_text (p ++ q) = lit "t.b.x.y" /\
  StaySpec.updates u_read [(lit "a[0]", u_new)] s /\ Forall (fun y : str * value => ~ below (fst y) (lit "t.b.x.y")) [(lit "a[0]", u_new)] /\
  exists s', set_value s (lit "t.b.x.y") u_new = Ok (s', true) /\ get_value s' (lit "t.b.x.y") = Ok (Some u_new) /\
    get_value s (lit "t.b.x") = Ok (Some (VInlineTable [(lit "y", VArray [VInteger (lit "1")]); (lit "z", VInteger (lit "2"))])) /\
    get_value s' (lit "t.b.x") = Ok (Some (VInlineTable [(lit "y", u_new); (lit "z", VInteger (lit "2"))])).
Proof.
  assert (HD : heads u_read.(p_root) = [[lit "t"]]) by (vm_compute; reflexivity).
  assert (LP : map line_path (keyed [] u_read.(p_root)) = [[lit "a"]; [lit "t"; lit "b"]]) by (vm_compute; reflexivity).
  exists Full, (match keyed [] u_read.(p_root) with [_; y] => y | _ => ([], KeyVal [] {| ws1 := []; ws2 := [] |} (Cell 0 TTable)) end),
    (VInlineTable [(lit "x", VInlineTable [(lit "y", VArray [VInteger (lit "1")]); (lit "z", VInteger (lit "2"))])]),
    (VInlineTable [(lit "y", VArray [VInteger (lit "1")]); (lit "z", VInteger (lit "2"))]), (VArray [VInteger (lit "1")]).
  eexists. cbv zeta.
  split; [vm_compute; reflexivity|]. split; [vm_compute; repeat constructor|]. split; [vm_compute; repeat constructor|]. split; [vm_compute; reflexivity|].
  split.
  { intros y I T. apply (in_map line_path) in I. rewrite LP in I. revert I T. generalize (line_path y). intros l I T. unfold table_of in T. rewrite HD in T.
    destruct I as [<-|[<-|[]]]; (destruct T as [T|(a & b & [<-|[]] & T)]; vm_compute in T; discriminate T). }
  split; [vm_compute; auto|]. split; [vm_compute; repeat constructor|]. split; [vm_compute; reflexivity|]. split; [vm_compute; reflexivity|].
  split; [vm_compute; reflexivity|]. split; [vm_compute; reflexivity|].
  split; [eapply (StaySpec.Up_one _ _ _ _ true); [vm_compute; reflexivity|apply StaySpec.Up_none]|].
  split; [constructor; [|constructor]; intros (c & r & E & _); discriminate E|].
  eexists. split; [vm_compute; reflexivity|]. split; [vm_compute; reflexivity|]. split; vm_compute; reflexivity.
Qed.
