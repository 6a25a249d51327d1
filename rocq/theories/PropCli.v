(** Properties of the command line tool tomlkit. *)
From Coq Require Import Lia ZifyBool ZifyNat ZifyN.
From Verif Require Import Str Regex Types Ast State Nom Keys Grammar Api Cli Facts Spec ApiSpec CliSpec.
From Verif Require Import TypesFacts DateFacts ParseFacts IdFacts WriteFacts SetFacts ApiFacts UpdateFacts StringFacts ScalarFacts FlatFacts.
From Verif Require Import PropParse DocSpec LookFacts PropNest CliFacts.

(** For the examples: fields separated by single commas; the other parts of the
    surroundings do not matter. *)
Fixpoint commas (s : str) : list str :=
  match s with
  | [] => [[]]
  | c :: s' => if c =? 44 then [] :: commas s' else match commas s' with [] => [[c]] | f :: r => (c :: f) :: r end
  end.
Definition demo : ext := {| x_split := fun s => Some (commas s); x_debug := fun s => s; x_errors := fun _ => []; x_ovf := true |}.
Definition no_flags : flags :=
  {| g_true := None; g_false := None; g_sep := None; g_start := None; g_end := None; g_arr_sep := None;
     g_len := false; g_strip := false; g_quiet := false; g_print := false |}.
Definition demo_path : str := lit "a.toml".
Definition sect_text : str := lines_text sect_lines.

(** ** C51: get-value *)
Theorem C51_get_value : forall x g csv keys vs path text s, parse (new_parser x.(x_ovf)) text = Ok (s, Full) ->
  g.(g_print) = false -> x.(x_split) csv = Some keys -> keys <> [] ->
  Forall2 (fun k v => get_value s k = Ok (Some v)) keys vs -> Forall printable vs ->
  exists ts, Forall2 (printed g.(g_strip)) vs ts /\
    process_document x (new_options g) (get_values csv) path text = Finished (separated (separator g) ts ++ [10]) None.
Proof.
  intros x g csv keys vs path text s P NP X NE F PR. destruct (get_loop_ok (separator g) g.(g_strip) s keys vs [] F PR) as (ts & A & B).
  exists ts. split; auto. apply (run_only_get x g csv path text s P NP (Good (separated (separator g) ts))).
  unfold cli_get_value. rewrite X. destruct keys; [congruence|]. exact B.
Qed.
Print Assumptions C51_get_value.
Example C51_get_value_ex : exists s vs, parse (new_parser true) sect_text = Ok (s, Full) /\
  commas (lit "owner.name,srv[1].ip,owner.pos.y,ports") = [lit "owner.name"; lit "srv[1].ip"; lit "owner.pos.y"; lit "ports"] /\
  Forall2 (fun k v => get_value s k = Ok (Some v)) (commas (lit "owner.name,srv[1].ip,owner.pos.y,ports")) vs /\ Forall printable vs /\
  process_document demo (new_options no_flags) (get_values (lit "owner.name,srv[1].ip,owner.pos.y,ports")) demo_path sect_text =
    Finished ([34] ++ lit "tom" ++ [34] ++ lit ", 2, [true], [80, 443]" ++ [10]) None.
Proof.
  do 2 eexists. split; [vm_compute; reflexivity|]. split; [vm_compute; reflexivity|]. split; [|split].
  - change (commas (lit "owner.name,srv[1].ip,owner.pos.y,ports")) with [lit "owner.name"; lit "srv[1].ip"; lit "owner.pos.y"; lit "ports"].
    repeat (constructor; [vm_compute; reflexivity|]). constructor.
  - repeat constructor; discriminate.
  - vm_compute. reflexivity.
Qed.

(** a key without a value: nothing else is printed, and no later command runs *)
Theorem C51_missing : forall x g m csv pre k post vs path text s, parse (new_parser x.(x_ovf)) text = Ok (s, Full) ->
  g.(g_print) = false -> m.(m_get) = Some csv -> x.(x_split) csv = Some (pre ++ k :: post) ->
  Forall2 (fun k v => get_value s k = Ok (Some v)) pre vs -> Forall printable vs -> get_value s k = Ok None ->
  process_document x (new_options g) m path text = Finished (complaint path (lit "Key " ++ quoted k ++ lit " not found.")) None.
Proof.
  intros x g m csv pre k post vs path text s P NP M X F PR H. eapply run_get_bad; eauto.
  unfold cli_get_value. rewrite X. destruct (pre ++ k :: post) eqn:E; [destruct pre; discriminate|]. rewrite <- E.
  rewrite (get_loop_missing _ _ _ _ _ _ _ _ F PR H). unfold quoted. rewrite <- !app_assoc. reflexivity.
Qed.
Print Assumptions C51_missing.
Example C51_missing_ex : let m := {| m_get := Some (lit "srv[0].ip,zzz,ports"); m_has := None; m_children := None; m_any := None;
    m_set := Some (lit "srv[0].ip,7,int"); m_out := None |} in
  exists s, parse (new_parser true) sect_text = Ok (s, Full) /\ get_value s (lit "srv[0].ip") = Ok (Some (VInteger (lit "1"))) /\
    get_value s (lit "zzz") = Ok None /\
    process_document demo (new_options no_flags) m demo_path sect_text =
      Finished (lit "Error " ++ [34] ++ lit "a.toml" ++ [34] ++ lit ": Key " ++ [34] ++ lit "zzz" ++ [34] ++ lit " not found." ++ [10]) None.
Proof. eexists. split; [vm_compute; reflexivity|]. repeat (split; [vm_compute; reflexivity|]). vm_compute. reflexivity. Qed.

(** whole documents: the values printed are the ones written in the text *)
Theorem C51_documents : forall x g csv keys vs path ls, lines_ok ls -> distinct (body ls) -> plain_headers (body ls) ->
  g.(g_print) = false -> x.(x_split) csv = Some keys -> keys <> [] ->
  Forall2 (fun key v => exists t k w p, In (t, k, w) (pairs (body ls)) /\ good_path p /\ key = address t k ++ path_text p /\
                                        at_path w p = Some v) keys vs ->
  Forall printable vs ->
  exists ts, Forall2 (printed g.(g_strip)) vs ts /\
    process_document x (new_options g) (get_values csv) path (lines_text ls) = Finished (separated (separator g) ts ++ [10]) None.
Proof.
  intros x g csv keys vs path ls OK DS PH NP X NE F PR. destruct (lines_parse x.(x_ovf) ls OK DS PH) as (s & P & RA).
  apply (C51_get_value x g csv keys vs path (lines_text ls) s); auto.
  clear - F OK DS RA. induction F as [|key v keys vs H F IH]; constructor; auto. destruct H as (t & k & w & p & I & G & -> & A).
  destruct (look_value ls s OK DS RA t k w p I G) as [E _]. rewrite E, A. reflexivity.
Qed.
Print Assumptions C51_documents.
Example C51_documents_ex : lines_ok sect_lines /\ distinct (body sect_lines) /\ plain_headers (body sect_lines) /\
  exists t k w p, In (t, k, w) (pairs (body sect_lines)) /\ good_path p /\ lit "owner.pos.y[0]" = address t k ++ path_text p /\
    at_path w p = Some (VBoolean true).
Proof.
  split; [apply sect_ok|]. split; [apply sect_distinct|]. split; [apply sect_plain|].
  exists (TName (lit "owner")), (lit "pos"). eexists. exists [PKey (lit "y"); PIdx 0]. split; [right; right; left; reflexivity|].
  split; [|split; reflexivity]. constructor; [bare|]. constructor; [exact I|constructor].
Qed.

(** ** C52: has-value and has-children, together or alone *)
Theorem C52_answers : forall x g c1 c2 ks1 ks2 bs1 bs2 tl fl path text s, parse (new_parser x.(x_ovf)) text = Ok (s, Full) ->
  g.(g_print) = false -> asked x c1 ks1 -> asked x c2 ks2 -> ks1 ++ ks2 <> [] ->
  labels x g.(g_true) (lit "true") = Some tl -> labels x g.(g_false) (lit "false") = Some fl ->
  Forall2 (has_a_value s) ks1 bs1 -> Forall2 (has_kids s) ks2 bs2 ->
  let n := (length ks1 + length ks2)%nat in
  let run := process_document x (new_options g) (ask c1 c2) path text in
  (enough tl n -> enough fl n -> exists ts, labelled tl fl 0 (bs1 ++ bs2) ts /\ run = Finished (separated (separator g) ts ++ [10]) None) /\
  (~ (enough tl n /\ enough fl n) -> run = Crash None).
Proof. exact run_ask. Qed.
Print Assumptions C52_answers.
Definition yes_no : flags :=
  {| g_true := Some (lit "y1,y2,y3,y4"); g_false := Some (lit "no"); g_sep := Some (lit "/"); g_start := None; g_end := None;
     g_arr_sep := None; g_len := false; g_strip := false; g_quiet := false; g_print := false |}.
Example C52_answers_ex : exists s, parse (new_parser true) sect_text = Ok (s, Full) /\
  Forall2 (has_a_value s) [lit "ports"; lit "zzz"] [true; false] /\ Forall2 (has_kids s) [lit "ports[0]"; lit "srv"] [false; true] /\
  labels demo yes_no.(g_true) (lit "true") = Some [lit "y1"; lit "y2"; lit "y3"; lit "y4"] /\
  labels demo yes_no.(g_false) (lit "false") = Some [lit "no"] /\
  labelled [lit "y1"; lit "y2"; lit "y3"; lit "y4"] [lit "no"] 0 [true; false; false; true] [lit "y1"; lit "no"; lit "no"; lit "y4"] /\
  process_document demo (new_options yes_no) (ask (Some (lit "ports,zzz")) (Some (lit "ports[0],srv"))) demo_path sect_text =
    Finished (lit "y1/no/no/y4" ++ [10]) None /\
  process_document demo (new_options yes_no) (ask (Some (lit "ports,zzz,a")) (Some (lit "ports[0],srv"))) demo_path sect_text = Crash None.
Proof.
  eexists. split; [vm_compute; reflexivity|].
  split; [constructor; [eexists; vm_compute; reflexivity|constructor; [vm_compute; reflexivity|constructor]]|].
  split; [constructor; [right; left; vm_compute; reflexivity|constructor; [eexists; split; [vm_compute; reflexivity|split; discriminate]|constructor]]|].
  split; [vm_compute; reflexivity|]. split; [vm_compute; reflexivity|]. 
  split; [apply (La_cons _ _ 0 true _ (lit "y1") (lit "no")); [reflexivity|reflexivity|];
    apply (La_cons _ _ 1 false _ (lit "y2") (lit "no")); [reflexivity|reflexivity|];
    apply (La_cons _ _ 2 false _ (lit "y3") (lit "no")); [reflexivity|reflexivity|];
    apply (La_cons _ _ 3 true _ (lit "y4") (lit "no")); [reflexivity|reflexivity|apply La_nil]|].
  split; vm_compute; reflexivity.
Qed.

(** ** C53: get-children *)
Theorem C53_children : forall x g csv keys cs ts path text s, parse (new_parser x.(x_ovf)) text = Ok (s, Full) ->
  g.(g_print) = false -> x.(x_split) csv = Some keys -> keys <> [] ->
  Forall2 (fun k c => get_children s k = Some c) keys cs -> Forall2 (listed g) cs ts ->
  process_document x (new_options g) (get_childs csv) path text = Finished (separated (separator g) ts ++ [10]) None.
Proof.
  intros x g csv keys cs ts path text s P NP X NE F L. rewrite (run_only_children x g csv path text s P NP).
  unfold cli_get_children. rewrite X. destruct keys; [congruence|]. rewrite (children_loop_ok g (separator g) s _ cs ts [] F L). reflexivity.
Qed.
Print Assumptions C53_children.
Example C53_children_ex : exists s, parse (new_parser true) sect_text = Ok (s, Full) /\
  Forall2 (fun k c => get_children s k = Some c) [lit "owner"; lit "srv"; lit "ports"] [Keys [lit "name"; lit "pos"]; Count 2; Count 2] /\
  Forall2 (listed no_flags) [Keys [lit "name"; lit "pos"]; Count 2; Count 2] [lit "[name, pos]"; lit "2"; lit "2"].
Proof.
  eexists. split; [vm_compute; reflexivity|]. split.
  - repeat (constructor; [vm_compute; reflexivity|]). constructor.
  - constructor; [apply (Li_keys no_flags [lit "name"; lit "pos"]); reflexivity|].
    constructor; [apply (Li_count no_flags 2); discriminate|]. constructor; [apply (Li_count no_flags 2); discriminate|]. constructor.
Qed.

Theorem C53_missing : forall x g csv pre k post cs ts path text s, parse (new_parser x.(x_ovf)) text = Ok (s, Full) ->
  g.(g_print) = false -> x.(x_split) csv = Some (pre ++ k :: post) ->
  Forall2 (fun k c => get_children s k = Some c) pre cs -> Forall2 (listed g) cs ts ->
  (get_children s k = None -> process_document x (new_options g) (get_childs csv) path text =
     Finished (complaint path (lit "Key " ++ quoted k ++ lit " not found.")) None) /\
  (get_children s k = Some (Count 0) -> process_document x (new_options g) (get_childs csv) path text =
     Finished (complaint path (lit "Key " ++ quoted k ++ lit " has no children.")) None).
Proof.
  intros x g csv pre k post cs ts path text s P NP X F L. rewrite (run_only_children x g csv path text s P NP).
  unfold cli_get_children. rewrite X. destruct (pre ++ k :: post) eqn:E; [destruct pre; discriminate|]. rewrite <- E.
  split; intros H.
  - rewrite (children_loop_none g _ s _ _ _ cs ts [] F L H). unfold quoted. rewrite <- !app_assoc. reflexivity.
  - rewrite (children_loop_zero g _ s _ _ _ cs ts [] F L H). unfold quoted. rewrite <- !app_assoc. reflexivity.
Qed.
Print Assumptions C53_missing.
Example C53_missing_ex : exists s, parse (new_parser true) sect_text = Ok (s, Full) /\
  get_children s (lit "srv") = Some (Count 2) /\ get_children s (lit "nope") = None /\ get_children s (lit "owner.name") = Some (Count 0) /\
  process_document demo (new_options no_flags) (get_childs (lit "srv,owner.name")) demo_path sect_text =
    Finished (complaint demo_path (lit "Key " ++ quoted (lit "owner.name") ++ lit " has no children.")) None.
Proof. eexists. split; [vm_compute; reflexivity|]. repeat (split; [vm_compute; reflexivity|]). vm_compute. reflexivity. Qed.

(** ** C54: files *)
(** whatever the commands and options: only a set-value whose triples are all
    accepted writes, to the right file, and then the updated document; the only
    other content is none, if the document cannot be printed *)
Theorem C54_writes : forall x o m path text p c, wrote (process_document x o m path text) = Some (p, c) ->
  exists a l n s s', m.(m_set) = Some a /\ x.(x_split) a = Some l /\ length l = (3 * S n)%nat /\
    p = or_else m.(m_out) path /\ parse (new_parser x.(x_ovf)) text = Ok (s, Full) /\ updates s l s' /\
    (show_parser s' = Ok c \/ show_parser s' = Panic /\ c = []).
Proof. exact run_writes. Qed.
Print Assumptions C54_writes.
Definition two_updates : commands := set_values (lit "srv[1].ip,7,int,owner.name,it's,bs") (Some (lit "b.toml")).
Definition two_result : str :=
  lit "# settings" ++ [10] ++ lit "ports = [80, 443 ]" ++ [10] ++ lit "[owner]" ++ [10] ++ lit "  name = " ++ [34] ++ lit "it's" ++ [34] ++
  lit " #x" ++ [13; 10] ++ lit "pos = {x=1, y=[true]}" ++ [10] ++ lit "[[srv]]" ++ [10] ++ lit "ip=1" ++ [10] ++ lit "[[ srv]]" ++ [10] ++
  lit "ip=7" ++ [10] ++ lit """up time""=true" ++ [10] ++ lit "[[db]]" ++ [10] ++ lit "ip=3" ++ [10].
Example C54_writes_ex : process_document demo (new_options no_flags) two_updates demo_path sect_text =
  Finished (lit "Success, Success" ++ [10]) (Some (lit "b.toml", two_result)).
Proof. vm_compute. reflexivity. Qed.

(** a document with errors is refused *)
Theorem C54_refused : forall x o m path text s r, parse (new_parser x.(x_ovf)) text = Ok (s, r) -> r <> Full ->
  exists msg, process_document x o m path text = Exit (lit "Error " ++ quoted path ++ lit ": " ++ msg ++ [10]).
Proof.
  intros x o m path text s r P NF. unfold process_document. rewrite P. cbn [orun].
  assert (L : forall t, Exit (line_of (lit "Error " ++ dq ++ path ++ dq ++ lit ": " ++ t)) = Exit (lit "Error " ++ quoted path ++ lit ": " ++ t ++ [10])).
  { intros t. unfold line_of, dq, quoted. rewrite <- !app_assoc. reflexivity. }
  destruct r; cbn [refusal]; try congruence; eexists; apply L.
Qed.
Print Assumptions C54_refused.
Example C54_refused_ex : exists s l n, parse (new_parser true) (lit "a = 1 b") = Ok (s, Partial l n) /\
  wrote (process_document demo (new_options no_flags) (set_values (lit "a,2,int") None) demo_path (lit "a = 1 b")) = None.
Proof. do 3 eexists. split; vm_compute; reflexivity. Qed.

(** all triples are accepted *)
Theorem C54_success : forall x g kvs out path text s l s' t, parse (new_parser x.(x_ovf)) text = Ok (s, Full) ->
  g.(g_print) = false -> x.(x_split) kvs = Some l -> l <> [] -> updates s l s' -> show_parser s = Ok t ->
  exists n c, length l = (3 * n)%nat /\ show_parser s' = Ok c /\
    process_document x (new_options g) (set_values kvs out) path text =
    Finished (separated (separator g) (repeat (lit "Success") n) ++ [10]) (Some (or_else out path, c)).
Proof.
  intros x g kvs out path text s l s' t P NP X NE U SH.
  destruct (cli_set_ok x kvs (separator g) s l s' X NE U) as (n & L & E).
  destruct (updates_show x.(x_ovf) s l s' t) as (c & C); [eapply R_parse; [apply R_new|exact P]|exact U|exact SH|].
  exists n, c. split; auto. split; auto. rewrite (run_only_set x g kvs out path text s s' _ P NP E), C. reflexivity.
Qed.
Print Assumptions C54_success.
Example C54_success_ex : exists s s' t v, parse (new_parser true) sect_text = Ok (s, Full) /\
  updates s [lit "srv[1].ip"; lit "7"; lit "int"; lit "owner.name"; lit "it's"; lit "bs"] s' /\ show_parser s = Ok t /\
  typed (lit "bs") (lit "it's") v.
Proof.
  do 4 eexists. split; [vm_compute; reflexivity|]. split; [|split].
  - eapply Up_cons; [exists TyInt; split; [right; left; reflexivity|vm_compute; reflexivity]|vm_compute; reflexivity|].
    eapply Up_cons; [exists TyBasic; split; [right; left; reflexivity|vm_compute; reflexivity]|vm_compute; reflexivity|]. apply Up_nil.
  - vm_compute; reflexivity.
  - exists TyBasic; split; [right; left; reflexivity|vm_compute; reflexivity].
Qed.

(** one triple is not, or there are not three fields for each: a message, no file *)
Theorem C54_rejected : forall x g kvs out path text s pre s1 k val typ post msg n, parse (new_parser x.(x_ovf)) text = Ok (s, Full) ->
  g.(g_print) = false -> x.(x_split) kvs = Some (pre ++ k :: val :: typ :: post) ->
  length (pre ++ k :: val :: typ :: post) = (3 * n)%nat -> updates s pre s1 -> rejects s1 k val typ msg ->
  process_document x (new_options g) (set_values kvs out) path text = Finished (complaint path msg) None.
Proof.
  intros x g kvs out path text s pre s1 k val typ post msg n P NP X L U R.
  destruct (cli_set_reject x kvs (separator g) s pre s1 k val typ post msg n X L U R) as (s2 & E).
  rewrite (run_only_set x g kvs out path text s s2 _ P NP E). reflexivity.
Qed.
Print Assumptions C54_rejected.
Example C54_rejected_ex :
  process_document demo (new_options no_flags) (set_values (lit "srv[1].ip,7,int,owner.name,maybe,bool") None) demo_path sect_text =
    Finished (complaint demo_path (lit "Unable to parse value: " ++ quoted (lit "maybe") ++ lit " as type: " ++ quoted (lit "bool") ++
      lit " for key: " ++ quoted (lit "owner.name"))) None /\
  (forall s, rejects s (lit "owner.name") (lit "maybe") (lit "bool")
    (lit "Unable to parse value: " ++ quoted (lit "maybe") ++ lit " as type: " ++ quoted (lit "bool") ++
      lit " for key: " ++ quoted (lit "owner.name"))).
Proof.
  split; [vm_compute; reflexivity|]. intros s. apply (Re_value s _ _ _ TyBool); [right; left; reflexivity|].
  intros v H. vm_compute in H. discriminate.
Qed.

Theorem C54_count : forall x g kvs out path text s l, parse (new_parser x.(x_ovf)) text = Ok (s, Full) ->
  g.(g_print) = false -> x.(x_split) kvs = Some l -> (forall n, length l <> (3 * S n)%nat) ->
  process_document x (new_options g) (set_values kvs out) path text =
  Finished (complaint path (lit "No keys or wrong number of keys specified (must be a multiple of 3): " ++ quoted kvs ++ lit ".")) None.
Proof.
  intros x g kvs out path text s l P NP X L.
  rewrite (run_only_set x g kvs out path text s s (Bad (lit "No keys or wrong number of keys specified (must be a multiple of 3): " ++ quoted kvs ++ lit ".")) P NP); auto.
  unfold cli_set_value. rewrite X.
  assert (C : negb (nlen l mod 3 =? 0) || (nlen l =? 0) = true).
  { destruct (negb (nlen l mod 3 =? 0) || (nlen l =? 0)) eqn:C; auto. exfalso.
    apply orb_false_iff in C as [C1 C2]. apply negb_false_iff, N.eqb_eq in C1. apply N.eqb_neq in C2. unfold nlen in *.
    pose proof (N.div_mod (N.of_nat (length l)) 3) as D. rewrite C1 in D.
    apply (L (N.to_nat (N.of_nat (length l) / 3) - 1)%nat). lia. }
  rewrite C. unfold quoted, dq. rewrite <- !app_assoc. reflexivity.
Qed.
Print Assumptions C54_count.
Example C54_count_ex : length (commas (lit "owner.name,it's")) = 2%nat /\ forall n, 2%nat <> (3 * S n)%nat.
Proof. split; [reflexivity|]. intros n. lia. Qed.

(** what the code does not keep: a document that cannot be printed is destroyed *)
Theorem C54_kept_refuted : exists s, parse (new_parser true) (lit "a = {}" ++ [10] ++ lit "b = 1") = Ok (s, Full) /\
  process_document demo (new_options no_flags) (set_values (lit "b,2,int") None) demo_path (lit "a = {}" ++ [10] ++ lit "b = 1") =
    Crash (Some (demo_path, [])).
Proof. eexists. split; vm_compute; reflexivity. Qed.
Print Assumptions C54_kept_refuted.

(** ** C55: what one run sets, the next one gets; false as stated *)
Theorem C55_set_get_refuted :
  process_document demo (new_options no_flags) (set_values (lit "a,1x,int") None) demo_path (lit "a = 1") =
    Finished (lit "Success" ++ [10]) (Some (demo_path, lit "a = 1x")) /\
  exists msg, process_document demo (new_options no_flags) (get_values (lit "a")) demo_path (lit "a = 1x") = Exit msg.
Proof. split; [vm_compute; reflexivity|]. eexists. vm_compute. reflexivity. Qed.
Print Assumptions C55_set_get_refuted.

(** for values that are spelled correctly: the file differs only in the text of
    the value, get-value prints the new value, and every other get-value prints
    what it printed before *)
Theorem C55_set_get_partial : forall x g kvs out path path' l1 nl w0 k w1 w2 v t w3 c l2 val typ v',
  let ls := fun v t => l1 ++ (nl, DLine w0 k w1 w2 v t w3 c) :: l2 in
  let key := address (table_after TRoot [] (body l1)) k in
  lines_ok (ls v t) -> distinct (body (ls v t)) -> plain_headers (body (ls v t)) ->
  (forall y, In y (pairs (body (ls v t))) -> filled (snd y)) -> scalar_value v ->
  g.(g_print) = false -> x.(x_split) kvs = Some [key; val; typ] -> typed typ val v' -> readable v' ->
  let new := lines_text (ls v' (spelling v')) in
  process_document x (new_options g) (set_values kvs out) path (lines_text (ls v t)) =
    Finished (lit "Success" ++ [10]) (Some (or_else out path, new)) /\
  (forall csv, x.(x_split) csv = Some [key] -> exists u, printed g.(g_strip) v' u /\
     process_document x (new_options g) (get_values csv) path' new = Finished (u ++ [10]) None) /\
  (forall csv keys, x.(x_split) csv = Some keys -> ~ In key keys ->
     process_document x (new_options g) (get_values csv) path' new =
     process_document x (new_options g) (get_values csv) path' (lines_text (ls v t))).
Proof.
  intros x g kvs out path path' l1 nl w0 k w1 w2 v t w3 c l2 val typ v' ls key OK DS PH FI SV NP X TY RD new.
  destruct (C43_update_partial x.(x_ovf) l1 nl w0 k w1 w2 v t w3 c l2 v' OK DS PH FI SV RD) as (s & s1 & s2 & P & SE & SH & P2 & G & OT).
  fold key in SE, G, OT. fold ls in P, SH, P2. fold new in SH, P2.
  assert (U : updates s [key; val; typ] s1) by (eapply Up_cons; eauto; apply Up_nil).
  split; [|split].
  - destruct (cli_set_ok x kvs (separator g) s _ s1 X) as (n & L & E); [discriminate|exact U|].
    assert (n = 1%nat) by (cbn [length] in L; lia). subst n.
    etransitivity; [exact (run_only_set x g kvs out path _ s s1 _ P NP E)|]. cbv iota. rewrite SH. reflexivity.
  - intros csv XC. destruct (C51_get_value x g csv [key] [v'] path' new s2 P2 NP XC) as (ts & F & E); [discriminate|..].
    + constructor; auto.
    + constructor; [|constructor]. destruct (typed_scalar _ _ _ TY) as [S _]. destruct v'; try constructor; destruct S.
    + inversion F as [|a u la lu A B]; subst. inversion B; subst. exists u. split; auto.
  - intros csv keys XC NI. apply (run_get_ext x g csv path' _ new s s2 keys P P2 NP XC). intros k' I. apply OT. intros ->. contradiction.
Qed.
Print Assumptions C55_set_get_partial.
Example C55_set_get_ex : exists v',
  let ls := firstn 8 sect_lines ++ (([10] : str), DLine [] (lit "ip") [] [] (VInteger (lit "2")) (lit "2") [] None) :: skipn 9 sect_lines in
  ls = sect_lines /\ address (table_after TRoot [] (body (firstn 8 sect_lines))) (lit "ip") = lit "srv[1].ip" /\
  commas (lit "srv[1].ip,it's,bs") = [lit "srv[1].ip"; lit "it's"; lit "bs"] /\ typed (lit "bs") (lit "it's") v' /\ readable v'.
Proof.
  eexists. cbv zeta. split; [reflexivity|]. split; [reflexivity|]. split; [reflexivity|].
  split; [exists TyBasic; split; [right; left; reflexivity|vm_compute; reflexivity]|]. apply (Rd_basic (lit "it's")). vm_compute. reflexivity.
Qed.

(** the types whose values are always spelled correctly *)
Theorem C55_readable_partial : forall t val v, value_of t val v -> t = TyBasic \/ t = TyLiteral \/ t = TyBool \/ t = TyDate -> readable v.
Proof.
  intros t val v V [-> | [-> | [-> | ->]]]; cbn [value_of] in V.
  - eapply Rd_basic; eauto.
  - eapply Rd_literal; eauto.
  - unfold bool_from_str in V. destruct (str_eqb _ _); [inversion V; apply Rd_bool|]. destruct (str_eqb _ _); inversion V; apply Rd_bool.
  - destruct (typed_date_digits val v V) as (d & -> & D & W). apply Rd_digits; auto.
Qed.
Print Assumptions C55_readable_partial.
Example C55_readable_ex : exists v, value_of TyDate (lit "1979-05-27T07:32:00-07:00") v /\ spelling v = lit "1979-05-27T07:32:00-07:00".
Proof. eexists. split; [eexists; split; [vm_compute; reflexivity|reflexivity]|vm_compute; reflexivity]. Qed.

(** ** C56: the value stored has the text that was given; false for date-times in UTC *)
Theorem C56_types_refuted :
  process_document demo (new_options no_flags) (set_values (lit "a,2016-01-01T00:00:00Z,datetime") None) demo_path (lit "a = 1") =
  Finished (lit "Success" ++ [10]) (Some (demo_path, lit "a = 2016-01-01T00:00:00")).
Proof. vm_compute. reflexivity. Qed.
Print Assumptions C56_types_refuted.
(** for what is proved see PropRuns.v *)

(** ** C57: print-doc *)
Theorem C57_print_doc : forall x g m path text s t out f, parse (new_parser x.(x_ovf)) text = Ok (s, Full) -> show_parser s = Ok t ->
  g.(g_print) = false -> process_document x (new_options g) m path text = Finished out f ->
  (m.(m_set) = None -> process_document x (new_options (printing g)) m path text = Finished (out ++ text ++ [10]) f) /\
  (forall p c, f = Some (p, c) -> process_document x (new_options (printing g)) m path text = Finished (out ++ c ++ [10]) f).
Proof.
  intros x g m path text s t out f P SH NP R. destruct (run_printing x g m path text s t out f P NP SH R) as [A B]. split; auto.
  intros M. rewrite (A M). rewrite (C01_lossless _ _ _ _ _ P (or_introl eq_refl) SH). reflexivity.
Qed.
Print Assumptions C57_print_doc.
Example C57_print_doc_ex : exists s t, parse (new_parser true) sect_text = Ok (s, Full) /\ show_parser s = Ok t /\
  process_document demo (new_options no_flags) two_updates demo_path sect_text =
    Finished (lit "Success, Success" ++ [10]) (Some (lit "b.toml", two_result)) /\
  process_document demo (new_options (printing no_flags)) two_updates demo_path sect_text =
    Finished (lit "Success, Success" ++ [10] ++ two_result ++ [10]) (Some (lit "b.toml", two_result)).
Proof. do 2 eexists. split; [vm_compute; reflexivity|]. split; [vm_compute; reflexivity|]. split; vm_compute; reflexivity. Qed.
(** after a failed set-value the document printed is neither the file's nor a
    fully updated one *)
Theorem C57_failed_refuted :
  process_document demo (new_options (printing no_flags)) (set_values (lit "a,7,int,b,8,int") None) demo_path (lit "a = 1") =
  Finished (complaint demo_path (lit "Could not set value of key: " ++ quoted (lit "b") ++ lit " to value: " ++ quoted (lit "8") ++
    lit ", with type " ++ quoted (lit "int")) ++ lit "a = 7" ++ [10]) None.
Proof. vm_compute. reflexivity. Qed.
Print Assumptions C57_failed_refuted.

(** ** C58: strip-quotes; false for strings whose contents begin or end with quotes *)
Theorem C58_strip_refuted : exists g, g.(g_strip) = true /\
  process_document demo (new_options g) (get_values (lit "a")) demo_path (lit "a = '" ++ [34] ++ lit "x" ++ [34] ++ lit "'") =
  Finished (lit "x" ++ [10]) None.
Proof.
  exists {| g_true := None; g_false := None; g_sep := None; g_start := None; g_end := None; g_arr_sep := None;
     g_len := false; g_strip := true; g_quiet := false; g_print := false |}. split; [reflexivity|vm_compute; reflexivity].
Qed.
Print Assumptions C58_strip_refuted.
Theorem C58_strip_partial : forall c k t, (forall q c', c = q :: c' -> ~ quote q) -> (forall q c', c = c' ++ [q] -> ~ quote q) ->
  (printed true (VString c k) t <-> t = c).
Proof.
  intros c k t H1 H2.
  assert (U : unquoted (value_text (VString c k)) c).
  { assert (Q : forall q n, quote q -> unquoted (repeat q n ++ c ++ repeat q n) c).
    { intros q n Hq. exists (repeat q n), (repeat q n). split; auto. split; [|split; [|split; auto]];
      apply Forall_forall; intros y Y; apply repeat_spec in Y; subst; auto. }
    destruct k; [apply (Q 34 1%nat)|apply (Q 34 3%nat)|apply (Q 39 1%nat)|apply (Q 39 3%nat)]; unfold quote; auto. }
  unfold printed. split; [intros P; eapply unquoted_unique; eauto|intros ->; auto].
Qed.
Print Assumptions C58_strip_partial.
Example C58_strip_ex : printed true (VString (lit "a 'b' c") SMLBasic) (lit "a 'b' c").
Proof. apply C58_strip_partial; [intros q c' H; inversion H; subst; intros [X|X]; discriminate| |reflexivity].
  intros q c' H. change (lit "a 'b' c") with (lit "a 'b' " ++ lit "c") in H. apply app_inj_tail in H as [_ <-]. intros [X|X]; discriminate. Qed.

(** ** C59: quiet; false: the option is not looked at *)
Theorem C59_quiet_refuted : exists g, g.(g_quiet) = true /\
  process_document demo (new_options g) (set_values (lit "a,2,int") None) demo_path (lit "a = 1") =
  Finished (lit "Success" ++ [10]) (Some (demo_path, lit "a = 2")).
Proof.
  exists {| g_true := None; g_false := None; g_sep := None; g_start := None; g_end := None; g_arr_sep := None;
     g_len := false; g_strip := false; g_quiet := true; g_print := false |}. split; [reflexivity|vm_compute; reflexivity].
Qed.
Print Assumptions C59_quiet_refuted.
