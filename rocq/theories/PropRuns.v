(** Properties of runs of the tool that set several keys. *)
From Coq Require Import Lia ZifyBool ZifyNat ZifyN.
From Verif Require Import Str Regex Types Ast State Nom Keys Grammar Api Cli Facts Spec ApiSpec CliSpec.
From Verif Require Import TypesFacts DateFacts NumFacts StringFacts ScalarFacts FlatFacts PropTypes PropFlat DocSpec SectFacts LookFacts PropNest DotSpec DotFacts PropDot PropApi.
From Verif Require Import TreeSpec TreeView TreeFacts PropTree CliFacts PropCli SessSpec SessDocs PropSess RunSpec RunFacts.

(** ** C56: the values that a run stores have the texts that were given; false for
    date-times in UTC, see [C56_types_refuted]. The full statement is the one below
    with [has_text] alone in [worded]. *)
Theorem C56_types_partial : forall x o m path text p c, wrote (process_document x o m path text) = Some (p, c) ->
  exists a l us s s', m.(m_set) = Some a /\ x.(x_split) a = Some l /\ worded l us /\ us <> [] /\
    p = or_else m.(m_out) path /\ parse (new_parser x.(x_ovf)) text = Ok (s, Full) /\ sets s us s' /\
    (show_parser s' = Ok c \/ show_parser s' = Panic /\ c = []).
Proof. exact run_worded. Qed.
Print Assumptions C56_types_partial.
Example C56_types_ex : wrote (process_document demo (new_options no_flags) (set_values (lit "a,C:\dir,mls,b,1979-05-27T07:32:00.5,dt") None) demo_path
    (lit "a=1" ++ [10] ++ lit "b=2")) =
    Some (demo_path, lit "a='''C:\dir'''" ++ [10] ++ lit "b=1979-05-27T07:32:00.5").
Proof. vm_compute. reflexivity. Qed.

(** every type is known under both of its names: a value that is valid is stored *)
Theorem C56_accepted : forall x g kvs out path text s k val typ t v s' t0, parse (new_parser x.(x_ovf)) text = Ok (s, Full) ->
  g.(g_print) = false -> x.(x_split) kvs = Some [k; val; typ] -> In typ (type_names t) -> has_text t val v -> validate v = true ->
  (forall d, v = VDateTime d -> datetime_digits d /\ without_z d = d) ->
  set_value s k v = Ok (s', true) -> show_parser s = Ok t0 ->
  exists c, show_parser s' = Ok c /\
    process_document x (new_options g) (set_values kvs out) path text = Finished (lit "Success" ++ [10]) (Some (or_else out path, c)).
Proof.
  intros x g kvs out path text s k val typ t v s' t0 P NP X I H V DD SV SH.
  destruct (C54_success x g kvs out path text s [k; val; typ] s' t0 P NP X) as (n & c & L & SC & R); auto; [discriminate| |].
  - eapply Up_cons; [eapply text_typed; eauto|exact SV|apply Up_nil].
  - exists c. split; auto. cbn [length] in L. assert (n = 1%nat) by lia. subst n. exact R.
Qed.
Print Assumptions C56_accepted.
Example C56_accepted_ex : exists v, In (lit "flt") (type_names TyFloat) /\ has_text TyFloat (lit "-1.5e3") v /\ validate v = true.
Proof. eexists. split; [right; left; reflexivity|]. split; [reflexivity|vm_compute; reflexivity]. Qed.

(** ** C71: several keys set in one run *)
Theorem C71_sections_partial : forall x g kvs out path l ls us ls' m',
  lines_ok ls -> distinct (map snd ls) -> plain_headers (map snd ls) ->
  (forall n key v, gives DLine dkey ls n key v -> DocSpec.filled v) -> edits DLine dkey ls [] us ls' m' ->
  g.(g_print) = false -> x.(x_split) kvs = Some l -> fields l us -> us <> [] ->
  process_document x (new_options g) (set_values kvs out) path (lines_text ls) =
    Finished (separated (separator g) (repeat (lit "Success") (length us)) ++ [10]) (Some (or_else out path, lines_text ls')) /\
  (forall csv keys vs path', x.(x_split) csv = Some keys -> keys <> [] ->
     Forall2 (fun key v => exists n k0 w p, gives DLine dkey ls' n k0 w /\ good_path p /\ key = k0 ++ path_text p /\ at_path w p = Some v) keys vs ->
     Forall printable vs ->
     exists ts, Forall2 (printed g.(g_strip)) vs ts /\
       process_document x (new_options g) (get_values csv) path' (lines_text ls') = Finished (separated (separator g) ts ++ [10]) None) /\
  (forall csv keys path', x.(x_split) csv = Some keys -> Forall (clear_of DLine dkey ls) keys ->
     process_document x (new_options g) (get_values csv) path' (lines_text ls') =
     process_document x (new_options g) (get_values csv) path' (lines_text ls)).
Proof.
  intros x g kvs out path l ls us ls' m' OK DS PH FI ED NP X F NE. apply (session_run DLine dkey lines_text x g kvs out path l ls us ls' m'); auto. apply C70_sections_partial; auto.
Qed.
Print Assumptions C71_sections_partial.

Theorem C71_dotted_partial : forall x g kvs out path l ls us ls' m',
  hdoc_ok ls -> hdistinct (map snd ls) -> parents_empty (map snd ls) ->
  (forall n key v, gives HPair hkey ls n key v -> DocSpec.filled v) -> edits HPair hkey ls [] us ls' m' ->
  g.(g_print) = false -> x.(x_split) kvs = Some l -> fields l us -> us <> [] ->
  process_document x (new_options g) (set_values kvs out) path (hdoc_text ls) =
    Finished (separated (separator g) (repeat (lit "Success") (length us)) ++ [10]) (Some (or_else out path, hdoc_text ls')) /\
  (forall csv keys vs path', x.(x_split) csv = Some keys -> keys <> [] ->
     Forall2 (fun key v => exists n k0 w p, gives HPair hkey ls' n k0 w /\ good_path p /\ key = k0 ++ path_text p /\ at_path w p = Some v) keys vs ->
     Forall printable vs ->
     exists ts, Forall2 (printed g.(g_strip)) vs ts /\
       process_document x (new_options g) (get_values csv) path' (hdoc_text ls') = Finished (separated (separator g) ts ++ [10]) None) /\
  (forall csv keys path', x.(x_split) csv = Some keys -> Forall (clear_of HPair hkey ls) keys ->
     process_document x (new_options g) (get_values csv) path' (hdoc_text ls') =
     process_document x (new_options g) (get_values csv) path' (hdoc_text ls)).
Proof.
  intros x g kvs out path l ls us ls' m' OK DS PH FI ED NP X F NE. apply (session_run HPair hkey hdoc_text x g kvs out path l ls us ls' m'); auto. apply C70_dotted_partial; auto.
Qed.
Print Assumptions C71_dotted_partial.

Theorem C71_nested_partial : forall x g kvs out path l ls us ls' m' w,
  tdoc_ok ls -> says (map snd ls) = Some w -> along_edge (map snd ls) ->
  (forall n key v, gives tpair tkey ls n key v -> DocSpec.filled v) -> edits tpair tkey ls [] us ls' m' ->
  g.(g_print) = false -> x.(x_split) kvs = Some l -> fields l us -> us <> [] ->
  process_document x (new_options g) (set_values kvs out) path (tdoc_text ls) =
    Finished (separated (separator g) (repeat (lit "Success") (length us)) ++ [10]) (Some (or_else out path, tdoc_text ls')) /\
  (forall csv keys vs path', x.(x_split) csv = Some keys -> keys <> [] ->
     Forall2 (fun key v => exists n k0 w p, gives tpair tkey ls' n k0 w /\ good_path p /\ key = k0 ++ path_text p /\ at_path w p = Some v) keys vs ->
     Forall printable vs ->
     exists ts, Forall2 (printed g.(g_strip)) vs ts /\
       process_document x (new_options g) (get_values csv) path' (tdoc_text ls') = Finished (separated (separator g) ts ++ [10]) None) /\
  (forall csv keys path', x.(x_split) csv = Some keys -> Forall (clear_of tpair tkey ls) keys ->
     process_document x (new_options g) (get_values csv) path' (tdoc_text ls') =
     process_document x (new_options g) (get_values csv) path' (tdoc_text ls)).
Proof.
  intros x g kvs out path l ls us ls' m' w OK DS PH FI ED NP X F NE. apply (session_run tpair tkey tdoc_text x g kvs out path l ls us ls' m'); auto. apply (C70_nested_partial _ _ _ _ _ w); auto.
Qed.
Print Assumptions C71_nested_partial.

(** cases: three updates in one run *)
Definition run_edits : list (str * value) :=
  [ (lit "ports[1]", VInteger (lit "8080")); (lit "srv[1].ip", VBoolean true); (lit "owner.name", VInteger (lit "5")) ].
Definition run_after : list (str * dline) :=
  [ ([], DBlank [] (Some (lit " settings")));
    ([10], DLine [] (lit "ports") (lit " ") (lit " ") (VArray [VInteger (lit "80"); VInteger (lit "8080")]) (lit "[80, 8080 ]") [] None);
    ([10], DTable [] [] (lit "owner") [] [] None);
    ([10], DLine (lit "  ") (lit "name") (lit " ") (lit " ") (VInteger (lit "5")) (lit "5") (lit " ") (Some (lit "x")));
    ([13; 10], DLine [] (lit "pos") (lit " ") (lit " ")
       (VInlineTable [(lit "x", VInteger (lit "1")); (lit "y", VArray [VBoolean true])]) (lit "{x=1, y=[true]}") [] None);
    ([10], DArray [] [] (lit "srv") [] [] None);
    ([10], DLine [] (lit "ip") [] [] (VInteger (lit "1")) (lit "1") [] None);
    ([10], DArray [] (lit " ") (lit "srv") [] [] None);
    ([10], DLine [] (lit "ip") [] [] (VBoolean true) (lit "true") [] None);
    ([10], DLine [] (lit """up time""") [] [] (VBoolean true) (lit "true") [] None);
    ([10], DArray [] [] (lit "db") [] [] None);
    ([10], DLine [] (lit "ip") [] [] (VInteger (lit "3")) (lit "3") [] None);
    ([10], DBlank [] None) ].
Example C71_sections_ex : lines_ok sect_lines /\ distinct (map snd sect_lines) /\ plain_headers (map snd sect_lines) /\
  (forall n key v, gives DLine dkey sect_lines n key v -> DocSpec.filled v) /\ edits DLine dkey sect_lines [] run_edits run_after [] /\
  fields (commas (lit "ports[1],8080,int,srv[1].ip,TRUE,bool,owner.name,5,integer")) run_edits.
Proof.
  destruct C70_sections_ex as (A & B & C & D & _). repeat (split; [assumption|]). split.
  - unfold run_edits.
    apply (Ed_path DLine dkey (firstn 1 sect_lines) [10] [] (lit "ports") (lit " ") (lit " ") (VArray [VInteger (lit "80"); VInteger (lit "443")]) (lit "[80, 443 ]") [] None
      (skipn 2 sect_lines) [] [PIdx 1] (VInteger (lit "8080")) (VInteger (lit "443")) (lit "[80, 8080 ]")).
    { right. intros []. } { repeat constructor. } { reflexivity. } { exact ports_respelled. }
    match goal with |- edits _ _ ?l _ _ _ _ => set (l1 := l) end.
    apply (Ed_path DLine dkey (firstn 8 l1) [10] [] (lit "ip") [] [] (VInteger (lit "2")) (lit "2") [] None
      (skipn 9 l1) [] [] (VBoolean true) (VInteger (lit "2")) (lit "true")).
    { left. reflexivity. } { repeat constructor. } { reflexivity. } { cbn [put_at]. apply Rs_scalar; [int_sc|apply Sc_true]. }
    match goal with |- edits _ _ ?l _ _ _ _ => set (l2 := l) end.
    apply (Ed_path DLine dkey (firstn 3 l2) [10] (lit "  ") (lit "name") (lit " ") (lit " ") (VString (lit "tom") SBasic) ([34] ++ lit "tom" ++ [34])
      (lit " ") (Some (lit "x")) (skipn 4 l2) [] [] (VInteger (lit "5")) (VString (lit "tom") SBasic) (lit "5")).
    { left. reflexivity. } { repeat constructor. } { reflexivity. } { apply Rs_scalar; [|scal]. apply Sc_basic. match goal with |- basic_body ?l => let l' := eval vm_compute in l in change l with l' end.
      repeat (apply BB_char; [lia|lia|lia|]). apply BB_nil. }
    apply Ed_none.
  - match goal with |- fields ?l _ => let l' := eval vm_compute in l in change l with l' end.
    apply Fi_cons; [exists TyInt; split; [right; left; reflexivity|vm_compute; reflexivity]|].
    apply Fi_cons; [exists TyBool; split; [right; left; reflexivity|vm_compute; reflexivity]|].
    apply Fi_cons; [exists TyInt; split; [left; reflexivity|vm_compute; reflexivity]|]. apply Fi_nil.
Qed.
Example C71_nested_ex : exists ls' w, tdoc_ok tree_lines /\ says (map snd tree_lines) = Some w /\ along_edge (map snd tree_lines) /\
  (forall n key x, gives tpair tkey tree_lines n key x -> DocSpec.filled x) /\
  edits tpair tkey tree_lines [] [ (lit "fruit[0].variety[1].sizes[0]", VInteger (lit "9")); (lit "fruit[1].variety[0].id", VBoolean true) ] ls' [] /\
  fields (commas (lit "fruit[0].variety[1].sizes[0],9,int,fruit[1].variety[0].id,true,boolean"))
    [ (lit "fruit[0].variety[1].sizes[0]", VInteger (lit "9")); (lit "fruit[1].variety[0].id", VBoolean true) ].
Proof.
  destruct C70_nested_ex as (w & A & B & C & D & _). eexists. exists w. repeat (split; [assumption|]). split.
  - apply (Ed_path tpair tkey (firstn 8 tree_lines) [10] [] (lit "sizes") [] [] (VArray [VInteger (lit "1"); VInteger (lit "2")]) (lit "[1,2]") [] None
      (skipn 9 tree_lines) [] [PIdx 0] (VInteger (lit "9")) (VInteger (lit "1")) (lit "[9,2]")).
    { right. intros []. } { repeat constructor. } { reflexivity. } { exact xs_respelled. }
    match goal with |- edits _ _ ?l _ _ _ _ => set (l1 := l) end.
    apply (Ed_path tpair tkey (firstn 14 l1) [10] [] (lit "id") [] [] (VInteger (lit "5")) (lit "5") [] None
      (skipn 15 l1) [] [] (VBoolean true) (VInteger (lit "5")) (lit "true")).
    { left. reflexivity. } { repeat constructor. } { reflexivity. } { cbn [put_at]. apply Rs_scalar; [int_sc|apply Sc_true]. }
    apply Ed_none.
  - match goal with |- fields ?l _ => let l' := eval vm_compute in l in change l with l' end.
    apply Fi_cons; [exists TyInt; split; [right; left; reflexivity|vm_compute; reflexivity]|].
    apply Fi_cons; [exists TyBool; split; [left; reflexivity|vm_compute; reflexivity]|]. apply Fi_nil.
Qed.
(** for dotted headers: the value of a.x *)
Example C71_dotted_ex : exists ls', hdoc_ok dot_lines /\ hdistinct (map snd dot_lines) /\ parents_empty (map snd dot_lines) /\
  (forall n key v, gives HPair hkey dot_lines n key v -> DocSpec.filled v) /\
  edits HPair hkey dot_lines [] [ (lit "a.b.c.x[0]", VInteger (lit "9")); (lit "a.x", VInteger (lit "4")) ] ls' [] /\
  fields (commas (lit "a.b.c.x[0],9,int,a.x,4,int")) [ (lit "a.b.c.x[0]", VInteger (lit "9")); (lit "a.x", VInteger (lit "4")) ].
Proof.
  destruct C70_dotted_ex as (A & B & C & D & _). eexists. repeat (split; [assumption|]). split.
  - apply (Ed_path HPair hkey (firstn 2 dot_lines) [10] [] (lit "x") (lit " ") (lit " ") (VArray [VInteger (lit "1"); VInteger (lit "2")]) (lit "[1,2]") [] None
      (skipn 3 dot_lines) [] [PIdx 0] (VInteger (lit "9")) (VInteger (lit "1")) (lit "[9,2]")).
    { right. intros []. } { repeat constructor. } { reflexivity. } { exact xs_respelled. }
    match goal with |- edits _ _ ?l _ _ _ _ => set (l1 := l) end.
    apply (Ed_path HPair hkey (firstn 8 l1) [10] [] (lit "x") [] [] (VBoolean true) (lit "true") [] None
      (skipn 9 l1) [] [] (VInteger (lit "4")) (VBoolean true) (lit "4")).
    { left. reflexivity. } { repeat constructor. } { reflexivity. } { cbn [put_at]. rscal. }
    apply Ed_none.
  - match goal with |- fields ?l _ => let l' := eval vm_compute in l in change l with l' end.
    do 2 (apply Fi_cons; [exists TyInt; split; [right; left; reflexivity|vm_compute; reflexivity]|]). apply Fi_nil.
Qed.
