(** Properties of editing sessions. *)
From Coq Require Import Lia ZifyBool ZifyNat ZifyN.
From Verif Require Import Str Regex Types Ast State Nom Keys Grammar Api Facts Spec ApiSpec.
From Verif Require Import TypesFacts DateFacts NumFacts StringFacts ScalarFacts FlatFacts PropTypes PropFlat DocSpec SectFacts LookFacts PropNest DotSpec DotFacts PropDot PropApi.
From Verif Require Import TreeSpec TreeView TreeFacts PropTree SessSpec SessDocs.

(** C70. The full statement is [session] with no [m'], for every document and all
    updates that succeed: lookups in memory then agree with those after printing and
    reading again. It does not hold of the code, see [C70_session_refuted]: after
    a value has got another shape there are still children of the old one. *)
Theorem C70_sections_partial : forall ovf ls us ls' m', lines_ok ls -> distinct (map snd ls) -> plain_headers (map snd ls) ->
  (forall n key v, gives DLine dkey ls n key v -> DocSpec.filled v) -> edits DLine dkey ls [] us ls' m' ->
  session DLine dkey ovf lines_text ls us ls' m'.
Proof. exact dsession. Qed.
Print Assumptions C70_sections_partial.

(** documents with dotted headers *)
Theorem C70_dotted_partial : forall ovf ls us ls' m', hdoc_ok ls -> hdistinct (map snd ls) -> parents_empty (map snd ls) ->
  (forall n key v, gives HPair hkey ls n key v -> DocSpec.filled v) -> edits HPair hkey ls [] us ls' m' ->
  session HPair hkey ovf hdoc_text ls us ls' m'.
Proof. exact hsession. Qed.
Print Assumptions C70_dotted_partial.

(** documents with arrays of tables inside arrays of tables *)
Theorem C70_nested_partial : forall ovf ls us ls' m' v, tdoc_ok ls -> says (map snd ls) = Some v -> along_edge (map snd ls) ->
  (forall n key x, gives tpair tkey ls n key x -> DocSpec.filled x) -> edits tpair tkey ls [] us ls' m' ->
  session tpair tkey ovf tdoc_text ls us ls' m'.
Proof. exact tsession. Qed.
Print Assumptions C70_nested_partial.

(** ** Cases *)
Ltac int_sc := apply Sc_int; exists []; eexists; split; [reflexivity|]; split; [left; reflexivity|];
  match goal with |- int_body ?l => let l' := eval vm_compute in l in change l with l' end;
  do 2 eexists; split; [reflexivity|]; split; [unfold digit; lia|]; split;
  [repeat (apply DT_digit; [unfold digit; lia|]); apply DT_nil|discriminate].
Ltac some_gap := match goal with |- gap ?l => let l' := eval vm_compute in l in change l with l' end; nogap.
Ltac scal := first [apply Sc_true|int_sc].
Ltac rscal := apply Rs_scalar; scal.
Definition sect_edits : list (str * value) :=
  [ (lit "ports[1]", VInteger (lit "8080"));
    (lit "srv[1].ip", VBoolean true);
    (lit "ports", VArray [VInteger (lit "1"); VInteger (lit "2"); VInteger (lit "3")]);
    (lit "owner.pos.x", VInteger (lit "7"));
    (lit "owner.name", VInteger (lit "5")) ].
Definition sect_after : list (str * dline) :=
  [ ([], DBlank [] (Some (lit " settings")));
    ([10], DLine [] (lit "ports") (lit " ") (lit " ") (VArray [VInteger (lit "1"); VInteger (lit "2"); VInteger (lit "3")]) (lit "[1, 2, 3]") [] None);
    ([10], DTable [] [] (lit "owner") [] [] None);
    ([10], DLine (lit "  ") (lit "name") (lit " ") (lit " ") (VInteger (lit "5")) (lit "5") (lit " ") (Some (lit "x")));
    ([13; 10], DLine [] (lit "pos") (lit " ") (lit " ")
       (VInlineTable [(lit "x", VInteger (lit "7")); (lit "y", VArray [VBoolean true])]) (lit "{x=7, y=[true]}") [] None);
    ([10], DArray [] [] (lit "srv") [] [] None);
    ([10], DLine [] (lit "ip") [] [] (VInteger (lit "1")) (lit "1") [] None);
    ([10], DArray [] (lit " ") (lit "srv") [] [] None);
    ([10], DLine [] (lit "ip") [] [] (VBoolean true) (lit "true") [] None);
    ([10], DLine [] (lit """up time""") [] [] (VBoolean true) (lit "true") [] None);
    ([10], DArray [] [] (lit "db") [] [] None);
    ([10], DLine [] (lit "ip") [] [] (VInteger (lit "3")) (lit "3") [] None);
    ([10], DBlank [] None) ].
Lemma ports_respelled : respells (VArray [VInteger (lit "80"); VInteger (lit "443")]) (lit "[80, 443 ]")
  (VArray [VInteger (lit "80"); VInteger (lit "8080")]) (lit "[80, 8080 ]").
Proof.
  change (lit "[80, 443 ]") with (lit "[" ++ [] ++ (lit "80" ++ [] ++ lit "," ++ lit " " ++ (lit "443" ++ lit " ")) ++ lit "]").
  change (lit "[80, 8080 ]") with (lit "[" ++ [] ++ (lit "80" ++ [] ++ lit "," ++ lit " " ++ (lit "8080" ++ lit " ")) ++ lit "]").
  apply Rs_array; [some_gap| |].
  - apply Re_cons; [rscal|chars|some_gap|]. apply Re_last; [rscal|some_gap].
  - intros a b [<-|[<-|[]]] [<-|[<-|[]]]; reflexivity.
Qed.
Lemma pos_respelled : respells (VInlineTable [(lit "x", VInteger (lit "1")); (lit "y", VArray [VBoolean true])]) (lit "{x=1, y=[true]}")
  (VInlineTable [(lit "x", VInteger (lit "7")); (lit "y", VArray [VBoolean true])]) (lit "{x=7, y=[true]}").
Proof.
  change (lit "{x=1, y=[true]}") with (lit "{" ++ [] ++ (lit "x" ++ [] ++ lit "=" ++ [] ++ lit "1" ++ [] ++ lit "," ++ lit " " ++
    (lit "y" ++ [] ++ lit "=" ++ [] ++ (lit "[" ++ [] ++ (lit "true" ++ []) ++ lit "]") ++ [])) ++ lit "}").
  change (lit "{x=7, y=[true]}") with (lit "{" ++ [] ++ (lit "x" ++ [] ++ lit "=" ++ [] ++ lit "7" ++ [] ++ lit "," ++ lit " " ++
    (lit "y" ++ [] ++ lit "=" ++ [] ++ (lit "[" ++ [] ++ (lit "true" ++ []) ++ lit "]") ++ [])) ++ lit "}").
  apply Rs_inline; [chars| |].
  - apply Rf_cons; [bare|chars|chars|rscal|chars|some_gap|]. apply Rf_last; [bare|chars|chars| |some_gap].
    apply Rs_array; [some_gap| |]; [apply Re_last; [rscal|some_gap]|]. intros a b [<-|[]] [<-|[]]; reflexivity.
  - repeat constructor; cbn [In map fst]; intros H; repeat destruct H as [H|H]; try discriminate; auto.
Qed.
Lemma sect_edited : edits DLine dkey sect_lines [] sect_edits sect_after [1%nat].
Proof.
  unfold sect_edits.
  apply (Ed_path DLine dkey (firstn 1 sect_lines) [10] [] (lit "ports") (lit " ") (lit " ") (VArray [VInteger (lit "80"); VInteger (lit "443")]) (lit "[80, 443 ]") [] None
    (skipn 2 sect_lines) [] [PIdx 1] (VInteger (lit "8080")) (VInteger (lit "443")) (lit "[80, 8080 ]")).
  { right. intros []. } { repeat constructor. } { reflexivity. } { exact ports_respelled. }
  match goal with |- edits _ _ ?l _ _ _ _ => set (l1 := l) end.
  apply (Ed_path DLine dkey (firstn 8 l1) [10] [] (lit "ip") [] [] (VInteger (lit "2")) (lit "2") [] None
    (skipn 9 l1) [] [] (VBoolean true) (VInteger (lit "2")) (lit "true")).
  { left. reflexivity. } { repeat constructor. } { reflexivity. } { cbn [put_at]. apply Rs_scalar; [int_sc|apply Sc_true]. }
  match goal with |- edits _ _ ?l _ _ _ _ => set (l2 := l) end.
  apply (Ed_new DLine dkey (firstn 1 l2) [10] [] (lit "ports") (lit " ") (lit " ") (VArray [VInteger (lit "80"); VInteger (lit "8080")]) (lit "[80, 8080 ]") [] None
    (skipn 2 l2) [] (VArray [VInteger (lit "1"); VInteger (lit "2"); VInteger (lit "3")]) (lit "[1, 2, 3]")).
  { apply (Rm_array _ _ [lit "1"; lit "2"; lit "3"]).
    - repeat (apply Forall2_cons; [scal|]). apply Forall2_nil.
    - intros a b [<-|[<-|[<-|[]]]] [<-|[<-|[<-|[]]]]; reflexivity.
    - apply other_length. discriminate. }
  match goal with |- edits _ _ ?l _ _ _ _ => set (l3 := l) end.
  apply (Ed_path DLine dkey (firstn 4 l3) [13; 10] [] (lit "pos") (lit " ") (lit " ") (VInlineTable [(lit "x", VInteger (lit "1")); (lit "y", VArray [VBoolean true])])
    (lit "{x=1, y=[true]}") [] None (skipn 5 l3) [1%nat] [PKey (lit "x")] (VInteger (lit "7")) (VInteger (lit "1")) (lit "{x=7, y=[true]}")).
  { right. intros [H|[]]. discriminate H. } { constructor; [bare|constructor]. } { reflexivity. } { exact pos_respelled. }
  match goal with |- edits _ _ ?l _ _ _ _ => set (l4 := l) end.
  apply (Ed_path DLine dkey (firstn 3 l4) [10] (lit "  ") (lit "name") (lit " ") (lit " ") (VString (lit "tom") SBasic) ([34] ++ lit "tom" ++ [34])
    (lit " ") (Some (lit "x")) (skipn 4 l4) [1%nat] [] (VInteger (lit "5")) (VString (lit "tom") SBasic) (lit "5")).
  { left. reflexivity. } { repeat constructor. } { reflexivity. } { apply Rs_scalar; [|scal]. apply Sc_basic. match goal with |- basic_body ?l => let l' := eval vm_compute in l in change l with l' end.
    repeat (apply BB_char; [lia|lia|lia|]). apply BB_nil. }
  apply Ed_none.
Qed.
Ltac all_filled f := apply (gives_all _ _ f); [reflexivity|]; repeat (apply Forall_cons; [cbn; repeat split; auto; discriminate|]); apply Forall_nil.
Definition dval (d : dline) : option value := match d with DLine _ _ _ _ v _ _ _ => Some v | _ => None end.
Definition hval (d : hline) : option value := match d with HPair _ _ _ _ v _ _ _ => Some v | _ => None end.
Definition tval_of (d : tline) : option value := match d with TPlain (HPair _ _ _ _ v _ _ _) => Some v | _ => None end.
Ltac clear_key := match goal with |- ?x <> ?k /\ _ => let k' := eval vm_compute in k in change k with k' end;
  split; [discriminate|]; let c := fresh in let r := fresh in let H := fresh in intros (c & r & H & _); vm_compute in H; discriminate H.
Example C70_sections_ex : lines_ok sect_lines /\ distinct (map snd sect_lines) /\ plain_headers (map snd sect_lines) /\
  (forall n key v, gives DLine dkey sect_lines n key v -> DocSpec.filled v) /\ edits DLine dkey sect_lines [] sect_edits sect_after [1%nat] /\
  clear_of DLine dkey sect_lines (lit "srv").
Proof.
  split; [apply sect_ok|]. split; [apply sect_distinct|]. split; [apply sect_plain|]. split; [|split; [exact sect_edited|]].
  - unfold sect_lines. all_filled dval.
  - intros n key v (l1 & nl & w0 & k & w1 & w2 & t & w3 & c & l2 & E & _ & ->). unfold sect_lines in E.
    do 13 (destruct l1 as [|x l1]; [cbn [app] in E; injection E as; try discriminate; subst; clear_key|cbn [app] in E; injection E as <- E]).
    destruct l1; discriminate E.
Qed.
(** what the code does with it *)
Fixpoint set_all (s : pst) (us : list (str * value)) : res pst :=
  match us with
  | [] => Ok s
  | (k, v) :: us' => let? (s', b) := set_value s k v in if b then set_all s' us' else Panic
  end.
Example C70_sections_run : exists s s', parse (new_parser false) (lines_text sect_lines) = Ok (s, Full) /\ set_all s sect_edits = Ok s' /\
  show_parser s' = Ok (lines_text sect_after) /\ get_value s' (lit "ports[2]") = Ok (Some (VInteger (lit "3"))) /\
  get_value s' (lit "owner.pos.y[0]") = Ok (Some (VBoolean true)) /\ get_children s' (lit "srv") = Some (Count 2).
Proof. do 2 eexists. split; [vm_compute; reflexivity|]. split; [vm_compute; reflexivity|]. vm_compute. auto. Qed.

Definition dot_after : list (str * hline) :=
  [ ([], HPair [] (lit "top") (lit " ") (lit " ") (VBoolean true) (lit "true") [] None);
    ([10], HHead [] (lit " ") (lit "a") [(lit " ", lit " ", lit "b"); ([], [], lit "c")] (lit " ") [] None);
    ([10], HPair [] (lit "x") (lit " ") (lit " ") (VArray [VInteger (lit "9"); VInteger (lit "2")]) (lit "[9,2]") [] None);
    ([13; 10], HHead (lit "  ") [] (lit "a") [([], [], lit "b")] [] (lit " ") (Some (lit "inner")));
    ([10], HPair [] (lit "x") [] [] (VInlineTable [(lit "k", VInteger (lit "1"))]) (lit "{ k = 1 }") [] None);
    ([10], HHead [] [] (lit "a") [([], [], lit """d.e""")] [] [] None);
    ([10], HBlank [] None);
    ([10], HHead [] [] (lit "a") [] [] [] None);
    ([10], HPair [] (lit "x") [] [] (VInteger (lit "4")) (lit "4") [] None) ].
Lemma xs_respelled : respells (VArray [VInteger (lit "1"); VInteger (lit "2")]) (lit "[1,2]")
  (VArray [VInteger (lit "9"); VInteger (lit "2")]) (lit "[9,2]").
Proof.
  change (lit "[1,2]") with (lit "[" ++ [] ++ (lit "1" ++ [] ++ lit "," ++ [] ++ (lit "2" ++ [])) ++ lit "]").
  change (lit "[9,2]") with (lit "[" ++ [] ++ (lit "9" ++ [] ++ lit "," ++ [] ++ (lit "2" ++ [])) ++ lit "]").
  apply Rs_array; [some_gap| |].
  - apply Re_cons; [rscal|chars|some_gap|]. apply Re_last; [rscal|some_gap].
  - intros a b [<-|[<-|[]]] [<-|[<-|[]]]; reflexivity.
Qed.
Example C70_dotted_ex : hdoc_ok dot_lines /\ hdistinct (map snd dot_lines) /\ parents_empty (map snd dot_lines) /\
  (forall n key v, gives HPair hkey dot_lines n key v -> DocSpec.filled v) /\
  edits HPair hkey dot_lines [] [ (lit "a.b.c.x[0]", VInteger (lit "9")); (lit "a.b.x", VInlineTable [(lit "k", VInteger (lit "1"))]); (lit "a.x", VInteger (lit "4")) ]
    dot_after [4%nat].
Proof.
  split; [apply dot_ok|]. split; [apply dot_distinct|]. split; [apply dot_parents|]. split; [unfold dot_lines; all_filled hval|].
  apply (Ed_path HPair hkey (firstn 2 dot_lines) [10] [] (lit "x") (lit " ") (lit " ") (VArray [VInteger (lit "1"); VInteger (lit "2")]) (lit "[1,2]") [] None
    (skipn 3 dot_lines) [] [PIdx 0] (VInteger (lit "9")) (VInteger (lit "1")) (lit "[9,2]")).
  { right. intros []. } { repeat constructor. } { reflexivity. } { exact xs_respelled. }
  match goal with |- edits _ _ ?l _ _ _ _ => set (l1 := l) end.
  apply (Ed_new HPair hkey (firstn 4 l1) [10] [] (lit "x") [] [] (VInteger (lit "3")) (lit "3") [] None
    (skipn 5 l1) [] (VInlineTable [(lit "k", VInteger (lit "1"))]) (lit "{ k = 1 }")).
  { apply (Rm_table _ _ [lit "k = 1"]).
    - discriminate.
    - apply Forall2_cons; [|apply Forall2_nil]. cbn [fst snd]. split; [bare|]. exists (lit "1"). split; [scal|reflexivity].
    - repeat constructor; cbn [In]; auto.
    - intros H. inversion H. contradiction. }
  match goal with |- edits _ _ ?l _ _ _ _ => set (l2 := l) end.
  apply (Ed_path HPair hkey (firstn 8 l2) [10] [] (lit "x") [] [] (VBoolean true) (lit "true") [] None
    (skipn 9 l2) [4%nat] [] (VInteger (lit "4")) (VBoolean true) (lit "4")).
  { left. reflexivity. } { repeat constructor. } { reflexivity. } { cbn [put_at]. rscal. }
  apply Ed_none.
Qed.

(** the lines of [tree_lines] with other values in two of them *)
Definition tree_after : list (str * tline) := firstn 8 tree_lines ++
  (([10] : str), kv (lit "sizes") (VArray [VInteger (lit "9"); VInteger (lit "2")]) (lit "[9,2]")) :: skipn 9 (firstn 14 tree_lines) ++
  (([10] : str), kv (lit "id") (VArray [VBoolean true]) (lit "[true]")) :: skipn 15 tree_lines.
Example C70_nested_ex : exists v, tdoc_ok tree_lines /\ says (map snd tree_lines) = Some v /\ along_edge (map snd tree_lines) /\
  (forall n key x, gives tpair tkey tree_lines n key x -> DocSpec.filled x) /\
  edits tpair tkey tree_lines [] [ (lit "fruit[0].variety[1].sizes[0]", VInteger (lit "9")); (lit "fruit[1].variety[0].id", VArray [VBoolean true]) ]
    tree_after [14%nat].
Proof.
  eexists. split; [apply tree_ok|]. split; [vm_compute; reflexivity|]. split; [apply tree_edge|]. split; [unfold tree_lines; all_filled tval_of|].
  apply (Ed_path tpair tkey (firstn 8 tree_lines) [10] [] (lit "sizes") [] [] (VArray [VInteger (lit "1"); VInteger (lit "2")]) (lit "[1,2]") [] None
    (skipn 9 tree_lines) [] [PIdx 0] (VInteger (lit "9")) (VInteger (lit "1")) (lit "[9,2]")).
  { right. intros []. } { repeat constructor. } { reflexivity. } { exact xs_respelled. }
  match goal with |- edits _ _ ?l _ _ _ _ => set (l1 := l) end.
  apply (Ed_new tpair tkey (firstn 14 l1) [10] [] (lit "id") [] [] (VInteger (lit "5")) (lit "5") [] None
    (skipn 15 l1) [] (VArray [VBoolean true]) (lit "[true]")).
  { apply (Rm_array _ _ [lit "true"]).
    - repeat (apply Forall2_cons; [scal|]). apply Forall2_nil.
    - intros a b [<-|[]] [<-|[]]; reflexivity.
    - intros H. inversion H. contradiction. }
  apply Ed_none.
Qed.

(** after a = {x = 1} has got the value {y = 2} there are still two children *)
Theorem C70_session_refuted : exists us s s' s2, parse (new_parser true) (lit "a = {x = 1}") = Ok (s, Full) /\ sets s us s' /\
  show_parser s' = Ok (lit "a = { y = 2 }") /\ parse (new_parser true) (lit "a = { y = 2 }") = Ok (s2, Full) /\
  get_children s' (lit "a") = Some (Keys [lit "x"; lit "y"]) /\ get_children s2 (lit "a") = Some (Keys [lit "y"]).
Proof.
  exists [(lit "a", VInlineTable [(lit "y", VInteger (lit "2"))])]. do 3 eexists. split; [vm_compute; reflexivity|].
  split; [eapply Se_one; [vm_compute; reflexivity|apply Se_none]|]. vm_compute. auto.
Qed.
Print Assumptions C70_session_refuted.
