(** Properties of documents with arrays of tables inside arrays of tables. *)
From Coq Require Import Lia ZifyBool ZifyNat ZifyN.
From Verif Require Import Str Regex Types Ast State Nom Keys Grammar Api Facts Spec ApiSpec.
From Verif Require Import TypesFacts DateFacts NumFacts StringFacts ScalarFacts FlatFacts PropTypes PropFlat DocSpec PropNest DotSpec DotFacts.
From Verif Require Import TreeSpec TreeView TreeFacts.

(** C60. The full statement is the one below without [along_edge], and with the
    names of [w_names] at the top also when there is a table in another table or in
    an element. It does not hold of the code: see [C60_siblings_refuted],
    [C60_reopened_refuted], [C60_returned_refuted], [C60_lost_refuted],
    [C60_prefix_refuted] and [C60_top_refuted]. *)
Theorem C60_nested_partial : forall ovf ls v, tdoc_ok ls -> says (map snd ls) = Some v -> along_edge (map snd ls) ->
  exists s, parse (new_parser ovf) (tdoc_text ls) = Ok (s, Full) /\
    (forall q k x r, In (q, k, x) v.(w_entries) -> good_path r ->
       get_value s (place_text (q ++ PKey k :: r)) = Ok (at_path x r) /\
       get_children s (place_text (q ++ PKey k :: r)) = option_map kids_of (at_path x r)) /\
    (forall a i, In (a, i) v.(w_elems) ->
       get_children s (place_text a) = Some (Count (elem_count a v.(w_elems))) /\
       get_children s (place_text (a ++ [PIdx i])) = Some (Keys (names_at (a ++ [PIdx i]) v.(w_names))) /\
       get_value s (place_text a) = Ok None /\ get_value s (place_text (a ++ [PIdx i])) = Ok None) /\
    (forall q, In q v.(w_tables) ->
       get_children s (place_text q) = Some (Keys (names_at q v.(w_names))) /\ get_value s (place_text q) = Panic) /\
    get_children s [] = Some (Keys (first_keys [] (listed true (map snd ls)))) /\
    (short_heads (map snd ls) -> get_children s [] = Some (Keys (names_at [] v.(w_names)))) /\
    (forall x w, get_value s x = Ok (Some w) ->
       exists q k y r, In (q, k, y) v.(w_entries) /\ at_path y r = Some w /\ x = place_text (q ++ PKey k :: r)) /\
    (forall x ch, get_children s x = Some ch ->
       x = [] \/ x = root_key \/ (exists q, In q v.(w_tables) /\ x = place_text q) \/
       (exists a i, In (a, i) v.(w_elems) /\ (x = place_text a \/ x = place_text (a ++ [PIdx i]))) \/
       exists q k y r w, In (q, k, y) v.(w_entries) /\ at_path y r = Some w /\ x = place_text (q ++ PKey k :: r)).
Proof.
  intros ovf ls v OK SA AE. destruct (tdoc_parse ovf ls v OK SA AE) as (s & P & VO & MI & _). fold (tbody ls) in *. exists s. split; auto.
  split; [intros q k x r I G; eapply tlook_value; eauto|].
  split.
  { intros a i I. destruct (tlook_array _ _ _ _ a i VO MI I) as [A B].
    destruct (tlook_spot _ _ _ _ (a ++ [PIdx i]) VO MI (Sp_elem _ _ _ I) (snoc_place _ _)) as (C & _ & D). repeat split; auto.
    apply D. intros X. destruct (vo_tables _ VO _ X) as (q & n & E & _). apply app_inj_tail in E as [_ E]. discriminate E. }
  split.
  { intros q I. destruct (tknown_good v q VO (TK_tab _ _ I)) as [_ NQ]. destruct (tlook_spot _ _ _ _ q VO MI (Sp_tab _ _ I) NQ) as (A & B & _). auto. }
  split; [eapply tlook_root; eauto|].
  split; [intros SH; rewrite (tlook_root _ _ _ _ MI), (ti_names _ _ (top_says _ _ SA) SH); reflexivity|].
  split; [intros x w H; eapply tlook_only_value; eauto|].
  intros x ch H. destruct (tlook_only _ _ _ _ _ _ MI H) as [C|[C|(y & K & ->)]]; auto. right; right.
  destruct K as [q I|a i I|a i I|q k y r w I G W].
  - left; eauto.
  - right; left; exists a, i; auto.
  - right; left; exists a, i; auto.
  - right; right. exists q, k, y, r, w. auto.
Qed.
Print Assumptions C60_nested_partial.

(** arrays and tables in arrays, then more elements of the arrays *)
Definition kv (k : str) (x : value) (t : str) : tline := TPlain (HPair [] k [] [] x t [] None).
Definition tree_lines : list (str * tline) :=
  [ ([], TPlain (HPair [] (lit "title") (lit " ") (lit " ") (VBoolean true) (lit "true") [] None));
    ([10], TArr [] [] (lit "fruit") [] [] [] None);
    ([10], kv (lit "id") (VInteger (lit "1")) (lit "1"));
    ([10], TPlain (HHead (lit "  ") [] (lit "fruit") [([], [], lit "physical")] [] [] None));
    ([10], kv (lit "id") (VInteger (lit "2")) (lit "2"));
    ([13; 10], TArr (lit "  ") (lit " ") (lit "fruit") [(lit " ", [], lit "variety")] [] (lit " ") (Some (lit "in the first fruit")));
    ([10], kv (lit "id") (VInteger (lit "3")) (lit "3"));
    ([10], TArr [] [] (lit "fruit") [([], [], lit "variety")] [] [] None);
    ([10], kv (lit "sizes") (VArray [VInteger (lit "1"); VInteger (lit "2")]) (lit "[1,2]"));
    ([10], TArr [] [] (lit "fruit") [([], [], lit "variety"); ([], [], lit """seed[0]""")] [] [] None);
    ([10], kv (lit "id") (VInteger (lit "4")) (lit "4"));
    ([10], TPlain (HBlank [] None));
    ([10], TArr [] [] (lit "fruit") [] [] [] None);
    ([10], TArr [] [] (lit "fruit") [([], [], lit "variety")] [] [] None);
    ([10], kv (lit "id") (VInteger (lit "5")) (lit "5"));
    ([10], TArr [] [] (lit "shop") [] [] [] None);
    ([10], kv (lit "id") (VInteger (lit "6")) (lit "6"));
    ([10], TPlain (HHead [] [] (lit "owner") [] [] [] None));
    ([10], kv (lit "id") (VInteger (lit "7")) (lit "7")) ].
Lemma tarr_spells : spells (VArray [VInteger (lit "1"); VInteger (lit "2")]) (lit "[1,2]").
Proof.
  change (lit "[1,2]") with (lit "[" ++ [] ++ (lit "1" ++ [] ++ lit "," ++ [] ++ (lit "2" ++ [])) ++ lit "]").
  apply Sp_array; [nogap| |].
  - apply El_cons; [ints|chars|nogap|]. apply El_last; [ints|nogap].
  - intros a b [<-|[<-|[]]] [<-|[<-|[]]]; reflexivity.
Qed.
Ltac tline := unfold kv; cbn [tline_ok hline_ok]; repeat match goal with |- _ /\ _ => split end;
  try solve [chars|bare|exact I|ints|apply Sp_scalar, Sc_true|exact tarr_spells];
  repeat apply Forall_cons; try apply Forall_nil; cbn [fst snd]; repeat match goal with |- _ /\ _ => split end; solve [chars|bare].
Ltac tlines := unfold tdoc_ok; split; [reflexivity|]; split; [tline|];
  repeat apply Forall_cons; try apply Forall_nil; cbn [fst snd]; (split; [unfold line_end; auto|tline]).
Lemma tree_ok : tdoc_ok tree_lines.
Proof. unfold tree_lines. tlines. Qed.
Lemma along_by_line : forall l, (forall i, match nth_error l i, says (firstn i l) with
    | Some d, Some v => at_edge v (opened_arrays [] (firstn i l)) (strayed [] [] false (firstn i l)) d | _, _ => True end) -> along_edge l.
Proof.
  intros l H l1 d l2 v E SA. specialize (H (length l1)).
  rewrite E, nth_error_app2, Nat.sub_diag in H by lia. cbn [nth_error] in H.
  rewrite firstn_app, Nat.sub_diag, firstn_all in H. cbn [firstn] in H. rewrite app_nil_r, SA in H. exact H.
Qed.
Ltac notin := let H := fresh in vm_compute; intros H; repeat (destruct H as [H|H]; [discriminate H|]); exact H.
Ltac nopre := let f := fresh in let x := fresh in let r := fresh in let H := fresh in let K := fresh in
  intros f x r H; first [vm_compute in H; discriminate H
    |intros K; vm_compute in H; injection H as <- <-; vm_compute in K; discriminate K
    |left; split; [vm_compute in H; injection H as <- <-; reflexivity|do 2 eexists; vm_compute; reflexivity]
    |right; intros K; vm_compute in H; injection H as <- <-; vm_compute in K; discriminate K].
Ltac edge := cbn [nth_error map snd tree_lines];
  match goal with |- match ?g with _ => _ end => let g' := eval vm_compute in g in change g with g'; cbv iota beta end;
  cbn [firstn opened_arrays]; unfold kv; cbn [opened_arrays at_edge];
  first [exact I
        |left; split; [eexists; vm_compute; reflexivity|let H := fresh in intros H; first [reflexivity|vm_compute in H; discriminate H]]
        |right; left; do 2 eexists; split; [vm_compute; reflexivity|]; split; [vm_compute; reflexivity|notin]
        |right; right; left; split; [reflexivity|]; split; [notin|nopre]
        |right; right; right; split; [reflexivity|]; split; [vm_compute; reflexivity|]; split; [discriminate|nopre]
        |split; [eexists; split; [vm_compute; reflexivity|nopre]|let H := fresh in intros H; first [cbn [length]; repeat constructor|vm_compute in H; discriminate H]] ].
Lemma tree_edge : along_edge (map snd tree_lines).
Proof.
  apply along_by_line. intros i.
  do 19 (destruct i as [|i]; [try edge|]). destruct i; exact I.
Qed.
Example C60_ex : exists v, tdoc_ok tree_lines /\ says (map snd tree_lines) = Some v /\ along_edge (map snd tree_lines) /\
  In ([PKey (lit "fruit"); PIdx 0; PKey (lit "variety"); PIdx 1], lit "sizes", VArray [VInteger (lit "1"); VInteger (lit "2")]) v.(w_entries) /\
  place_text ([PKey (lit "fruit"); PIdx 0; PKey (lit "variety"); PIdx 1] ++ PKey (lit "sizes") :: [PIdx 1]) = lit "fruit[0].variety[1].sizes[1]" /\
  In ([PKey (lit "fruit"); PIdx 0; PKey (lit "variety"); PIdx 1; PKey (lit """seed[0]"""); PIdx 0], lit "id", VInteger (lit "4")) v.(w_entries) /\
  In ([PKey (lit "fruit"); PIdx 1; PKey (lit "variety"); PIdx 0], lit "id", VInteger (lit "5")) v.(w_entries) /\
  In ([PKey (lit "fruit"); PIdx 0; PKey (lit "physical")], lit "id", VInteger (lit "2")) v.(w_entries) /\
  elem_count [PKey (lit "fruit")] v.(w_elems) = 2 /\ elem_count [PKey (lit "fruit"); PIdx 0; PKey (lit "variety")] v.(w_elems) = 2 /\
  names_at [PKey (lit "fruit"); PIdx 0] v.(w_names) = [lit "id"; lit "physical"; lit "variety"] /\
  names_at [PKey (lit "fruit"); PIdx 0; PKey (lit "variety"); PIdx 1] v.(w_names) = [lit "sizes"; lit """seed[0]"""].
Proof.
  eexists. split; [exact tree_ok|]. split; [vm_compute; reflexivity|]. split; [exact tree_edge|].
  cbn [w_entries w_elems w_names]. repeat match goal with |- _ /\ _ => split end; vm_compute; auto 20.
Qed.
(** what the parser does with it *)
Example C60_ex_run : exists s, parse (new_parser false) (tdoc_text tree_lines) = Ok (s, Full) /\
  get_value s (lit "fruit[0].variety[1].sizes[1]") = Ok (Some (VInteger (lit "2"))) /\
  get_value s (lit "fruit[0].variety[1].""seed[0]""[0].id") = Ok (Some (VInteger (lit "4"))) /\
  get_value s (lit "fruit[1].variety[0].id") = Ok (Some (VInteger (lit "5"))) /\
  get_children s (lit "fruit[0].variety") = Some (Count 2) /\ get_children s (lit "fruit[0].variety[2]") = None.
Proof. eexists. split; [vm_compute; reflexivity|]. vm_compute. auto. Qed.

(** [[f]], [[f.v]], [[f.w]]: the parser panics *)
Definition arr (names : list str) : tline := TArr [] [] (hd [] names) (map (fun n => ([], [], n)) (tl names)) [] [] None.
Definition tab (names : list str) : tline := TPlain (HHead [] [] (hd [] names) (map (fun n => ([], [], n)) (tl names)) [] [] None).
Definition int1 (k : str) : tline := kv k (VInteger (lit "1")) (lit "1").
Definition tree_siblings : list (str * tline) :=
  [ ([], arr [lit "f"]); ([10], arr [lit "f"; lit "v"]); ([10], arr [lit "f"; lit "w"]) ].
Theorem C60_siblings_refuted : exists ls v, tdoc_ok ls /\ says (map snd ls) = Some v /\
  forall ovf, parse (new_parser ovf) (tdoc_text ls) = Panic.
Proof.
  exists tree_siblings. eexists. split; [|split; [vm_compute; reflexivity|intros []; vm_compute; reflexivity]].
  unfold tree_siblings, arr. cbn [hd tl map]. tlines.
Qed.
Print Assumptions C60_siblings_refuted.

(** [[f]], [[f.v]], a = 1, [f.t], [[f.v]], b = 1: the second element of f[0].v takes
    the place of the first *)
Definition tree_reopened : list (str * tline) :=
  [ ([], arr [lit "f"]); ([10], arr [lit "f"; lit "v"]); ([10], int1 (lit "a")); ([10], tab [lit "f"; lit "t"]);
    ([10], arr [lit "f"; lit "v"]); ([10], int1 (lit "b")) ].
Theorem C60_reopened_refuted : exists ls v a q, tdoc_ok ls /\ says (map snd ls) = Some v /\
  In (a, 1) v.(w_elems) /\ elem_count a v.(w_elems) = 2 /\ In (q, lit "b", VInteger (lit "1")) v.(w_entries) /\
  forall ovf, exists s, parse (new_parser ovf) (tdoc_text ls) = Ok (s, Full) /\
    get_children s (place_text a) = Some (Count 1) /\ get_value s (place_text (q ++ [PKey (lit "b")])) = Ok None.
Proof.
  exists tree_reopened. eexists. exists [PKey (lit "f"); PIdx 0; PKey (lit "v")], [PKey (lit "f"); PIdx 0; PKey (lit "v"); PIdx 1].
  split; [|split; [vm_compute; reflexivity|split; [vm_compute; auto|split; [vm_compute; reflexivity|split; [vm_compute; auto|]]]]].
  - unfold tree_reopened, arr, tab, int1. cbn [hd tl map]. tlines.
  - intros []; (eexists; split; [vm_compute; reflexivity|]); vm_compute; auto.
Qed.
Print Assumptions C60_reopened_refuted.

(** [[f]], a = 1, [[f]], [[g]], [[g.h]], [[f]], b = 1, [f.t], [[f]], [[f.h]], [[g]]:
    these ways back to f and g are read as they should be *)
Definition tree_back : list (str * tline) :=
  [ ([], arr [lit "f"]); ([10], int1 (lit "a")); ([10], arr [lit "f"]); ([10], arr [lit "g"]); ([10], arr [lit "g"; lit "h"]);
    ([10], arr [lit "f"]); ([10], int1 (lit "b")); ([10], tab [lit "f"; lit "t"]); ([10], arr [lit "f"]); ([10], arr [lit "f"; lit "h"]); ([10], arr [lit "g"]);
    ([10], arr [lit "g"; lit "h"]); ([10], arr [lit "g"; lit "h"]) ].
Example C60_back_ex : exists v, tdoc_ok tree_back /\ says (map snd tree_back) = Some v /\ along_edge (map snd tree_back) /\
  elem_count [PKey (lit "f")] v.(w_elems) = 4 /\ In ([PKey (lit "f"); PIdx 2], lit "b", VInteger (lit "1")) v.(w_entries) /\
  elem_count [PKey (lit "g"); PIdx 1; PKey (lit "h")] v.(w_elems) = 2.
Proof.
  eexists. split; [|split; [vm_compute; reflexivity|split; [|split; [vm_compute; reflexivity|vm_compute; auto]]]].
  - unfold tree_back, arr, tab, int1. cbn [hd tl map]. tlines.
  - apply along_by_line. intros i. unfold tree_back, arr, tab, int1. cbn [hd tl map]. do 13 (destruct i as [|i]; [edge|]). destruct i; exact I.
Qed.
(** [[f]], [[f]], [[g]], [[f]], [[f.h]], a = 1, [[f.h]], b = 1: after the way back to
    f, the second element of f[2].h takes the place of the first *)
Definition tree_returned : list (str * tline) :=
  [ ([], arr [lit "f"]); ([10], arr [lit "f"]); ([10], arr [lit "g"]); ([10], arr [lit "f"]); ([10], arr [lit "f"; lit "h"]); ([10], int1 (lit "a"));
    ([10], arr [lit "f"; lit "h"]); ([10], int1 (lit "b")) ].
Theorem C60_returned_refuted : exists ls v, tdoc_ok ls /\ says (map snd ls) = Some v /\
  elem_count [PKey (lit "f"); PIdx 2; PKey (lit "h")] v.(w_elems) = 2 /\
  In ([PKey (lit "f"); PIdx 2; PKey (lit "h"); PIdx 1], lit "b", VInteger (lit "1")) v.(w_entries) /\
  forall ovf, exists s, parse (new_parser ovf) (tdoc_text ls) = Ok (s, Full) /\
    get_children s (lit "f[2].h") = Some (Count 1) /\ get_value s (lit "f[2].h[1].b") = Ok None /\
    get_children s (lit "f[2].h[0]") = Some (Keys [lit "b"]).
Proof.
  exists tree_returned. eexists. split; [|split; [vm_compute; reflexivity|split; [vm_compute; reflexivity|split; [vm_compute; auto|]]]].
  - unfold tree_returned, arr, int1. cbn [hd tl map]. tlines.
  - intros []; (eexists; split; [vm_compute; reflexivity|]); vm_compute; auto 10.
Qed.
Print Assumptions C60_returned_refuted.
(** [[f]], a = 1, [t], [[f]], b = 1: the second element of f takes the place of the
    first, and f has one element *)
Definition tree_lost : list (str * tline) :=
  [ ([], arr [lit "f"]); ([10], int1 (lit "a")); ([10], tab [lit "t"]); ([10], arr [lit "f"]); ([10], int1 (lit "b")) ].
Theorem C60_lost_refuted : exists ls v, tdoc_ok ls /\ says (map snd ls) = Some v /\
  elem_count [PKey (lit "f")] v.(w_elems) = 2 /\ In ([PKey (lit "f"); PIdx 1], lit "b", VInteger (lit "1")) v.(w_entries) /\
  forall ovf, exists s, parse (new_parser ovf) (tdoc_text ls) = Ok (s, Full) /\
    get_children s (lit "f") = Some (Count 1) /\ get_value s (lit "f[1].b") = Ok None /\
    get_children s (lit "f[0]") = Some (Keys [lit "b"]) /\ get_value s (lit "f[0].b") = Ok (Some (VInteger (lit "1"))).
Proof.
  exists tree_lost. eexists. split; [|split; [vm_compute; reflexivity|split; [vm_compute; reflexivity|split; [vm_compute; auto|]]]].
  - unfold tree_lost, arr, tab, int1. cbn [hd tl map]. tlines.
  - intros []; (eexists; split; [vm_compute; reflexivity|]); vm_compute; auto 10.
Qed.
Print Assumptions C60_lost_refuted.

(** [[f]], [f.t], [f2], a = 1: the table f2 is stored in the element f[0] *)
Definition tree_prefix : list (str * tline) :=
  [ ([], arr [lit "f"]); ([10], tab [lit "f"; lit "t"]); ([10], tab [lit "f2"]); ([10], int1 (lit "a")) ].
Theorem C60_prefix_refuted : exists ls v, tdoc_ok ls /\ says (map snd ls) = Some v /\
  In ([PKey (lit "f2")], lit "a", VInteger (lit "1")) v.(w_entries) /\
  forall ovf, exists s, parse (new_parser ovf) (tdoc_text ls) = Ok (s, Full) /\
    get_value s (lit "f2.a") = Ok None /\ get_value s (lit "f[0].f2.a") = Ok (Some (VInteger (lit "1"))).
Proof.
  exists tree_prefix. eexists. split; [|split; [vm_compute; reflexivity|split; [vm_compute; auto|]]].
  - unfold tree_prefix, arr, tab, int1. cbn [hd tl map]. tlines.
  - intros []; (eexists; split; [vm_compute; reflexivity|]); vm_compute; auto.
Qed.
Print Assumptions C60_prefix_refuted.

(** [[f]], [f.t]: the name t is listed at the top *)
Definition tree_top : list (str * tline) := [ ([], arr [lit "f"]); ([10], tab [lit "f"; lit "t"]) ].
Theorem C60_top_refuted : exists ls v, tdoc_ok ls /\ says (map snd ls) = Some v /\ along_edge (map snd ls) /\
  names_at [] v.(w_names) = [lit "f"] /\
  forall ovf, exists s, parse (new_parser ovf) (tdoc_text ls) = Ok (s, Full) /\ get_children s [] = Some (Keys [lit "f"; lit "t"]).
Proof.
  exists tree_top. eexists. split; [|split; [vm_compute; reflexivity|split; [|split; [vm_compute; reflexivity|]]]].
  - unfold tree_top, arr, tab. cbn [hd tl map]. tlines.
  - apply along_by_line. intros i. unfold tree_top, arr, tab. cbn [hd tl map]. do 2 (destruct i as [|i]; [edge|]). destruct i; exact I.
  - intros []; (eexists; split; [vm_compute; reflexivity|]); vm_compute; auto.
Qed.
Print Assumptions C60_top_refuted.
