(** * Arrays of tables side by side: theorems *)
From Coq Require Import Lia ZifyBool ZifyNat ZifyN.
From Verif Require Import Str Regex Types Ast State Nom Keys Grammar Api Facts Spec ApiSpec.
From Verif Require Import TypesFacts DateFacts NumFacts StringFacts ScalarFacts FlatFacts PropTypes PropFlat DocSpec PropNest DotSpec DotFacts.
From Verif Require Import TreeSpec TreeView TreeFacts PropTree SibSpec SibFacts.

(** ** C17: arrays of tables whose headers come in any order, e.g. [[a]], [[b]], [[a]],
    with tables in their elements: every array has as many elements as there are
    headers of its name, each element has the keys below its own header and no
    other, and every key is found at its element. Missing: headers whose name
    continues that of the array before ([C17_prefix_refuted]), and tables at the top
    between headers of one array ([C60_lost_refuted]). *)
Theorem C17_any_order_partial : forall ovf ls v, tdoc_ok ls -> says (map snd ls) = Some v -> side_by_side (map snd ls) ->
  exists s, parse (new_parser ovf) (tdoc_text ls) = Ok (s, Full) /\
    (forall n i k x, In ([PKey n; PIdx i], k, x) v.(w_entries) -> get_value s (n ++ lit "[" ++ dec i ++ lit "]." ++ k) = Ok (Some x)) /\
    (forall n i, i < times n (top_arrays (map snd ls)) ->
       get_children s n = Some (Count (times n (top_arrays (map snd ls)))) /\
       get_children s (n ++ lit "[" ++ dec i ++ lit "]") = Some (Keys (names_at [PKey n; PIdx i] v.(w_names)))) /\
    (forall n i t k x, In ([PKey n; PIdx i; PKey t], k, x) v.(w_entries) ->
       get_value s (n ++ lit "[" ++ dec i ++ lit "]." ++ t ++ lit "." ++ k) = Ok (Some x)) /\
    (forall x w, get_value s x = Ok (Some w) ->
       exists q k y r, In (q, k, y) v.(w_entries) /\ at_path y r = Some w /\ x = place_text (q ++ PKey k :: r)).
Proof.
  intros ovf ls v OK SY SB. destruct (C60_nested_partial ovf ls v OK SY (side_edge _ _ SY SB)) as (s & P & V & E & T & _ & _ & F & _).
  exists s. split; auto. split; [|split; [|split; [|exact F]]].
  - intros n i k x I. destruct (V _ k x [] I) as [G _]; [constructor|]. change (Ok (Some x)) with (Ok (at_path x [])). rewrite <- G. f_equal. unfold place_text, path_text. cbn [app map concat step_text].
    rewrite app_nil_r, <- !app_assoc. reflexivity.
  - intros n i LT. rewrite <- (tops_count _ _ n SY) in LT. pose proof (elems_full _ _ SY _ _ LT) as I. destruct (E _ _ I) as (A & B & _).
    rewrite (tops_count _ _ n SY) in A. unfold place_text, path_text in A, B. cbn [app map concat step_text] in A, B.
    rewrite app_nil_r in A, B. split; [exact A|exact B].
  - intros n i t k x I. destruct (V _ k x [] I) as [G _]; [constructor|]. change (Ok (Some x)) with (Ok (at_path x [])). rewrite <- G. f_equal. unfold place_text, path_text. cbn [app map concat step_text].
    rewrite app_nil_r, <- !app_assoc. reflexivity.
Qed.
Print Assumptions C17_any_order_partial.

(** [t], x = 1, [[a]], i = 1, [[b]], i = 2, [b.c], i = 3, [[a]], i = 4, [[b]], [[b]], i = 5 *)
Definition sib_lines : list (str * tline) :=
  [ ([], tab [lit "t"]); ([10], int1 (lit "x")); ([10], arr [lit "a"]); ([10], int1 (lit "i")); ([10], arr [lit "b"]); ([10], int1 (lit "i"));
    ([10], tab [lit "b"; lit "c"]); ([10], int1 (lit "i")); ([10], arr [lit "a"]); ([10], int1 (lit "i")); ([10], arr [lit "b"]); ([10], arr [lit "b"]);
    ([10], int1 (lit "i")) ].
Ltac side_one := first [exact I | left; split; reflexivity | right; eexists [_]; split; reflexivity | right; eexists [_; _]; split; reflexivity
  | split; [reflexivity|]; intros f x r F;
    repeat (destruct x as [|? x]; cbn [app] in F; [first [discriminate F|injection F; intros; subst; first [left; reflexivity|right; discriminate]]|first [discriminate F|injection F as _ F]]) ].
Example C17_any_order_partial_ex : tdoc_ok sib_lines /\ side_by_side (map snd sib_lines) /\
  exists v, says (map snd sib_lines) = Some v /\ In ([PKey (lit "b"); PIdx 2], lit "i", VInteger (lit "1")) v.(w_entries) /\
    In ([PKey (lit "b"); PIdx 0; PKey (lit "c")], lit "i", VInteger (lit "1")) v.(w_entries) /\ times (lit "b") (top_arrays (map snd sib_lines)) = 3.
Proof.
  split; [unfold sib_lines, arr, tab, int1; cbn [hd tl map]; tlines|]. split.
  - intros l1 d l2 E. unfold sib_lines, arr, tab, int1, kv in E. cbn [hd tl map snd] in E.
    do 13 (destruct l1 as [|? l1]; [injection E as <- _; cbn; side_one|injection E as <- E]). destruct l1; discriminate E.
  - eexists. split; [vm_compute; reflexivity|]. vm_compute. auto 20.
Qed.
