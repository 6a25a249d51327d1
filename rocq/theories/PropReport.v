(** * The reported line, for every input: theorems *)
From Coq Require Import Lia ZifyBool ZifyNat ZifyN.
From Verif Require Import Str Regex Types Ast State Nom Keys Grammar Api Spec HeadSpec CountFacts ReportFacts.

(** ** C07: for every input that is parsed only partially, the reported line and
    the line ends between the elements of arrays and inline tables that were read
    add up to a line of the input that is not before the one where parsing stopped.
    It is that line, unless the unparsed rest starts with a key and an array or
    inline table, and has three quotes in a row. Missing: the claim is false as
    stated, in both directions ([C07_line_refuted], [C07_later_refuted]). *)
Theorem C07_bounds_partial : forall ovf i s r n, parse (new_parser ovf) i = Ok (s, r) -> reports r n ->
  exists pre, i = pre ++ s.(p_leftover) /\
    1 + line_feeds pre <= n + doc_layout_lines s.(p_root) <= 1 + line_feeds i /\
    ((starts_nested s.(p_leftover) -> ~ tripled s.(p_leftover)) -> n + doc_layout_lines s.(p_root) = 1 + line_feeds pre).
Proof. exact reported_any. Qed.
Print Assumptions C07_bounds_partial.

(** an array that is not closed, with line ends and strings *)
Example C07_bounds_partial_ex :
  let left := lit "c = [[1," ++ [10] ++ lit "2], ['x'," ++ [10] ++ lit "#" ++ [10] ++ lit "!" in
  let i := lit "a = [1," ++ [10] ++ lit "2]" ++ [10] ++ lit "b = '''x" ++ [10] ++ lit "y'''" ++ [10] ++ left in
  exists s, parse (new_parser true) i = Ok (s, Partial [] 4) /\ s.(p_leftover) = left /\ starts_nested left /\ ~ tripled left /\
    doc_layout_lines s.(p_root) = 1.
Proof.
  cbv zeta. eexists. split; [vm_compute; reflexivity|]. split; [vm_compute; reflexivity|]. split; [|split; [|vm_compute; reflexivity]].
  - exists (lit "c"), (lit " "), (lit " "), 91. eexists. split; [cbn; reflexivity|].
    split; [|split; [|split; [|auto]]].
    + left. split; [discriminate|]. constructor; [unfold bare_char; cbn; lia|constructor].
    + constructor; [auto|constructor].
    + constructor; [auto|constructor].
  - intros (a & b & q & E & Q). vm_compute in E.
    repeat (destruct a as [|? a]; cbn [app] in E; [exfalso; inversion E; subst; destruct Q; discriminate|injection E as _ E]).
    destruct a; discriminate.
Qed.

(** ** C07: false as stated: the line ends of a multi-line string are counted
    though the array that holds it is not read *)
Theorem C07_later_refuted : exists s,
  parse (new_parser true) (lit "a = ['''" ++ [10; 10] ++ lit "''' !") = Ok (s, Partial [] 3) /\
  s.(p_leftover) = lit "a = ['''" ++ [10; 10] ++ lit "''' !".
Proof. eexists. vm_compute. split; reflexivity. Qed.
Print Assumptions C07_later_refuted.
