(** Properties of documents whose table headers have dotted names. *)
From Coq Require Import Lia ZifyBool ZifyNat ZifyN.
From Verif Require Import Str Regex Types Ast State Nom Keys Grammar Api Facts Spec ApiSpec.
From Verif Require Import TypesFacts DateFacts NumFacts StringFacts ScalarFacts FlatFacts PropTypes PropFlat DocSpec PropNest DotSpec DotFacts.

(** C49. The full statement is the one below without [parents_empty]; it does
    not hold of the code, see [C49_dotted_refuted]. *)
Theorem C49_dotted_partial : forall ovf ls, hdoc_ok ls -> hdistinct (map snd ls) -> parents_empty (map snd ls) ->
  exists s, parse (new_parser ovf) (hdoc_text ls) = Ok (s, Full) /\
    (forall p k v r, In (p, k, v) (entries (map snd ls)) -> good_path r ->
       get_value s (dotted_name (p ++ [k]) ++ path_text r) = Ok (at_path v r) /\
       get_children s (dotted_name (p ++ [k]) ++ path_text r) = option_map kids_of (at_path v r)) /\
    get_children s [] = Some (Keys (table_keys [] (map snd ls))) /\
    (forall q, q <> [] -> table_of (map snd ls) q ->
       get_children s (dotted_name q) = Some (Keys (table_keys q (map snd ls))) /\
       (In q (heads (map snd ls)) -> get_value s (dotted_name q) = Panic) /\
       (~ In q (heads (map snd ls)) -> get_value s (dotted_name q) = Ok None)) /\
    (forall x w, get_value s x = Ok (Some w) ->
       exists p k v r, In (p, k, v) (entries (map snd ls)) /\ at_path v r = Some w /\ x = dotted_name (p ++ [k]) ++ path_text r) /\
    (forall x ch, get_children s x = Some ch ->
       x = [] \/ x = root_key \/ (exists q, q <> [] /\ table_of (map snd ls) q /\ x = dotted_name q) \/
       exists p k v r w, In (p, k, v) (entries (map snd ls)) /\ at_path v r = Some w /\ x = dotted_name (p ++ [k]) ++ path_text r).
Proof.
  intros ovf ls OK DS PH. destruct (hdoc_parse ovf ls OK DS PH) as (s & P & MI & _). fold (hbody ls) in *. exists s. split; auto.
  assert (B : hbare (hbody ls)) by (apply hok_bare, hdoc_lines; auto).
  split; [intros p k v r I G; eapply hlook_value; eauto|]. split; [eapply hlook_root; eauto|].
  split; [intros q N T; eapply hlook_table; eauto|]. split.
  - intros x w H. destruct (hlook_only_value _ _ _ _ _ B DS MI H) as (p & k & v & r & I & _ & A & E). exists p, k, v, r. auto.
  - intros x ch H. destruct (hlook_only _ _ _ _ _ MI H) as [C|[C|[C|(p & k & v & r & w & I & _ & A & E)]]]; auto.
    right; right; right. exists p, k, v, r, w. auto.
Qed.
Print Assumptions C49_dotted_partial.

(** [ a . b.c ] with a key, then [a.b] and [a] after it, and another subtable *)
Definition dot_lines : list (str * hline) :=
  [ ([], HPair [] (lit "top") (lit " ") (lit " ") (VBoolean true) (lit "true") [] None);
    ([10], HHead [] (lit " ") (lit "a") [(lit " ", lit " ", lit "b"); ([], [], lit "c")] (lit " ") [] None);
    ([10], HPair [] (lit "x") (lit " ") (lit " ") (VArray [VInteger (lit "1"); VInteger (lit "2")]) (lit "[1,2]") [] None);
    ([13; 10], HHead (lit "  ") [] (lit "a") [([], [], lit "b")] [] (lit " ") (Some (lit "inner")));
    ([10], HPair [] (lit "x") [] [] (VInteger (lit "3")) (lit "3") [] None);
    ([10], HHead [] [] (lit "a") [([], [], lit """d.e""")] [] [] None);
    ([10], HBlank [] None);
    ([10], HHead [] [] (lit "a") [] [] [] None);
    ([10], HPair [] (lit "x") [] [] (VBoolean true) (lit "true") [] None) ].
Lemma dot_ok : hdoc_ok dot_lines.
Proof.
  unfold dot_lines, hdoc_ok. split; [reflexivity|]. split.
  { cbn [hline_ok]; repeat match goal with |- _ /\ _ => split end; try solve [chars|bare|exact I|apply Sp_scalar, Sc_true]. }
  repeat apply Forall_cons; [..|apply Forall_nil]; cbn [fst snd]; (split; [unfold line_end; auto|]);
    cbn [hline_ok]; repeat match goal with |- _ /\ _ => split end; try solve [chars|bare|exact I|ints|apply Sp_scalar, Sc_true];
    try (repeat apply Forall_cons; [..|apply Forall_nil]; cbn [fst snd]; repeat match goal with |- _ /\ _ => split end; solve [chars|bare]).
  change (lit "[1,2]") with (lit "[" ++ [] ++ (lit "1" ++ [] ++ lit "," ++ [] ++ (lit "2" ++ [])) ++ lit "]").
  apply Sp_array; [nogap| |].
  - apply El_cons; [ints|chars|nogap|]. apply El_last; [ints|nogap].
  - intros a b [<-|[<-|[]]] [<-|[<-|[]]]; reflexivity.
Qed.
Lemma dot_distinct : hdistinct (map snd dot_lines).
Proof.
  constructor.
  - vm_compute. repeat constructor; cbn [In]; intros H; repeat destruct H as [H|H]; try discriminate; auto.
  - vm_compute. repeat constructor; cbn [In]; intros H; repeat destruct H as [H|H]; try discriminate; auto.
  - intros p k v H [x T]. vm_compute in H, T.
    repeat destruct H as [H|H]; try contradiction; inversion H; subst; repeat destruct T as [T|T]; try contradiction; discriminate.
Qed.
Lemma parents_by_line : forall l, (forall i, match nth_error l i with
    | Some (HHead _ _ n m _ _ _) => removelast (head_path n m) = [] \/
        Forall (fun e : list str * str * value => fst (fst e) <> removelast (head_path n m)) (entries (firstn i l))
    | _ => True end) -> parents_empty l.
Proof.
  intros l H l1 l2 w0 w1 n m w2 w3 c p x E P N k v I. specialize (H (length l1)).
  rewrite E, nth_error_app2, Nat.sub_diag in H by lia. cbn [nth_error] in H. rewrite P, removelast_last in H. destruct H as [H|H]; [auto|].
  rewrite firstn_app, Nat.sub_diag, firstn_all in H. cbn [firstn] in H. rewrite app_nil_r in H. rewrite Forall_forall in H.
  apply (H _ I). reflexivity.
Qed.
Lemma dot_parents : parents_empty (map snd dot_lines).
Proof.
  apply parents_by_line. intros i.
  do 9 (destruct i as [|i]; [vm_compute; try solve [exact I|left; reflexivity|right; repeat constructor; discriminate]|]).
  destruct i; exact I.
Qed.
Example C49_ex : hdoc_ok dot_lines /\ hdistinct (map snd dot_lines) /\ parents_empty (map snd dot_lines) /\
  table_keys [lit "a"; lit "b"] (map snd dot_lines) = [lit "c"; lit "x"] /\
  table_keys [lit "a"] (map snd dot_lines) = [lit "b"; lit """d.e"""; lit "x"] /\
  dotted_name ([lit "a"; lit "b"; lit "c"] ++ [lit "x"]) ++ path_text [PIdx 1] = lit "a.b.c.x[1]".
Proof.
  split; [exact dot_ok|]. split; [exact dot_distinct|]. split; [exact dot_parents|]. vm_compute. auto.
Qed.

(** [a], x = 1, [a.b]: the second header is reported as an invalid table *)
Definition dot_bad : list (str * hline) :=
  [ ([], HHead [] [] (lit "a") [] [] [] None);
    ([10], HPair [] (lit "x") [] [] (VInteger (lit "1")) (lit "1") [] None);
    ([10], HHead [] [] (lit "a") [([], [], lit "b")] [] [] None) ].
Theorem C49_dotted_refuted : exists ls, hdoc_ok ls /\ hdistinct (map snd ls) /\
  forall ovf s r, parse (new_parser ovf) (hdoc_text ls) = Ok (s, r) -> r <> Full.
Proof.
  exists dot_bad. split; [|split].
  - unfold dot_bad, hdoc_ok. split; [reflexivity|]. split.
    { cbn [hline_ok]; repeat match goal with |- _ /\ _ => split end; try solve [chars|bare|exact I|apply Forall_nil]. }
    repeat apply Forall_cons; [..|apply Forall_nil]; cbn [fst snd]; (split; [unfold line_end; auto|]);
    cbn [hline_ok]; repeat match goal with |- _ /\ _ => split end; try solve [chars|bare|exact I|ints|apply Sp_scalar, Sc_true];
    try (repeat apply Forall_cons; [..|apply Forall_nil]; cbn [fst snd]; repeat match goal with |- _ /\ _ => split end; solve [chars|bare]).
  - constructor.
    + vm_compute. repeat constructor; cbn [In]; intros H; repeat destruct H as [H|H]; try discriminate; auto.
    + vm_compute. repeat constructor; cbn [In]; intros H; repeat destruct H as [H|H]; try discriminate; auto.
    + intros p k v H [x T]. vm_compute in H, T.
      repeat destruct H as [H|H]; try contradiction; inversion H; subst; repeat destruct T as [T|T]; try contradiction; discriminate.
  - intros ovf s r H. destruct ovf; vm_compute in H; inversion H; discriminate.
Qed.
Print Assumptions C49_dotted_refuted.
