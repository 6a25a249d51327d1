(** Property C95 (see /verif/properties.jsonl). *)
From Verif Require Import TotalFacts.
From Verif Require Import Str Regex Types Ast State Nom Keys Grammar Api Spec IdFacts ApiSpec SetFacts UpdateFacts OutcomeSpec TabSetFacts.

(** ** C95: a call of set_value with the name of a declared table (the names on which
    get_value panics, C28) never changes the text, whatever it answers *)
Theorem C95_text : forall ovf s key v s' b, reach ovf s -> get_value s key = Panic -> set_value s key v = Ok (s', b) ->
  show_parser s' = show_parser s.
Proof.
  intros ovf s key v s' b R G. destruct (reach_wf _ _ R) as (h & W). pose proof (reach_sound _ _ R) as S.
  destruct (table_cell _ _ S G) as (id & V). eapply tab_text; eauto.
Qed.
Print Assumptions C95_text.

(** ** C95: with a valid scalar it answers true; from then on the name holds that value,
    and no other answer of get_value and no answer of get_children changes *)
Theorem C95_scalar : forall ovf s key v, reach ovf s -> get_value s key = Panic -> scalar_value v -> validate v = true ->
  exists s', set_value s key v = Ok (s', true) /\ get_value s' key = Ok (Some v) /\
    (forall k, k <> key -> get_value s' k = get_value s k) /\ (forall k, get_children s' k = get_children s k).
Proof.
  intros ovf s key v R G. destruct (reach_wf _ _ R) as (h & W). pose proof (reach_sound _ _ R) as S.
  destruct (table_cell _ _ S G) as (id & V). eapply tab_scalar; eauto.
Qed.
Print Assumptions C95_scalar.

(** ** C95: with a scalar that is not valid it answers false *)
Theorem C95_invalid : forall ovf s key v, reach ovf s -> get_value s key = Panic -> scalar_value v -> validate v = false ->
  exists s', set_value s key v = Ok (s', false).
Proof.
  intros ovf s key v R G. pose proof (reach_sound _ _ R) as S. destruct (table_cell _ _ S G) as (id & V). eapply tab_invalid; eauto.
Qed.
Print Assumptions C95_invalid.

(** ** C95: with an array of valid scalars it answers true, the name holds the array,
    and the entries of the table, which are still in the text, are not found any more *)
Theorem C95_array : forall ovf s key l, reach ovf s -> get_value s key = Panic -> flat l -> key <> [] ->
  exists s', set_value s key (VArray l) = Ok (s', true) /\ get_value s' key = Ok (Some (VArray l)) /\
    get_children s' key = Some (Count (N.of_nat (length l))) /\
    (forall names n, get_children s key = Some (Keys names) -> In n names ->
       get_value s' (key ++ lit "." ++ n) = Ok None /\ get_children s' (key ++ lit "." ++ n) = None).
Proof.
  intros ovf s key l R G. pose proof (reach_sound _ _ R) as S. destruct (table_cell _ _ S G) as (id & V). eapply tab_array; eauto.
Qed.
Print Assumptions C95_array.

(** ** C95: with an inline table of valid scalars it answers true, the name holds the
    inline table, and the names in it that are new are added to the children of the table *)
Theorem C95_inline : forall ovf s key l, reach ovf s -> get_value s key = Panic -> flat2 l -> key <> [] -> NoDup (map fst l) ->
  exists s', set_value s key (VInlineTable l) = Ok (s', true) /\ get_value s' key = Ok (Some (VInlineTable l)) /\
    get_children s' key = match get_children s key with
      | Some (Keys l0) => Some (Keys (l0 ++ filter (fun k => negb (vcontains l0 k)) (map fst l)))
      | ch => ch end.
Proof.
  intros ovf s key l R G F NE ND. pose proof (reach_sound _ _ R) as S. destruct (table_cell _ _ S G) as (id & V).
  destruct (tab_inline s key id V l F) as (s' & A & B & C). exists s'. auto.
Qed.
Print Assumptions C95_inline.

(** ** C95: what a call ends in, for every value, as in C80 *)
Theorem C95_outcome : forall ovf s key v, reach ovf s -> key <> [] -> get_value s key = Panic -> new_names s key v ->
  ((exists s', set_value s key v = Ok (s', true)) <-> all_valid v /\ (scalar_value v \/ flat_value v)) /\
  ((exists s', set_value s key v = Ok (s', false)) <-> first_bad v false) /\
  (set_value s key v = Panic <-> first_bad v true \/ (all_valid v /\ ~ scalar_value v /\ ~ flat_value v)) /\
  (forall s', set_value s key v = Ok (s', true) -> get_value s' key = Ok (Some v)).
Proof.
  intros ovf s key v R NE G. destruct (reach_wf _ _ R) as (h & W). pose proof (reach_sound _ _ R) as S.
  destruct (table_cell _ _ S G) as (id & V). eapply tab_outcome_iff; eauto.
Qed.
Print Assumptions C95_outcome.

(** ** C95: and whatever the value and the answer, nothing is different at a name
    other than the name of the table that does not begin with it *)
Theorem C95_elsewhere : forall ovf s key v s' b, reach ovf s -> key <> root_key -> get_value s key = Panic -> set_value s key v = Ok (s', b) ->
  forall k, k <> key -> ~ below key k -> get_value s' k = get_value s k /\ get_children s' k = get_children s k.
Proof.
  intros ovf s key v s' b R NR G. destruct (reach_wf _ _ R) as (h & W). pose proof (reach_sound _ _ R) as S.
  destruct (table_cell _ _ S G) as (id & V). eapply tab_elsewhere; eauto.
Qed.
Print Assumptions C95_elsewhere.

Definition t_doc : str := lit "a = 1
[t.u]
y = 'q'
[t]
x = 1
".
Definition int7 : value := VInteger (lit "7").
(** the text stays, the scalar and the array are found, the entries of the table are lost to the array *)
Example C95_ex : exists s s1 s2 s3, parse (new_parser true) t_doc = Ok (s, Full) /\ reach true s /\
  get_value s (lit "t") = Panic /\ get_children s (lit "t") = Some (Keys [lit "u"; lit "x"]) /\
  set_value s (lit "t") int7 = Ok (s1, true) /\ get_value s1 (lit "t") = Ok (Some int7) /\
  get_value s1 (lit "t.x") = Ok (Some (VInteger (lit "1"))) /\ get_value s1 (lit "t.u") = Panic /\ show_parser s1 = Ok t_doc /\
  flat [int7; VBoolean true] /\
  set_value s (lit "t") (VArray [int7; VBoolean true]) = Ok (s2, true) /\ get_value s2 (lit "t[1]") = Ok (Some (VBoolean true)) /\
  get_value s2 (lit "t.x") = Ok None /\ get_value s2 (lit "t.u.y") = Ok None /\ show_parser s2 = Ok t_doc /\
  set_value s (lit "t") (VInteger (lit "x")) = Ok (s3, false) /\ show_parser s3 = Ok t_doc.
Proof.
  do 4 eexists. split; [vm_compute; reflexivity|]. split; [apply (R_parse true (new_parser true) t_doc _ Full); [apply R_new|vm_compute; reflexivity]|].
  split; [vm_compute; reflexivity|]. split; [vm_compute; reflexivity|]. split; [vm_compute; reflexivity|]. split; [vm_compute; reflexivity|].
  split; [vm_compute; reflexivity|]. split; [vm_compute; reflexivity|]. split; [vm_compute; reflexivity|].
  split; [intros x [<-|[<-|[]]]; split; exact Logic.I || reflexivity|].
  split; [vm_compute; reflexivity|]. split; [vm_compute; reflexivity|]. split; [vm_compute; reflexivity|]. split; [vm_compute; reflexivity|].
  split; [vm_compute; reflexivity|]. split; vm_compute; reflexivity.
Qed.

Definition t_in : list (str * value) := [(lit "x", int7); (lit "z", VBoolean true)].
Definition t_nested : value := VArray [VArray [int7]].
(** the inline table: the old name `u` is listed though its values are gone, `z` is new;
    the nested array panics; the names elsewhere stay *)
Example C95_ex2 : exists s s1, parse (new_parser true) t_doc = Ok (s, Full) /\ reach true s /\ get_value s (lit "t") = Panic /\
  flat2 t_in /\ NoDup (map fst t_in) /\ set_value s (lit "t") (VInlineTable t_in) = Ok (s1, true) /\
  get_children s1 (lit "t") = Some (Keys [lit "u"; lit "x"; lit "z"]) /\ get_value s1 (lit "t.x") = Ok (Some int7) /\
  get_value s1 (lit "t.u.y") = Ok None /\ get_value s1 (lit "a") = get_value s (lit "a") /\ ~ below (lit "t") (lit "a") /\
  show_parser s1 = Ok t_doc /\
  new_names s (lit "t") t_nested /\ all_valid t_nested /\ set_value s (lit "t") t_nested = Panic.
Proof.
  do 2 eexists. split; [vm_compute; reflexivity|]. split; [apply (R_parse true (new_parser true) t_doc _ Full); [apply R_new|vm_compute; reflexivity]|].
  split; [vm_compute; reflexivity|]. split; [intros x [<-|[<-|[]]]; split; exact Logic.I || reflexivity|].
  split; [repeat constructor; cbn; intros H; repeat (destruct H as [H|H]; [discriminate H|]); exact H|].
  split; [vm_compute; reflexivity|]. split; [vm_compute; reflexivity|]. split; [vm_compute; reflexivity|]. split; [vm_compute; reflexivity|].
  split; [vm_compute; reflexivity|]. split; [intros (x & r & E & _); discriminate E|]. split; [vm_compute; reflexivity|].
  split; [split; [intros l E; discriminate E|]|].
  - intros k [(l1 & x & l2 & E & F & X & ->)|(l1 & n & x & l2 & E & _)]; [|discriminate].
    destruct l1 as [|p l1]; [|inversion E; subst; inversion F as [|? ? Y _]; subst; destruct Y].
    intros Q. exfalso. apply Q. vm_compute. reflexivity.
  - split; [intros x [<-|[]]; reflexivity|vm_compute; reflexivity].
Qed.
