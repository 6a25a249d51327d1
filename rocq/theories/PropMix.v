(** Properties of documents with arrays of several types and date-times that do not
    exist. *)
From Coq Require Import Lia ZifyBool ZifyNat ZifyN.
From Verif Require Import Str Regex Types Ast State Nom Keys Grammar Api Facts Spec ApiSpec.
From Verif Require Import NumFacts ScalarFacts FlatFacts PropTypes PropFlat DocSpec PropNest MixSpec NestFacts DotSpec DotFacts PropDot FaultSpec FaultFacts PropFault MixFacts.

(** ** C68: every date-time that does not exist is reported with its place *)
Theorem C68_dates_named : forall ovf ls, wdoc_ok ls -> hdistinct (map snd ls) -> parents_empty (map snd ls) -> Forall same_text (map snd ls) ->
  exists s es, parse (new_parser ovf) (hdoc_text ls) = Ok (s, match es with [] => Full | _ => FullError es end) /\
    forall name ln t, In (EInvalidDateTime name ln t) es <->
      exists p r d, date_at ls p r ln d /\ date_exists d = false /\ name = place_name p r /\ t = datetime_src d.
Proof.
  intros ovf ls OK DS PE ST. destruct (plain_faults ls (wdoc_lines _ OK) DS PE ST) as (fs & FA & DA & _).
  destruct (C50_faults_partial ovf ls _ fs false OK FA) as (s & es & P & RE & _). exists s, es. split; auto. intros name ln t. split.
  - intros I. destruct (reported_from _ _ RE _ I) as (f & IF & R). destruct f as [| | |p r ln' d]; try contradiction. destruct R as (-> & -> & ->).
    apply DA in IF as [D Q]. exists p, r, d. auto.
  - intros (p & r & d & D & Q & -> & ->). destruct (reported_to _ _ RE (FDate p r ln d)) as (e & IE & R); [apply DA; auto|].
    destruct e as [| | |name ln' t]; try contradiction. destruct R as (-> & -> & ->). auto.
Qed.
Print Assumptions C68_dates_named.

(** ** C10: mixed arrays *)

(** If all date-times exist and no array of several types has a name that is a
    prefix of the name of another one, these arrays are reported, and nothing else.
    Without the second condition this is false, see [C10_prefix_refuted]; after an
    error of another kind see [C10_mixed_reported_refuted]. *)
Theorem C10_key_partial : forall ovf ls, wdoc_ok ls -> hdistinct (map snd ls) -> parents_empty (map snd ls) -> Forall same_text (map snd ls) ->
  (forall p r ln d, date_at ls p r ln d -> date_exists d = true) ->
  (forall p r ln q x lx z, mixed_at ls p r ln -> mixed_at ls q x lx -> place_name p r = place_name q x ++ z -> q = p /\ x = r) ->
  exists s es, parse (new_parser ovf) (hdoc_text ls) = Ok (s, match es with [] => Full | _ => FullError es end) /\
    forall e, In e es <-> exists p r ln, mixed_at ls p r ln /\ e = EMixedArray (place_name p r) ln.
Proof.
  intros ovf ls OK DS PE ST GD PF. destruct (plain_faults ls (wdoc_lines _ OK) DS PE ST) as (fs & FA & _ & MA).
  destruct (MA GD (mixed_at ls)) as [FM IM]; auto.
  { intros p r ln q x lx z A B E. destruct (PF p r ln q x lx z A B E) as [-> ->]. split; auto. split; auto.
    destruct A as (v & l & a & b & A & _), B as (v' & l' & a' & b' & B & _). eapply pair_line; eauto. }
  destruct (C50_faults_partial ovf ls _ fs false OK FA) as (s & es & P & RE & _). exists s, es. split; auto. intros e. split.
  - intros I. destruct (reported_from _ _ RE _ I) as (f & IF & R). destruct (FM f IF) as (p & r & ln & -> & M).
    destruct e; try contradiction. destruct R as [-> ->]. eauto.
  - intros (p & r & ln & M & ->). destruct (reported_to _ _ RE (FMixed p r ln)) as (e & IE & R); [apply IM; auto|].
    destruct e; try contradiction. destruct R as [-> ->]. auto.
Qed.
Print Assumptions C10_key_partial.

(** a document of this kind, with both faults *)
Definition x_n := HPair [] (lit "n") [] [] (VArray [VArray [VInteger (lit "1"); VBoolean true]]) (lit "[[1,true]]") [] None.
Definition x_lines : list (str * hline) := [([], f_top); ([10], f_mix); ([10], f_c); ([10], x_n); ([10], f_date)].
Definition x_mixed : list (str * hline) := [([], f_top); ([10], f_mix); ([10], f_c); ([10], x_n)].
Lemma x_ok : wdoc_ok x_lines /\ wdoc_ok x_mixed.
Proof.
  assert (F : forall d, In d (map snd f_lines) -> wline_ok d).
  { pose proof (wdoc_lines _ f_ok) as F. rewrite Forall_forall in F. auto. }
  assert (E : line_end [10]) by (unfold line_end; auto).
  assert (A1 : wline_ok f_top) by (apply F; cbn; auto 20). assert (A2 : wline_ok f_mix) by (apply F; cbn; auto 20).
  assert (A3 : wline_ok f_c) by (apply F; cbn; auto 20). assert (A4 : wline_ok f_date) by (apply F; cbn; auto 20).
  assert (A5 : wline_ok x_n).
  { unfold x_n. cbn [wline_ok]. repeat match goal with |- _ /\ _ => split end; try solve [chars|bare|exact I].
    apply (Wr_array _ [] (lit "[1,true]")); [nogap|]. apply (We_last _ (lit "[1,true]") []); [|nogap].
    apply (Wr_array _ [] (lit "1,true")); [nogap|]. apply (We_cons _ (lit "1") [] [] _ (lit "true")); [apply spells_writes; ints|chars|nogap|].
    apply (We_last _ (lit "true") []); [apply Wr_scalar, Sc_true|nogap]. }
  split; (split; [reflexivity|]; split; [auto|]; repeat apply Forall_cons; [..|apply Forall_nil]; auto).
Qed.
Lemma x_distinct : hdistinct (map snd x_lines).
Proof. distinct_tac. Qed.
Lemma x_parents : parents_empty (map snd x_lines).
Proof.
  apply parents_by_line. intros i.
  do 5 (destruct i as [|i]; [vm_compute; try solve [exact I|left; reflexivity|right; repeat constructor; discriminate]|]).
  destruct i; exact I.
Qed.
Lemma x_same : Forall same_text (map snd x_lines).
Proof. repeat apply Forall_cons; try apply Forall_nil; try exact I; right; vm_compute; intuition discriminate. Qed.

Example C68_ex : wdoc_ok x_lines /\ hdistinct (map snd x_lines) /\ parents_empty (map snd x_lines) /\ Forall same_text (map snd x_lines) /\
  date_at x_lines [lit "c"; lit "w"] [PIdx 0] 5 f_30 /\ date_exists f_30 = false /\ place_name [lit "c"; lit "w"] [PIdx 0] = lit "c.w[0]".
Proof.
  split; [apply x_ok|]. split; [exact x_distinct|]. split; [exact x_parents|]. split; [exact x_same|]. split; [|split; reflexivity].
  exists (VArray [VDateTime f_30]). split; [|reflexivity]. exists (firstn 4 x_lines). do 9 eexists. split; [reflexivity|]. split; reflexivity.
Qed.

Lemma x_pairs : forall p ln v, pair_at x_mixed p ln v ->
  (p = [lit "top"] /\ v = VBoolean true) \/ (p = [lit "m"] /\ v = VInlineTable [(lit "k", VArray [VInteger (lit "1"); VBoolean true])]) \/
  (p = [lit "c"; lit "n"] /\ v = VArray [VArray [VInteger (lit "1"); VBoolean true]]).
Proof.
  intros p ln v H. change x_mixed with (((([] ++ [([], f_top)]) ++ [([10], f_mix)]) ++ [([10], f_c)]) ++ [([10], x_n)]) in H.
  apply pair_snoc in H as [H|(-> & _ & ->)]; [|auto]. apply pair_snoc in H as [H|[]]. apply pair_snoc in H as [H|(-> & _ & ->)]; [|auto].
  apply pair_snoc in H as [H|(-> & _ & ->)]; [|auto]. destruct H as (a & nl' & w0 & k & w1 & w2 & t & w3 & c & b & E & _). destruct a; discriminate.
Qed.
Lemma x_places : forall p r ln, mixed_at x_mixed p r ln -> (p = [lit "m"] /\ r = [PKey (lit "k")]) \/ (p = [lit "c"; lit "n"] /\ r = [PIdx 0]).
Proof.
  intros p r ln (v & l & a & b & P & A). destruct (pair_writes _ _ _ _ (wdoc_lines _ (proj2 x_ok)) P) as [t W].
  assert (X : exists i, In (BadElem r i) (vfaults v)) by (apply (bad_elem_at v t r W); eauto).
  destruct X as [i X]. apply x_pairs in P as [[-> ->]|[[-> ->]|[-> ->]]]; vm_compute in X.
  - destruct X.
  - destruct X as [X|[]]. inversion X; subst. auto.
  - destruct X as [X|[]]. inversion X; subst. auto.
Qed.
Example C10_key_ex : wdoc_ok x_mixed /\ hdistinct (map snd x_mixed) /\ parents_empty (map snd x_mixed) /\ Forall same_text (map snd x_mixed) /\
  (forall p r ln d, date_at x_mixed p r ln d -> date_exists d = true) /\
  (forall p r ln q x lx z, mixed_at x_mixed p r ln -> mixed_at x_mixed q x lx -> place_name p r = place_name q x ++ z -> q = p /\ x = r) /\
  mixed_at x_mixed [lit "c"; lit "n"] [PIdx 0] 4 /\ place_name [lit "c"; lit "n"] [PIdx 0] = lit "c.n[0]".
Proof.
  assert (E : map snd x_lines = map snd x_mixed ++ [f_date]) by reflexivity.
  split; [apply x_ok|]. split; [apply (hdistinct_prefix _ [f_date]); rewrite <- E; exact x_distinct|].
  split; [apply (parents_prefix _ [f_date]); rewrite <- E; exact x_parents|].
  split; [pose proof x_same as S; rewrite E in S; apply Forall_app in S; tauto|]. split; [|split; [|split; [|reflexivity]]].
  - intros p r ln d (v & P & A). destruct (pair_writes _ _ _ _ (wdoc_lines _ (proj2 x_ok)) P) as [t W].
    destruct (date_exists d) eqn:Q; auto. assert (X : In (BadDate r d) (vfaults v)) by (apply (bad_date_at v t r d W); auto).
    apply x_pairs in P as [[-> ->]|[[-> ->]|[-> ->]]]; vm_compute in X; repeat destruct X as [X|X]; try contradiction; discriminate.
  - intros p r ln q x lx z A B E'. apply x_places in A as [[-> ->]|[-> ->]]; apply x_places in B as [[-> ->]|[-> ->]]; auto; discriminate.
  - exists (VArray [VArray [VInteger (lit "1"); VBoolean true]]), [VInteger (lit "1"); VBoolean true], (VInteger (lit "1")), (VBoolean true).
    split; [|split; [reflexivity|split; [left; reflexivity|split; [right; left; reflexivity|discriminate]]]].
    exists (firstn 3 x_mixed). do 9 eexists. split; [reflexivity|]. split; reflexivity.
Qed.

(** An array whose name begins with the name of the array reported before it is not
    reported: another key, the array around it, or one inside it. *)
Theorem C10_prefix_refuted : forall ovf,
  (exists s, parse (new_parser ovf) (lit "a=[1,true]" ++ [10] ++ lit "ab=[1,true]") = Ok (s, FullError [EMixedArray (lit "a") 1])) /\
  (exists s, parse (new_parser ovf) (lit "a=[1,[1,true]]") = Ok (s, FullError [EMixedArray (lit "a[1]") 1])) /\
  (exists s, parse (new_parser ovf) (lit "a=[1,true,[1,true]]") = Ok (s, FullError [EMixedArray (lit "a") 1])).
Proof. intros [|]; repeat split; eexists; vm_compute; reflexivity. Qed.
Print Assumptions C10_prefix_refuted.
