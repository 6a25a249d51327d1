(** Properties of the values in parsed documents. *)
From Coq Require Import Lia ZifyBool ZifyNat ZifyN.
From Verif Require Import Str Regex Types Ast State Nom Keys Grammar Api Facts Spec.
From Verif Require Import DateFacts ScalarFacts RoundTrip Effects ParseFacts WalkFacts DocFacts PropParse.

Definition no_report (r : parse_result) : Prop := r = Full \/ exists l n, r = Partial l n.

Lemma no_report_errors : forall s i s' r, parse s i = Ok (s', r) -> no_report r -> s'.(p_errors) = [].
Proof.
  intros s i s' r P N. apply C11_errors_reported in P. destruct N as [->|(l & n & ->)]; auto.
Qed.

(** ** C08 *)
Theorem C08_dates_valid : forall s i s' r d, parse s i = Ok (s', r) -> no_report r ->
  in_doc (TDateTime d) s'.(p_root) -> good_datetime d /\ datetime_validate d = true.
Proof.
  intros s i s' r d P N I. pose proof (no_report_errors _ _ _ _ P N) as E.
  destruct (parse_dates _ _ _ _ _ P I) as [D [V|(k & l & J)]]; [|rewrite E in J; contradiction].
  split; auto. pose proof (proj1 (datetime_validate_digits d D) V). split; auto.
Qed.
Print Assumptions C08_dates_valid.

(** an invalid date-time is reported with its own text *)
Theorem C08_invalid_reported : forall s i s' r d, parse s i = Ok (s', r) ->
  in_doc (TDateTime d) s'.(p_root) -> ~ good_datetime d ->
  exists key line, In (EInvalidDateTime key line (datetime_src d)) s'.(p_errors).
Proof.
  intros s i s' r d P I N. rewrite datetime_src_show.
  destruct (parse_dates _ _ _ _ _ P I) as [D [V|X]]; auto. exfalso. apply N. split; auto.
  apply datetime_validate_digits; auto.
Qed.
Print Assumptions C08_invalid_reported.

Definition doc_value (s : pst) (n : nat) : option tval :=
  match nth_error s.(p_root) n with
  | Some ne => match ne.(ne_expr).(e_keyval) with Some kv => Some kv.(kv_val).(c_val) | None => None end
  | None => None
  end.
Lemma doc_value_in : forall s n x v, doc_value s n = Some v -> inside x v -> in_doc x s.(p_root).
Proof.
  intros s n x v H I. unfold doc_value in H. destruct (nth_error (p_root s) n) as [ne|] eqn:E; [|discriminate].
  destruct (e_keyval (ne_expr ne)) as [kv|] eqn:K; [|discriminate]. inversion H; subst.
  exists ne, kv. split; auto. eapply nth_error_In; eauto.
Qed.

Definition c08_date : datetime :=
  {| dt_date := {| d_year := lit "2024"; d_month := lit "02"; d_day := lit "29" |}; dt_time := None |}.
Definition c08_bad : datetime :=
  {| dt_date := {| d_year := lit "2023"; d_month := lit "02"; d_day := lit "29" |}; dt_time := None |}.
Example C08_ex : exists s, parse (new_parser true) (lit "x = { y = [ 1999-12-31, 2024-02-29 ] }") = Ok (s, Full) /\
  in_doc (TDateTime c08_date) s.(p_root).
Proof.
  eexists. split; [vm_compute; reflexivity|]. eapply (doc_value_in _ 0); [vm_compute; reflexivity|].
  eapply In_inl; [left; reflexivity|]. eapply In_arr; [right; left; reflexivity|]. apply In_self.
Qed.
Example C08_ex2 : exists s, parse (new_parser true) (lit "x = { y = [ 1999-12-31, 2023-02-29 ] }") =
    Ok (s, FullError [EInvalidDateTime (lit "x.y[1]") 1 (lit "2023-02-29")]) /\
  in_doc (TDateTime c08_bad) s.(p_root).
Proof.
  eexists. split; [vm_compute; reflexivity|]. eapply (doc_value_in _ 0); [vm_compute; reflexivity|].
  eapply In_inl; [left; reflexivity|]. eapply In_arr; [right; left; reflexivity|]. apply In_self.
Qed.

(** ** C09 *)
Theorem C09_uniform_arrays : forall s i s' r vals n1 n2, parse s i = Ok (s', r) -> no_report r ->
  in_doc (TArray vals n1 n2) s'.(p_root) ->
  forall a b, In a vals -> In b vals -> same_kind a.(av_val).(c_val) b.(av_val).(c_val).
Proof.
  intros s i s' r vals n1 n2 P N I a b A B. eapply parse_arrays; eauto. eapply no_report_errors; eauto.
Qed.
Print Assumptions C09_uniform_arrays.

Example C09_ex : exists s vals n1 n2,
  parse (new_parser true) (lit "x = [ [ 1, 2 ], [ 'a', ""b"" ], [] ]") = Ok (s, Full) /\
  in_doc (TArray vals n1 n2) s.(p_root) /\ length vals = 3%nat.
Proof.
  do 4 eexists. split; [vm_compute; reflexivity|]. split.
  - eapply (doc_value_in _ 0); [vm_compute; reflexivity|]. apply In_self.
  - reflexivity.
Qed.

(** ** C10: false as stated *)
(** the second mixed array is not reported under its own key: an error that is
    not a MixedArray error comes before it *)
Theorem C10_mixed_reported_refuted :
  exists s, parse (new_parser true) (lit "a = 1" ++ [10] ++ lit "a = 2" ++ [10] ++ lit "b = [1, 'x']") =
    Ok (s, FullError [EDuplicateKey (lit "a") 2 (VInteger (lit "2"))]).
Proof. eexists. vm_compute. reflexivity. Qed.
Print Assumptions C10_mixed_reported_refuted.

(** what is missing: the key carried by the error.  Proved: a document with a
    mixed array is never reported clean, and unless an error of another kind is
    reported the error is a MixedArray error *)
Theorem C10_mixed_partial : forall s i s' r vals n1 n2 a b, parse s i = Ok (s', r) ->
  in_doc (TArray vals n1 n2) s'.(p_root) -> In a vals -> In b vals ->
  ~ same_kind a.(av_val).(c_val) b.(av_val).(c_val) ->
  exists e es, (r = FullError (e :: es) \/ exists l n, r = PartialError l n (e :: es)) /\
    ((exists k l, e = EMixedArray k l) \/
     (exists e', In e' (e :: es) /\ forall k l, e' <> EMixedArray k l)).
Proof.
  intros s i s' r vals n1 n2 a b P D A B N.
  assert (E : s'.(p_errors) <> []) by (intros E; apply N; eapply parse_arrays; eauto).
  pose proof (C11_errors_reported _ _ _ _ P) as R.
  assert (X : exists e es, s'.(p_errors) = e :: es) by (destruct (p_errors s'); [congruence|eauto]).
  destruct X as (e & es & X). exists e, es. split.
  - destruct r; try congruence; try contradiction; destruct R as [-> _]; rewrite X; eauto.
  - destruct e as [k l|k l v|k l kvs|k l t]; [left; eauto|right..];
      (eexists; split; [left; reflexivity|congruence]).
Qed.
Print Assumptions C10_mixed_partial.
Example C10_ex : exists s vals n1 n2 a b, parse (new_parser true) (lit "x = [ [ 1, 2 ], [ 'a', 2.0 ] ]") =
    Ok (s, FullError [EMixedArray (lit "x[1]") 1]) /\
  in_doc (TArray vals n1 n2) s.(p_root) /\ In a vals /\ In b vals /\ ~ same_kind a.(av_val).(c_val) b.(av_val).(c_val).
Proof.
  do 6 eexists. split; [vm_compute; reflexivity|]. split.
  - eapply (doc_value_in _ 0); [vm_compute; reflexivity|]. eapply In_arr; [right; left; reflexivity|]. apply In_self.
  - split; [left; reflexivity|]. split; [right; left; reflexivity|]. cbn. auto.
Qed.
