(** Properties of documents with wrong table headers, repeated keys and faulty values. *)
From Coq Require Import Lia ZifyBool ZifyNat ZifyN.
From Verif Require Import Str Regex Types Ast State Nom Keys Grammar Api Facts Spec ApiSpec.
From Verif Require Import TypesFacts DateFacts NumFacts StringFacts ScalarFacts FlatFacts PropTypes PropFlat DocSpec MixSpec NestFacts PropNest DotSpec DotFacts PropDot.
From Verif Require Import FaultSpec FaultFacts.

(** C50. The full statement allows any value below a wrong header and for a
    repeated key; it does not hold of the code, see [C50_faults_refuted]. *)
Theorem C50_faults_partial : forall ovf ls g fs b, wdoc_ok ls -> faulty ls g fs b ->
  exists s es, parse (new_parser ovf) (hdoc_text ls) = Ok (s, match es with [] => Full | _ => FullError es end) /\
    Forall2 reported fs es /\
    (forall p k v r, In (p, k, v) (entries g) -> good_path r ->
       get_value s (dotted_name (p ++ [k]) ++ path_text r) = Ok (at_path v r) /\
       get_children s (dotted_name (p ++ [k]) ++ path_text r) = option_map kids_of (at_path v r)) /\
    get_children s [] = Some (Keys (table_keys [] g)) /\
    (forall q, q <> [] -> table_of g q -> get_children s (dotted_name q) = Some (Keys (table_keys q g))) /\
    (forall x w, get_value s x = Ok (Some w) ->
       exists p k v r, In (p, k, v) (entries g) /\ at_path v r = Some w /\ x = dotted_name (p ++ [k]) ++ path_text r) /\
    (forall x ch, get_children s x = Some ch ->
       x = [] \/ x = root_key \/ (exists q, q <> [] /\ table_of g q /\ x = dotted_name q) \/
       exists p k v r w, In (p, k, v) (entries g) /\ at_path v r = Some w /\ x = dotted_name (p ++ [k]) ++ path_text r).
Proof.
  intros ovf ls g fs b OK FA. destruct (faulty_parse ovf ls g fs b OK FA) as (s & cs & P & RE & MI). exists s, s.(p_errors).
  destruct (faulty_good _ _ _ _ FA) as [DS PH].
  assert (B : hbare g) by (apply wok_bare; eapply faulty_ok; eauto; apply wdoc_lines; auto).
  split; [destruct (p_errors s); exact P|]. split; auto.
  split; [intros p k v r I G; eapply hlook_value; eauto|]. split; [eapply hlook_root; eauto|].
  split; [intros q N T; eapply hlook_table; eauto|]. split.
  - intros x w H. destruct (hlook_only_value _ _ _ _ _ B DS MI H) as (p & k & v & r & I & _ & A & E). exists p, k, v, r. auto.
  - intros x ch H. destruct (hlook_only _ _ _ _ _ MI H) as [C|[C|[C|(p & k & v & r & w & I & _ & A & E)]]]; auto.
    right; right; right. exists p, k, v, r, w. auto.
Qed.
Print Assumptions C50_faults_partial.

(** which documents these are: one of only good lines without faults in their values is
    one of [C49_dotted_partial] *)
Definition f_top := HPair [] (lit "top") (lit " ") (lit " ") (VBoolean true) (lit "true") [] None.
Definition f_mix := HPair [] (lit "m") [] [] (VInlineTable [(lit "k", VArray [VInteger (lit "1"); VBoolean true])]) (lit "{k=[1,true]}") [] None.
Definition f_cd := HHead [] [] (lit "c") [([], [], lit "d")] [] [] None.
Definition f_a := HHead [] [] (lit "a") [] [] [] None.
Definition f_x1 := HPair [] (lit "x") [] [] (VInteger (lit "1")) (lit "1") [] None.
Definition f_x2 := HPair [] (lit "x") [] [] (VInteger (lit "2")) (lit "2") [] None.
Definition f_y3 := HPair [] (lit "y") [] [] (VInteger (lit "3")) (lit "3") [] None.
Definition f_y4 := HPair [] (lit "y") [] [] (VInteger (lit "4")) (lit "4") [] None.
Definition f_ab := HHead [] (lit " ") (lit "a") [(lit " ", lit " ", lit "b")] (lit " ") [] None.
Definition f_topq := HHead [] [] (lit "top") [([], [], lit "q")] [] [] None.
Definition f_c := HHead [] [] (lit "c") [] [] [] None.
Definition f_d1 := HPair [] (lit "d") [] [] (VInteger (lit "1")) (lit "1") [] None.
Definition f_30 := {| dt_date := {| d_year := lit "2015"; d_month := lit "02"; d_day := lit "30" |}; dt_time := None |}.
Definition f_date := HPair [] (lit "w") [] [] (VArray [VDateTime f_30]) (lit "[2015-02-30]") [] None.
Definition f_blank := HBlank [] None.
Definition f_lines : list (str * hline) :=
  [([], f_top); ([10], f_mix); ([10], f_cd); ([10], f_a); ([10], f_x1); ([10], f_x2); ([10], f_a); ([10], f_y3); ([10], f_y4); ([10], f_blank);
   ([10], f_ab); ([10], f_x1); ([13; 10], f_topq); ([10], f_c); ([10], f_d1); ([10], f_x1); ([10], f_date)].
Definition f_good : list hline := [f_top; f_mix; f_cd; f_a; f_x1; f_c; f_x1; f_date].
Definition f_faults : list fault :=
  [FMixed [lit "m"] [PKey (lit "k")] 2;
   FKey [lit "a"; lit "x"] 6 (VInteger (lit "2"));
   FHead [lit "a"] 7 [(lit "y", VInteger (lit "3")); (lit "y", VInteger (lit "4"))];
   FHead [lit "a"; lit "b"] 11 [(lit "x", VInteger (lit "1"))];
   FHead [lit "top"; lit "q"] 13 [];
   FKey [lit "c"; lit "d"] 15 (VInteger (lit "1"));
   FDate [lit "c"; lit "w"] [PIdx 0] 17 f_30].

Lemma f_ok : wdoc_ok f_lines.
Proof.
  unfold f_lines, wdoc_ok. split; [reflexivity|]. split.
  { cbn [f_top wline_ok]; repeat match goal with |- _ /\ _ => split end; try solve [chars|bare|exact I|apply Wr_scalar, Sc_true]. }
  assert (INT : forall v t, spells v t -> writes v t) by (intros v t H; apply spells_writes; auto).
  repeat apply Forall_cons; [..|apply Forall_nil]; cbn [fst snd]; (split; [unfold line_end; auto|]);
    unfold f_top, f_mix, f_cd, f_a, f_x1, f_x2, f_y3, f_y4, f_ab, f_topq, f_c, f_d1, f_date, f_blank;
    cbn [wline_ok hline_ok]; repeat match goal with |- _ /\ _ => split end; try solve [chars|bare|exact I|apply INT; ints|apply Wr_scalar, Sc_true];
    try (repeat apply Forall_cons; [..|apply Forall_nil]; cbn [fst snd]; repeat match goal with |- _ /\ _ => split end; solve [chars|bare]).
  - apply (Wr_inline _ [] (lit "k=[1,true]")); [chars| |repeat constructor; auto].
    apply (Wf_last (lit "k") [] [] _ (lit "[1,true]") []); [bare|chars|chars| |nogap].
    apply (Wr_array _ [] (lit "1,true")); [nogap|]. apply (We_cons _ (lit "1") [] [] _ (lit "true")); [apply INT; ints|chars|nogap|].
    apply (We_last _ (lit "true") []); [apply Wr_scalar, Sc_true|nogap].
  - apply (Wr_array _ [] (lit "2015-02-30")); [nogap|]. apply (We_last _ (lit "2015-02-30") []); [|nogap]. apply (Wr_date f_30).
    split; [|exact I]. split; [|split]; (split; [unfold digits; chars|reflexivity]).
Qed.
Ltac distinct_tac := constructor;
  [ vm_compute; repeat constructor; cbn [In]; intros H; repeat destruct H as [H|H]; try discriminate; auto
  | vm_compute; repeat constructor; cbn [In]; intros H; repeat destruct H as [H|H]; try discriminate; auto
  | intros p k v H [x T]; vm_compute in H, T;
    repeat destruct H as [H|H]; try contradiction; inversion H; subst; repeat destruct T as [T|T]; try contradiction; discriminate ].
Lemma f_distinct : hdistinct f_good.
Proof. distinct_tac. Qed.
Lemma f_parents : parents_empty f_good.
Proof.
  apply parents_by_line. intros i.
  do 8 (destruct i as [|i]; [vm_compute; try solve [exact I|left; reflexivity|right; repeat constructor; discriminate]|]).
  destruct i; exact I.
Qed.
Lemma f_pre : forall a b, f_good = a ++ b -> hdistinct a /\ parents_empty a.
Proof.
  intros a b E. split; [apply (hdistinct_prefix a b)|apply (parents_prefix a b)]; rewrite <- E; [apply f_distinct|apply f_parents].
Qed.
Example C50_ex : wdoc_ok f_lines /\ faulty f_lines f_good f_faults false /\
  table_keys [lit "c"] f_good = [lit "d"; lit "x"; lit "w"].
Proof.
  split; [exact f_ok|]. split; [|vm_compute; reflexivity].
  assert (S1 : scalar (VInteger (lit "1")) (lit "1")) by (assert (X : spells (VInteger (lit "1")) (lit "1")) by ints; inversion X; auto).
  assert (S2 : scalar (VInteger (lit "2")) (lit "2")) by (assert (X : spells (VInteger (lit "2")) (lit "2")) by ints; inversion X; auto).
  assert (S3 : scalar (VInteger (lit "3")) (lit "3")) by (assert (X : spells (VInteger (lit "3")) (lit "3")) by ints; inversion X; auto).
  assert (S4 : scalar (VInteger (lit "4")) (lit "4")) by (assert (X : spells (VInteger (lit "4")) (lit "4")) by ints; inversion X; auto).
  assert (NF : forall p ln fs v t, scalar v t -> noted p ln fs (vfaults v) fs) by (intros p ln fs v t H; rewrite (scalar_faults v t H); apply Nt_nil).
  pose proof (f_pre [f_top] _ eq_refl) as [D1 P1]. pose proof (f_pre [f_top; f_mix] _ eq_refl) as [D7 P7]. pose proof (f_pre [f_top; f_mix; f_cd] _ eq_refl) as [D2 P2].
  pose proof (f_pre [f_top; f_mix; f_cd; f_a] _ eq_refl) as [D3 P3]. pose proof (f_pre [f_top; f_mix; f_cd; f_a; f_x1] _ eq_refl) as [D4 P4].
  pose proof (f_pre [f_top; f_mix; f_cd; f_a; f_x1; f_c] _ eq_refl) as [D5 P5]. pose proof (f_pre [f_top; f_mix; f_cd; f_a; f_x1; f_c; f_x1] _ eq_refl) as [D6 P6].
  pose proof (f_pre f_good [] eq_refl) as [D8 P8].
  pose proof (Fa_good [] [] [] [] f_top [] Fa_nil (or_introl Sc_true) D1 P1 (NF _ _ _ _ _ Sc_true)) as F.
  apply (Fa_good _ _ _ [10] f_mix [FMixed [lit "m"] [PKey (lit "k")] 2]) in F;
    [|right; vm_compute; intuition discriminate|exact D7|exact P7|apply (Nt_first _ _ [PKey (lit "k")] 1), Nt_nil].
  eapply (Fa_good _ _ _ [10] f_cd _) in F; [|exact I|exact D2|exact P2|reflexivity].
  eapply (Fa_good _ _ _ [10] f_a _) in F; [|exact I|exact D3|exact P3|reflexivity].
  eapply (Fa_good _ _ _ [10] f_x1 _) in F; [|left; exact S1|exact D4|exact P4|eapply NF; exact S1].
  apply (Fa_again _ _ _ [10] [] (lit "x") [] [] (VInteger (lit "2")) (lit "2") [] None) in F;
    [|exact S2|left; eexists; vm_compute; eauto].
  apply (Fa_head _ _ _ _ [10] [] [] (lit "a") [] [] [] None) in F; [|left; vm_compute; auto].
  apply (Fa_pair _ _ _ _ _ _ [10] [] (lit "y") [] [] (VInteger (lit "3")) (lit "3") [] None) in F; [|exact S3].
  apply (Fa_pair _ _ _ _ _ _ [10] [] (lit "y") [] [] (VInteger (lit "4")) (lit "4") [] None) in F; [|exact S4].
  apply (Fa_blank _ _ _ [10] [] None) in F.
  apply (Fa_head _ _ _ _ [10] [] (lit " ") (lit "a") [(lit " ", lit " ", lit "b")] (lit " ") [] None) in F;
    [|right; right; exists [lit "a"], (lit "b"), (lit "x"), (VInteger (lit "1")); split; [reflexivity|]; split; [discriminate|]; vm_compute; auto].
  apply (Fa_pair _ _ _ _ _ _ [10] [] (lit "x") [] [] (VInteger (lit "1")) (lit "1") [] None) in F; [|exact S1].
  apply (Fa_head _ _ _ _ [13; 10] [] [] (lit "top") [([], [], lit "q")] [] [] None) in F;
    [|right; left; exists [], (lit "top"), (VBoolean true), [lit "q"]; split; [vm_compute; auto|reflexivity]].
  apply (Fa_open _ _ _ [10] [] [] (lit "c") [] [] [] None) in F; [|exact D5|exact P5].
  apply (Fa_again _ _ _ [10] [] (lit "d") [] [] (VInteger (lit "1")) (lit "1") [] None) in F;
    [|exact S1|right; vm_compute; auto].
  eapply (Fa_good _ _ _ [10] f_x1 _) in F; [|left; exact S1|exact D6|exact P6|eapply NF; exact S1].
  eapply (Fa_good _ _ _ [10] f_date _) in F; [|right; vm_compute; intuition discriminate|exact D8|exact P8|apply (Nt_date _ _ _ [PIdx 0] f_30), Nt_nil].
  exact F.
Qed.

(** Below a wrong header the elements of an array are still found, at the top
    level; and a repeated array that is longer adds its last elements to the first. *)
Definition f_leak : list (str * hline) :=
  [([], f_a); ([10], f_a); ([10], HPair [] (lit "x") [] [] (VArray [VInteger (lit "2")]) (lit "[2]") [] None)].
Definition f_longer : list (str * hline) :=
  [([], HPair [] (lit "x") [] [] (VArray [VInteger (lit "1")]) (lit "[1]") [] None);
   ([10], HPair [] (lit "x") [] [] (VArray [VInteger (lit "2"); VInteger (lit "3")]) (lit "[2,3]") [] None)].
Theorem C50_faults_refuted : forall ovf,
  (exists s es, parse (new_parser ovf) (hdoc_text f_leak) = Ok (s, FullError es) /\
     get_value s (lit "x[0]") = Ok (Some (VInteger (lit "2")))) /\
  (exists s es, parse (new_parser ovf) (hdoc_text f_longer) = Ok (s, FullError es) /\
     get_value s (lit "x") = Ok (Some (VArray [VInteger (lit "1")])) /\
     get_value s (lit "x[1]") = Ok (Some (VInteger (lit "3")))).
Proof. intros ovf; destruct ovf; split; do 2 eexists; (split; [vm_compute; reflexivity|]); vm_compute; auto. Qed.
Print Assumptions C50_faults_refuted.
