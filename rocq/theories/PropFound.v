(** Property C74: walking through a document. *)
From Coq Require Import Lia ZifyBool ZifyNat ZifyN.
From Verif Require Import Str Regex Types Ast State Nom Keys Grammar Api Spec ApiSpec Facts DocSpec DotSpec TreeSpec FoundSpec
  PathFacts NestFacts SectFacts LookFacts DotFacts TreeView TreeFacts SessDocs FoundFacts PropDocs PropNest PropDot PropTree.

(** C74. The full statement: whenever the parser has read a document to its end,
    exactly the keys of the document are found from its root.  It does not hold
    of the code, see [C74_unreachable_refuted] and [C74_dangling_refuted].  It
    holds of the documents of C15, C49 and C60. *)
Lemma value_in_document : forall s x w, x <> [] -> x <> root_key -> get_value s x = Ok (Some w) -> in_document s x.
Proof.
  intros s x w N R H. destruct (get_kids s x w N H) as [ch C]. repeat split; auto. congruence.
Qed.

(** documents with tables and arrays of tables *)
Theorem C74_sections_partial : forall ovf ls, lines_ok ls -> distinct (body ls) -> plain_headers (body ls) ->
  exists s, parse (new_parser ovf) (lines_text ls) = Ok (s, Full) /\
    (forall x, found s x <-> in_document s x) /\
    (forall x w, get_value s x = Ok (Some w) -> found s x).
Proof.
  intros ovf ls OK DS PH. destruct (lines_parse ovf ls OK DS PH) as (s & P & RA). exists s. split; auto.
  pose proof (found_sections ls s OK DS RA) as F. split; auto.
  intros x w H. apply F. destruct (look_only_value ls s OK DS RA x w H) as (t & k & v & p & I & G & AP & E).
  destruct (line_addr ls t k v p OK I G). apply (value_in_document s x w); subst; auto.
Qed.
Print Assumptions C74_sections_partial.

Example C74_sections_ex : lines_ok sect_lines /\ distinct (body sect_lines) /\ plain_headers (body sect_lines).
Proof. split; [exact sect_ok|]. split; [exact sect_distinct|exact sect_plain]. Qed.

(** documents whose table headers have dotted names *)
Theorem C74_dotted_partial : forall ovf ls, hdoc_ok ls -> hdistinct (map snd ls) -> parents_empty (map snd ls) ->
  exists s, parse (new_parser ovf) (hdoc_text ls) = Ok (s, Full) /\
    (forall x, found s x <-> in_document s x) /\
    (forall x w, get_value s x = Ok (Some w) -> found s x).
Proof.
  intros ovf ls OK DS PH. destruct (hdoc_parse ovf ls OK DS PH) as (s & P & MI & _). fold (hbody ls) in *. exists s. split; auto.
  pose proof (found_dotted _ _ s (hdoc_lines ls OK) DS MI) as F. split; auto.
  assert (B : hbare (hbody ls)) by (apply hok_bare, hdoc_lines; auto).
  intros x w H. apply F. destruct (hlook_only_value _ _ _ _ _ B DS MI H) as (p & k & v & r & I & G & A & E).
  assert (GA : good_addr (ext (aq (p ++ [k])) r)) by (apply good_ext; auto; apply aq_good; [apply snoc_ne|eapply bare_entry; eauto]).
  rewrite <- aq_text, <- atext_ext in E. apply (value_in_document s x w); auto; rewrite E; [apply atext_ne|apply atext_root]; auto.
Qed.
Print Assumptions C74_dotted_partial.

Example C74_dotted_ex : hdoc_ok dot_lines /\ hdistinct (map snd dot_lines) /\ parents_empty (map snd dot_lines).
Proof. split; [exact dot_ok|]. split; [exact dot_distinct|exact dot_parents]. Qed.

(** documents with arrays of tables inside arrays of tables; when a table header
    has more than one name the root lists a key that is not in the document *)
Theorem C74_nested_partial : forall ovf ls v, tdoc_ok ls -> says (map snd ls) = Some v -> along_edge (map snd ls) ->
  exists s, parse (new_parser ovf) (tdoc_text ls) = Ok (s, Full) /\
    (forall x, in_document s x -> found s x) /\
    (forall x w, get_value s x = Ok (Some w) -> found s x) /\
    (short_heads (map snd ls) -> forall x, found s x -> in_document s x).
Proof.
  intros ovf ls v OK SA AE. destruct (tdoc_parse ovf ls v OK SA AE) as (s & P & VO & MI & _). fold (tbody ls) in *. exists s. split; auto.
  pose proof (found_nested _ v _ s (covers_says _ v (tdoc_lines ls OK) SA) SA VO MI) as F.
  split; [apply F|]. split; [|intros SH x; apply (F x); auto].
  intros x w H. apply F. destruct (tlook_only_value v _ _ s x w VO MI H) as (q & k & y & r & I & AP & ->).
  assert (KX : exists z, tknown v z /\ place_text (q ++ PKey k :: r) = place_text z).
  { destruct (get_kids s (place_text (q ++ PKey k :: r)) w) as [ch C]; auto.
    - destruct q as [|[i|n] q]; cbn [app place_text].
      + intros E. apply app_eq_nil in E as [E _]. subst k. destruct (vo_spot _ VO _ _ (vo_named _ VO _ _ _ I)) as [_ KN].
        exact (bare_ne [] KN eq_refl).
      + exfalso. destruct (vo_spot _ VO _ _ (vo_named _ VO _ _ _ I)) as [SQ _]. destruct (vo_good _ VO _ SQ) as [_ X]. exact X.
      + intros E. apply app_eq_nil in E as [E _]. subst n. destruct (vo_spot _ VO _ _ (vo_named _ VO _ _ _ I)) as [SQ _].
        destruct (vo_good _ VO _ SQ) as [X _]. inversion X; subst. cbn [good_step] in *. exact (bare_ne [] ltac:(assumption) eq_refl).
    - apply (tlook_only v _ _ s _ ch MI) in C as [C|[C|C]]; auto.
      + rewrite C in H. unfold get_value in H. rewrite (tm_empty v _ _ _ VO MI) in H. discriminate H.
      + rewrite C in H. destruct (tm_spot _ _ _ _ MI [] (Sp_top v)) as (pv & X & Y). cbn [ppar] in X. unfold get_value in H. rewrite X in H.
        exfalso. destruct Y as [[_ [id ->]]|[_ ->]]; discriminate H. }
  destruct KX as (z & K & E). destruct (tknown_good v z VO K) as [G N]. rewrite E in *.
  apply (value_in_document s _ w); auto; [apply pt_ne|apply pt_root]; auto.
Qed.
Print Assumptions C74_nested_partial.

Definition flat_arrays : list (str * tline) :=
  [ ([], arr [lit "f"]); ([10], int1 (lit "a")); ([10], arr [lit "f"; lit "v"]); ([10], int1 (lit "b")); ([10], arr [lit "f"]);
    ([10], tab [lit "t"]); ([10], int1 (lit "a")) ].
Example C74_nested_ex : (exists v, tdoc_ok tree_lines /\ says (map snd tree_lines) = Some v /\ along_edge (map snd tree_lines)) /\
  exists v, tdoc_ok flat_arrays /\ says (map snd flat_arrays) = Some v /\ along_edge (map snd flat_arrays) /\ short_heads (map snd flat_arrays).
Proof.
  split.
  - eexists. split; [exact tree_ok|]. split; [vm_compute; reflexivity|exact tree_edge].
  - eexists. split; [unfold flat_arrays, arr, tab, int1; cbn [hd tl map]; tlines|]. split; [vm_compute; reflexivity|]. split.
    + apply along_by_line. intros i. unfold flat_arrays, arr, tab, int1, kv. cbn [hd tl map].
      do 7 (destruct i as [|i]; [edge|]). destruct i; exact I.
    + intros w0 w1 n m w2 w3 c I. unfold flat_arrays, arr, tab, int1, kv in I. cbn [hd tl map snd] in I.
      repeat destruct I as [I|I]; try discriminate I; [|destruct I]. inversion I; reflexivity.
Qed.

(** everything that is found is in a list that is closed under taking children *)
Lemma found_within : forall s (L : list str),
  (forall ch, get_children s [] = Some ch -> incl (combine_child_keys ch []) L) ->
  Forall (fun y => match get_children s y with Some ch => incl (combine_child_keys ch y) L | None => True end) L ->
  forall x, found s x -> In x L.
Proof.
  intros s L T C x F. induction F as [ch x G I|y ch x F IH G I]; [apply (T ch G); auto|].
  rewrite Forall_forall in C. specialize (C y IH). rewrite G in C. apply C; auto.
Qed.

(** [[a]], [[ab]], x = 1: the value is stored under a key that is in no list of children *)
Theorem C74_unreachable_refuted : forall ovf, exists s x,
  parse (new_parser ovf) (lit "[[a]]" ++ [10] ++ lit "[[ab]]" ++ [10] ++ lit "x=1") = Ok (s, Full) /\
  in_document s x /\ get_value s x = Ok (Some (VInteger (lit "1"))) /\ ~ found s x.
Proof.
  intros ovf. destruct (parse (new_parser ovf) (lit "[[a]]" ++ [10] ++ lit "[[ab]]" ++ [10] ++ lit "x=1")) as [[s f]| |] eqn:P;
    try (destruct ovf; vm_compute in P; discriminate P).
  exists s, (lit "a[0].ab[0].x"). destruct ovf; vm_compute in P; injection P as <- <-; (split; [reflexivity|]); (split; [|split; [reflexivity|]]).
  1,3: repeat split; vm_compute; discriminate.
  1,2: intros F; apply (found_within _ [lit "a"; lit "a[0]"]) in F;
    [destruct F as [F|[F|[]]]; vm_compute in F; discriminate F
    |intros ch G; vm_compute in G; injection G as <-; vm_compute; intros z Z; tauto
    |repeat apply Forall_cons; [..|apply Forall_nil]; vm_compute; intros z Z; tauto].
Qed.
Print Assumptions C74_unreachable_refuted.

(** [[f]], [f.t]: the root lists t, which is no key of the document *)
Theorem C74_dangling_refuted : forall ovf, exists s x,
  parse (new_parser ovf) (lit "[[f]]" ++ [10] ++ lit "[f.t]") = Ok (s, Full) /\ found s x /\ ~ in_document s x.
Proof.
  intros ovf. destruct (parse (new_parser ovf) (lit "[[f]]" ++ [10] ++ lit "[f.t]")) as [[s f]| |] eqn:P;
    try (destruct ovf; vm_compute in P; discriminate P).
  exists s, (lit "t"). destruct ovf; vm_compute in P; injection P as <- <-; (split; [reflexivity|]); (split; [|]).
  1,3: eapply Fo_top; [vm_compute; reflexivity|vm_compute; auto].
  1,2: intros (_ & _ & H); apply H; reflexivity.
Qed.
Print Assumptions C74_dangling_refuted.
