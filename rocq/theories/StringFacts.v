(** The string expressions on well-formed strings. *)
From Coq Require Import Lia ZifyBool ZifyNat ZifyN.
From Verif Require Import Str Regex Types Facts Spec RegexFacts NumFacts.

(** ** generic *)

Lemma det_lang : forall a f, det a f -> wf a -> forall x s, lang a x -> f (x ++ s) = Some s.
Proof.
  intros a f D W x s L.
  assert (H : rm a (x ++ s) (fun s' => if str_eqb s' s then Some s' else None) <> None).
  { apply rm_complete; auto. rewrite str_eqb_refl. discriminate. }
  rewrite D in H. destruct (f (x ++ s)) as [s'|]; [|congruence].
  destruct (str_eqb s' s) eqn:E; [|congruence]. apply str_eqb_eq in E. subst. reflexivity.
Qed.

Lemma det_step_lang : forall a f, det a f -> forall s s', f s = Some s' -> exists x, s = x ++ s' /\ lang a x.
Proof.
  intros a f D s s' E.
  assert (H : rm a s (fun s => Some s) = Some s') by (rewrite D, E; auto).
  apply rm_sound in H as (m & s1 & -> & L & H). inversion H; subst. eauto.
Qed.

Lemma iter_lang : forall a f, det a f -> wf (RStar true a) ->
  forall l n, Forall (lang a) l -> (length (concat l) <= n)%nat -> iter_step f n (concat l) = [].
Proof.
  intros a f D W l n F. revert n. inversion W; subst. induction F; intros n L; simpl in *.
  - destruct n; simpl; auto. destruct (f []) eqn:E; auto.
    apply (det_step_lang _ _ D) in E as (z & E & Z). destruct z; [|discriminate]. contradiction.
  - assert (x <> []) by (intros ->; contradiction). destruct n.
    + rewrite app_length in L. destruct x; [congruence|simpl in L; lia].
    + simpl. rewrite (det_lang _ _ D H1 _ _ H). apply IHF. rewrite app_length in L.
      destruct x; [congruence|simpl in L; lia].
Qed.

(** whole-string match of a starred deterministic expression *)
Lemma re_full_star : forall a f, det a f -> wf (RStar true a) ->
  forall s, re_full (RStar true a) s = true <-> lang (RStar true a) s.
Proof.
  intros a f D W s. unfold re_full. split.
  - destruct (re_match _ s) as [[m rest]|] eqn:E; [|discriminate].
    destruct rest; [|discriminate]. intros _. apply re_match_sound in E as [-> L].
    rewrite app_nil_r. auto.
  - intros L. apply lang_star in L as (l & -> & F).
    assert (E : rm (RStar true a) (concat l) (fun s' => Some s') = Some []).
    { rewrite rm_star, (star_greedy_det _ _ _ D) by congruence. rewrite (iter_lang a f); auto. }
    rewrite (re_match_rm _ _ (concat l) []); auto. rewrite app_nil_r; auto.
Qed.

(** a lazy star followed by a delimiter *)
Lemma lazy_star : forall a f k, det a f -> wf (RStar false a) ->
  forall l r n, Forall (lang a) l -> (length (concat l) <= n)%nat ->
  (forall x p q, l = p ++ q -> q <> [] -> x = concat q ++ r -> k x = None) ->
  k r <> None -> star_loop false a k n (concat l ++ r) = k r.
Proof.
  intros a f k D W l r n F. inversion W; subst. revert n.
  induction F; intros n L K R; simpl in *.
  - destruct n; cbn [star_loop]; auto. destruct (k r); congruence.
  - assert (x <> []) by (intros ->; contradiction). destruct n.
    + rewrite app_length in L. destruct x; [congruence|simpl in L; lia].
    + cbn [star_loop]. rewrite <- app_assoc.
      rewrite (K (x ++ concat l ++ r) [] (x :: l)); auto; [|discriminate|simpl; rewrite app_assoc; auto].
      rewrite D, (det_lang _ _ D H1 _ _ H). apply IHF; auto.
      * rewrite app_length in L. destruct x; [congruence|simpl in L; lia].
      * intros y p q -> Q ->. apply (K _ (x :: p) q); auto.
Qed.

(** ** first characters *)

Definition esc_step (c : N) (s : str) : option str :=
  match s with a :: b :: s' => if (a =? 92) && (b =? c) then Some s' else None | _ => None end.

Lemma det_chr : forall c, det (RChr c) (fun s => match s with a :: s' => if a =? c then Some s' else None | [] => None end).
Proof.
  intros c. eapply det_ext; [apply det_cls|]. intros [|a s]; auto. cbn [cls_step in_ranges].
  destruct (N.eqb_spec a c).
  - subst. assert ((c <=? c) && (c <=? c) || false = true) as -> by lia. auto.
  - assert ((c <=? a) && (a <=? c) || false = false) as -> by lia. auto.
Qed.

Lemma det_esc : forall c, det (r_esc c) (esc_step c).
Proof.
  intros. unfold r_esc. eapply det_ext; [apply det_seq; apply det_chr|].
  intros [|a [|b s]]; auto.
  - unfold esc_step. destruct (a =? 92); auto.
  - unfold esc_step. destruct (a =? 92); auto.
Qed.

Fixpoint rep_step (n : nat) (f : str -> option str) (s : str) : option str :=
  match n with
  | O => Some s
  | S n' => match f s with Some s' => rep_step n' f s' | None => None end
  end.

Lemma det_rep : forall n a f, det a f -> det (RRep n a) (rep_step n f).
Proof.
  induction n; intros; simpl.
  - apply det_eps.
  - apply det_seq; auto.
Qed.

(** an escape: backslash and then [b] *)
Definition starts2 (b : N) (s : str) : Prop := exists s', s = 92 :: b :: s'.

Lemma esc_starts : forall c s, esc_step c s <> None -> starts2 c s.
Proof.
  intros c [|a [|b s]] H; simpl in H; try congruence.
  destruct (N.eqb_spec a 92); destruct (N.eqb_spec b c); simpl in H; try congruence. subst.
  exists s. auto.
Qed.

Definition uni_step (u : N) (n : nat) (s : str) : option str :=
  match s with
  | a :: b :: s' => if (a =? 92) && (b =? u)
                    then rep_step n (cls_step [(48,57); (65,90)]) s' else None
  | _ => None
  end.

Lemma det_uni : forall u n, det (RSeq (RChr 92) (RSeq (RChr u) (RRep n r_hex))) (uni_step u n).
Proof.
  intros. eapply det_ext.
  - apply det_seq; [apply det_chr|]. apply det_seq; [apply det_chr|]. apply det_rep. apply det_cls.
  - intros [|a [|b s]]; auto; unfold uni_step; destruct (a =? 92); auto.
    destruct (b =? u); auto.
Qed.

Lemma uni_starts : forall u n s, uni_step u n s <> None -> starts2 u s.
Proof.
  intros u n [|a [|b s]] H; simpl in H; try congruence.
  destruct (N.eqb_spec a 92); destruct (N.eqb_spec b u); simpl in H; try congruence. subst.
  exists s. auto.
Qed.

(** alternatives recognised by their first character(s): class [p], or
    backslash and a second character in [q] *)
Definition heads (p q : N -> bool) (f : str -> option str) : Prop :=
  forall s, f s <> None -> (exists c s', s = c :: s' /\ p c = true) \/
                           (exists c s', s = 92 :: c :: s' /\ q c = true).

Lemma heads_disjoint : forall f g p q p' q', heads p q f -> heads p' q' g ->
  (forall c, p c = true -> p' c = true -> False) -> p 92 = false -> p' 92 = false ->
  (forall c, q c = true -> q' c = true -> False) ->
  forall s, f s <> None -> g s = None \/ g s = f s.
Proof.
  intros f g p q p' q' F G D P1 P2 Q s H. left. destruct (g s) eqn:E; auto. exfalso.
  assert (H2 : g s <> None) by congruence.
  destruct (F s H) as [(c & s' & -> & A)|(c & s' & -> & A)];
  destruct (G _ H2) as [(c2 & s2 & E2 & B)|(c2 & s2 & E2 & B)]; inversion E2; subst; eauto; congruence.
Qed.

Lemma heads_alt : forall f g p q p' q', heads p q f -> heads p' q' g ->
  heads (fun c => p c || p' c) (fun c => q c || q' c)
        (fun s => match f s with Some s' => Some s' | None => g s end).
Proof.
  intros f g p q p' q' F G s H. destruct (f s) eqn:E.
  - assert (H2 : f s <> None) by congruence.
    destruct (F s H2) as [(c & s' & -> & A)|(c & s' & -> & A)]; [left|right];
      do 2 eexists; (split; [reflexivity|]); rewrite A; auto.
  - destruct (G s H) as [(c & s' & -> & A)|(c & s' & -> & A)]; [left|right];
      do 2 eexists; (split; [reflexivity|]); rewrite A; apply orb_true_r.
Qed.

Lemma heads_cls : forall l, heads (fun c => in_ranges c l) (fun _ => false) (cls_step l).
Proof.
  intros l [|c s] H; simpl in H; [congruence|]. destruct (in_ranges c l) eqn:E; [|congruence].
  left. eauto.
Qed.
Lemma heads_esc : forall c, heads (fun _ => false) (fun d => d =? c) (esc_step c).
Proof. intros c s H. apply esc_starts in H as (s' & ->). right. do 2 eexists. split; eauto. apply N.eqb_refl. Qed.
Lemma heads_uni : forall u n, heads (fun _ => false) (fun d => d =? u) (uni_step u n).
Proof. intros u n s H. apply uni_starts in H as (s' & ->). right. do 2 eexists. split; eauto. apply N.eqb_refl. Qed.

Lemma det_alt_heads : forall a b f g p q p' q', det a f -> det b g -> heads p q f -> heads p' q' g ->
  (forall c, p c = true -> p' c = true -> False) -> p 92 = false -> p' 92 = false ->
  (forall c, q c = true -> q' c = true -> False) ->
  exists h, det (RAlt a b) h /\ heads (fun c => p c || p' c) (fun c => q c || q' c) h.
Proof.
  intros. eexists. split.
  - apply det_alt; eauto. eapply heads_disjoint; eauto.
  - apply heads_alt; auto.
Qed.

Definition deth (a : re) (p q : N -> bool) : Prop := exists f, det a f /\ heads p q f.

Lemma deth_alt : forall a b p q p' q', deth a p q -> deth b p' q' ->
  (forall c, p c = true -> p' c = true -> False) -> p 92 = false -> p' 92 = false ->
  (forall c, q c = true -> q' c = true -> False) ->
  deth (RAlt a b) (fun c => p c || p' c) (fun c => q c || q' c).
Proof.
  intros a b p q p' q' (f & D & H) (g & D' & H') A B C E.
  destruct (det_alt_heads a b f g p q p' q' D D' H H' A B C E) as (h & X & Y). exists h. auto.
Qed.

Lemma deth_cls : forall l, deth (RCls l) (fun c => in_ranges c l) (fun _ => false).
Proof. intros. eexists. split; [apply det_cls|apply heads_cls]. Qed.
Lemma deth_chr : forall c, deth (RChr c) (fun d => in_ranges d [(c,c)]) (fun _ => false).
Proof. intros. apply deth_cls. Qed.
Lemma deth_esc : forall c, deth (r_esc c) (fun _ => false) (fun d => d =? c).
Proof. intros. eexists. split; [apply det_esc|apply heads_esc]. Qed.
Lemma deth_uni4 : deth r_uni4 (fun _ => false) (fun d => d =? 117).
Proof. eexists. split; [apply det_uni|apply heads_uni]. Qed.
Lemma deth_uni8 : deth r_uni8 (fun _ => false) (fun d => d =? 85).
Proof. eexists. split; [apply det_uni|apply heads_uni]. Qed.
Lemma deth_crlf : deth (RStr [13;10]) (fun d => d =? 13) (fun _ => false).
Proof.
  eexists. split.
  - cbn [RStr]. apply det_seq; [apply det_chr|]. apply det_seq; [apply det_chr|apply det_eps].
  - intros [|a s] H; [congruence|]. left. exists a, s. split; auto. destruct (a =? 13); auto.
Qed.
Lemma deth_cont : deth (RSeq (RChr 92) r_nl) (fun _ => false) (fun d => (d =? 10) || (d =? 13)).
Proof.
  eexists. split.
  - unfold r_nl. apply det_seq; [apply det_chr|]. apply det_alt.
    + apply det_chr.
    + cbn [RStr]. apply det_seq; [apply det_chr|]. apply det_seq; [apply det_chr|apply det_eps].
    + intros [|a s] H; [congruence|]. left. destruct (N.eqb_spec a 10); [|congruence]. subst. auto.
  - intros [|a [|b s]] H.
    + congruence.
    + destruct (a =? 92); congruence.
    + destruct (N.eqb_spec a 92); [|congruence]. subst. right. exists b, s. split; auto.
      destruct (b =? 10); auto. destruct (b =? 13); auto.
Qed.

Ltac heads_tac := intros; cbn [in_ranges] in *; lia.
Ltac deth_step := eapply deth_alt;
  [first [apply deth_chr | apply deth_cls | apply deth_esc | apply deth_uni4 | apply deth_uni8
         | apply deth_crlf | apply deth_cont] | | heads_tac | heads_tac | heads_tac | heads_tac].

Lemma det_basic_item : exists f, det r_basic_item f.
Proof.
  cut (exists p q, deth r_basic_item p q). { intros (p & q & f & D & _). eauto. }
  unfold r_basic_item, RAlts. do 2 eexists.
  repeat (eapply deth_alt; [first [apply deth_chr | apply deth_cls | apply deth_esc | apply deth_uni4
   | apply deth_uni8 | apply deth_crlf | apply deth_cont] | | | | | ]).
  all: try heads_tac.
  apply deth_uni8.
  all: try heads_tac.
Qed.

Lemma det_ml_basic_item : exists f, det r_ml_basic_item f.
Proof.
  cut (exists p q, deth r_ml_basic_item p q). { intros (p & q & f & D & _). eauto. }
  unfold r_ml_basic_item, RAlts. do 2 eexists.
  repeat (eapply deth_alt; [first [apply deth_chr | apply deth_cls | apply deth_esc | apply deth_uni4
   | apply deth_uni8 | apply deth_crlf | apply deth_cont] | | | | | ]).
  all: try heads_tac.
  apply deth_cont.
  all: try heads_tac.
Qed.

Lemma det_literal_item : exists f, det r_literal_item f.
Proof.
  unfold r_literal_item, RAlts. eexists.
  apply det_alt; [apply det_cls| |].
  - apply det_alt; [apply det_cls|apply det_cls|].
    intros [|c s] H; [exfalso; apply H; reflexivity|]. left. cbn [cls_step in_ranges] in *. revert H.
    destruct ((32 <=? c) && (c <=? 38) || false) eqn:E; intros H; [|congruence].
    assert ((40 <=? c) && (c <=? 65535) || false = false) as -> by lia. auto.
  - intros [|c s] H; [exfalso; apply H; reflexivity|]. right. cbn [cls_step in_ranges] in *. revert H.
    destruct ((32 <=? c) && (c <=? 32) || false) eqn:E; intros H; [|congruence].
    assert ((32 <=? c) && (c <=? 38) || false = true) as -> by lia. auto.
Qed.

Lemma wf_star_basic : forall g, wf (RStar g r_basic_item).
Proof. intros. apply wfb_wf. vm_compute. auto. Qed.
Lemma wf_star_ml_basic : forall g, wf (RStar g r_ml_basic_item).
Proof. intros. apply wfb_wf. vm_compute. auto. Qed.
Lemma wf_star_literal : forall g, wf (RStar g r_literal_item).
Proof. intros. apply wfb_wf. vm_compute. auto. Qed.

(** ** the languages of the items *)

Lemma lang_alts : forall l m, lang (RAlts l) m <-> exists a, In a l /\ lang a m.
Proof.
  induction l as [|a l IH]; intros m.
  - cbn [RAlts]. split.
    + intros L. apply lang_cls in L as (c & _ & H). discriminate.
    + intros (a & [] & _).
  - destruct l as [|b l].
    + cbn [RAlts]. split; [intros; exists a; simpl; auto|]. intros (x & [->|[]] & L); auto.
    + change (RAlts (a :: b :: l)) with (RAlt a (RAlts (b :: l))). rewrite lang_alt, IH. split.
      * intros [L|(x & I & L)]; [exists a|exists x]; simpl in *; tauto.
      * intros (x & [->|I] & L); eauto.
Qed.

Lemma lang_esc : forall c m, lang (r_esc c) m <-> m = [92; c].
Proof.
  intros. unfold r_esc. rewrite lang_seq. split.
  - intros (x & y & -> & X & Y). apply lang_chr in X, Y. subst. auto.
  - intros ->. exists [92], [c]. repeat split; apply lang_chr; auto.
Qed.

Lemma hexes_cls : forall n h,
  hexes n h <-> length h = n /\ Forall (fun c => in_ranges c [(48,57); (65,90)] = true) h.
Proof.
  intros. unfold hexes. split; intros [L F]; split; auto; eapply Forall_impl; try exact F;
    intros c H; cbn [in_ranges] in *; lia.
Qed.

Lemma lang_uni : forall u n m,
  lang (RSeq (RChr 92) (RSeq (RChr u) (RRep n r_hex))) m <-> exists h, hexes n h /\ m = 92 :: u :: h.
Proof.
  intros. rewrite lang_seq. split.
  - intros (x & y & -> & X & Y). apply lang_seq in Y as (z & h & -> & Z & H).
    apply lang_chr in X, Z. subst. exists h. split; auto.
    apply hexes_cls. apply lang_rep_cls in H. tauto.
  - intros (h & H & ->). apply hexes_cls in H. exists [92], (u :: h). repeat split; [apply lang_chr; auto|].
    apply lang_seq. exists [u], h. repeat split; [apply lang_chr; auto|]. apply lang_rep_cls. tauto.
Qed.

Lemma lang_crlf : forall m, lang (RStr [13;10]) m <-> m = [13;10].
Proof. intros. apply lang_str. Qed.

Lemma lang_cont : forall m, lang (RSeq (RChr 92) r_nl) m <-> m = [92;10] \/ m = [92;13;10].
Proof.
  intros. unfold r_nl. rewrite lang_seq. split.
  - intros (x & y & -> & X & Y). apply lang_chr in X. subst.
    apply lang_alt in Y as [Y|Y]; [apply lang_chr in Y|apply lang_crlf in Y]; subst; auto.
  - intros [-> | ->]; [exists [92], [10]|exists [92], [13;10]]; repeat split; try (apply lang_chr; auto);
      apply lang_alt; [left; apply lang_chr; auto|right; apply lang_crlf; auto].
Qed.

Ltac in_cases := repeat match goal with
  | H : In _ (_ :: _) |- _ => destruct H as [<-|H]
  | H : In _ [] |- _ => destruct H
  end.

Lemma basic_body_app : forall m t, lang r_basic_item m -> basic_body t -> basic_body (m ++ t).
Proof.
  intros m t L B. unfold r_basic_item in L. apply lang_alts in L as (a & I & L).
  in_cases;
    try (apply lang_esc in L; subst; cbn [app]; apply BB_esc; [simpl; tauto|auto]);
    try (apply lang_uni in L as (h & H & ->); cbn [app]; first [apply BB_u4|apply BB_u8]; auto);
    try (apply lang_cls in L as (c & -> & H); cbn [in_ranges] in H; cbn [app]; apply BB_char; auto; lia).
Qed.

Ltac in_list := first [left; reflexivity | right; in_list].

Lemma lang_basic : forall g s, lang (RStar g r_basic_item) s <-> basic_body s.
Proof.
  intros. split.
  - intros L. apply lang_star in L as (l & -> & F). induction F; simpl; [constructor|].
    apply basic_body_app; auto.
  - intros B. induction B.
    + constructor.
    + change (c :: t) with ([c] ++ t). constructor; auto. unfold r_basic_item. apply lang_alts.
      assert (C : c = 32 \/ c = 33 \/ 35 <= c <= 91 \/ 93 <= c <= 65535) by lia.
      destruct C as [->|[->|[C|C]]]; eexists; (split; [|apply lang_cls; eexists; split; [reflexivity|]]);
        [in_list|reflexivity|right; in_list|reflexivity|do 2 right; in_list|cbn [in_ranges]; lia
        |do 3 right; in_list|cbn [in_ranges]; lia].
    + change (92 :: c :: t) with ([92; c] ++ t). constructor; auto. unfold r_basic_item.
      apply lang_alts. exists (r_esc c). split; [|apply lang_esc; auto].
      in_cases; in_list.
    + change (92 :: 117 :: h ++ t) with ((92 :: 117 :: h) ++ t). constructor; auto.
      unfold r_basic_item. apply lang_alts. exists r_uni4. split; [in_list|]. apply lang_uni. eauto.
    + change (92 :: 85 :: h ++ t) with ((92 :: 85 :: h) ++ t). constructor; auto.
      unfold r_basic_item. apply lang_alts. exists r_uni8. split; [in_list|]. apply lang_uni. eauto.
Qed.

Lemma ml_basic_body_app : forall m t, lang r_ml_basic_item m -> ml_basic_body t -> ml_basic_body (m ++ t).
Proof.
  intros m t L B. unfold r_ml_basic_item in L. apply lang_alts in L as (a & I & L).
  in_cases;
    try (apply lang_esc in L; subst; cbn [app]; apply MB_esc; [simpl; tauto|auto]);
    try (apply lang_uni in L as (h & H & ->); cbn [app]; first [apply MB_u4|apply MB_u8]; auto);
    try (apply lang_cont in L as [-> | ->]; cbn [app]; first [apply MB_cont|apply MB_cont2]; auto);
    try (apply lang_crlf in L; subst; cbn [app]; apply MB_crlf; auto);
    try (apply lang_chr in L; subst; cbn [app]; first [apply MB_tab|apply MB_lf]; solve [auto]);
    try (apply lang_cls in L as (c & -> & H); cbn [in_ranges] in H; cbn [app]; apply MB_char; auto; lia).
Qed.

Lemma lang_ml_basic : forall g s, lang (RStar g r_ml_basic_item) s <-> ml_basic_body s.
Proof.
  intros. split.
  - intros L. apply lang_star in L as (l & -> & F). induction F; simpl; [constructor|].
    apply ml_basic_body_app; auto.
  - intros B. induction B.
    + constructor.
    + change (c :: t) with ([c] ++ t). constructor; auto. apply lang_alts.
      assert (C : 32 <= c <= 91 \/ 93 <= c <= 65535) by lia.
      destruct C as [C|C]; eexists; (split; [|apply lang_cls; eexists; split; [reflexivity|]]);
        [in_list|cbn [in_ranges]; lia|right; in_list|cbn [in_ranges]; lia].
    + change (9 :: t) with ([9] ++ t). constructor; auto. apply lang_alts.
      exists (RChr 9). split; [in_list|apply lang_chr; auto].
    + change (10 :: t) with ([10] ++ t). constructor; auto. apply lang_alts.
      exists (RChr 10). split; [in_list|apply lang_chr; auto].
    + change (13 :: 10 :: t) with ([13;10] ++ t). constructor; auto. apply lang_alts.
      exists (RStr [13;10]). split; [in_list|apply lang_crlf; auto].
    + change (92 :: c :: t) with ([92; c] ++ t). constructor; auto. apply lang_alts.
      exists (r_esc c). split; [|apply lang_esc; auto]. in_cases; in_list.
    + change (92 :: 10 :: t) with ([92; 10] ++ t). constructor; auto. apply lang_alts.
      exists (RSeq (RChr 92) r_nl). split; [in_list|]. apply lang_cont; auto.
    + change (92 :: 13 :: 10 :: t) with ([92; 13; 10] ++ t). constructor; auto. apply lang_alts.
      exists (RSeq (RChr 92) r_nl). split; [in_list|]. apply lang_cont; auto.
    + change (92 :: 117 :: h ++ t) with ((92 :: 117 :: h) ++ t). constructor; auto.
      apply lang_alts. exists r_uni4. split; [in_list|]. apply lang_uni. eauto.
    + change (92 :: 85 :: h ++ t) with ((92 :: 85 :: h) ++ t). constructor; auto.
      apply lang_alts. exists r_uni8. split; [in_list|]. apply lang_uni. eauto.
Qed.

Lemma lang_literal : forall g s, lang (RStar g r_literal_item) s <-> literal_body s.
Proof.
  intros. split.
  - intros L. apply lang_star in L as (l & -> & F). induction F; simpl; [constructor|].
    unfold literal_body. apply Forall_app. split; auto. apply lang_alts in H as (a & I & L).
    in_cases; apply lang_cls in L as (c & -> & H); cbn [in_ranges] in H; constructor; auto; lia.
  - intros B. induction B; [constructor|]. destruct H as [H1 H2].
    change (x :: l) with ([x] ++ l). constructor; auto. apply lang_alts.
    assert (C : 32 <= x <= 38 \/ 40 <= x <= 65535) by lia.
    destruct C as [C|C]; eexists; (split; [|apply lang_cls; eexists; split; [reflexivity|]]);
      [right; in_list|cbn [in_ranges]; lia|do 2 right; in_list|cbn [in_ranges]; lia].
Qed.

(** ** validation *)

Lemma validate_basic : forall s, validate (VString s SBasic) = true <-> basic_body s.
Proof.
  intros. cbn [validate]. destruct det_basic_item as [f D].
  unfold re_quoteless_basic. rewrite (re_full_star _ _ D (wf_star_basic true)). apply lang_basic.
Qed.
Lemma validate_ml_basic : forall s, validate (VString s SMLBasic) = true <-> ml_basic_body s.
Proof.
  intros. cbn [validate]. destruct det_ml_basic_item as [f D].
  unfold re_quoteless_ml_basic. rewrite (re_full_star _ _ D (wf_star_ml_basic true)). apply lang_ml_basic.
Qed.
Lemma validate_literal : forall s, validate (VString s SLiteral) = true <-> literal_body s.
Proof.
  intros. cbn [validate]. destruct det_literal_item as [f D].
  unfold re_quoteless_literal. rewrite (re_full_star _ _ D (wf_star_literal true)). apply lang_literal.
Qed.

(** ** reading *)

Lemma rm_chr : forall c s k, rm (RChr c) s k = match s with a :: s' => if a =? c then k s' else None | [] => None end.
Proof. intros. rewrite det_chr. destruct s as [|a s]; auto. destruct (a =? c); auto. Qed.

Lemma rm_chr_ok : forall c s k, rm (RChr c) (c :: s) k = k s.
Proof. intros. rewrite rm_chr, N.eqb_refl. auto. Qed.

Lemma rm_seq : forall a b s k, rm (RSeq a b) s k = rm a s (fun s' => rm b s' k).
Proof. reflexivity. Qed.

Lemma rm_str : forall q s k, rm (RStr q) s k = if starts_with q s then k (skipn (length q) s) else None.
Proof.
  induction q as [|c q IH]; intros s k; [destruct s; reflexivity|].
  change (RStr (c :: q)) with (RSeq (RChr c) (RStr q)). rewrite rm_seq, rm_chr.
  destruct s as [|a s]; [reflexivity|]. cbn [starts_with length skipn]. rewrite N.eqb_sym.
  destruct (c =? a); auto. rewrite IH. auto.
Qed.

Lemma rm_str_ok : forall q s k, rm (RStr q) (q ++ s) k = k s.
Proof.
  intros. rewrite rm_str. assert (starts_with q (q ++ s) = true) as -> by (apply starts_with_app; eauto).
  rewrite skipn_app, skipn_all, Nat.sub_diag. auto.
Qed.

(** delimiter [q], lazily starred item, delimiter *)
Lemma read_delim : forall a f q x r, det a f -> wf (RStar false a) ->
  lang (RStar false a) x ->
  (forall y z, x = y ++ z -> z <> [] -> lang (RStar false a) z -> starts_with q (z ++ q ++ r) = false) ->
  re_match (RSeq (RStr q) (RSeq (RStar false a) (RStr q))) ((q ++ x ++ q) ++ r) = Some (q ++ x ++ q, r).
Proof.
  intros a f q x r D W L H. apply re_match_rm; auto. rewrite <- !app_assoc.
  rewrite rm_seq, rm_str_ok, rm_seq, rm_star.
  apply lang_star in L as (l & -> & F).
  rewrite (lazy_star a f); auto.
  - apply rm_str_ok.
  - rewrite app_length. lia.
  - intros y p z -> Z ->. rewrite rm_str. rewrite (H (concat p) (concat z)); auto.
    + apply concat_app.
    + apply Forall_app in F as [_ F]. inversion W; subst. destruct z as [|z zs]; [congruence|].
      inversion F; subst. simpl. destruct z; [contradiction|discriminate].
    + apply lang_star. exists z. split; auto. apply Forall_app in F as [_ F]. auto.
  - rewrite rm_str_ok. discriminate.
Qed.

Lemma RStr1 : forall c s k, rm (RChr c) s k = rm (RStr [c]) s k.
Proof. intros. cbn [RStr]. reflexivity. Qed.

Lemma basic_head : forall z, basic_body z -> z <> [] -> exists c z', z = c :: z' /\ c <> 34.
Proof. intros z B N. inversion B; subst; try congruence; eexists; eexists; split; try reflexivity; auto; discriminate. Qed.

Lemma read_basic : forall x r, basic_body x ->
  re_match re_raw_basic ((34 :: x ++ [34]) ++ r) = Some (34 :: x ++ [34], r).
Proof.
  intros x r B. destruct det_basic_item as [f D].
  assert (E : re_match (RSeq (RStr [34]) (RSeq (RStar false r_basic_item) (RStr [34])))
                (([34] ++ x ++ [34]) ++ r) = Some ([34] ++ x ++ [34], r)).
  { apply (read_delim _ f); auto; [apply wf_star_basic|apply lang_basic; auto|].
    intros y z -> Z L. apply lang_basic in L. apply basic_head in L as (c & z' & -> & C); auto.
    cbn [app starts_with]. destruct (N.eqb_spec 34 c); [congruence|auto]. }
  exact E.
Qed.

(** a greedy star followed by what no element begins with *)
Lemma greedy_star : forall a f k, det a f -> wf (RStar true a) ->
  forall l r n, Forall (lang a) l -> (length (concat l) <= n)%nat -> f r = None ->
  k r <> None -> star_loop true a k n (concat l ++ r) = k r.
Proof.
  intros a f k D W l r n F. inversion W; subst. revert n.
  induction F; intros n L R K; simpl in *.
  - destruct n; cbn [star_loop]; auto. rewrite D, R. auto.
  - assert (x <> []) by (intros ->; contradiction). destruct n.
    + rewrite app_length in L. destruct x; [congruence|simpl in L; lia].
    + cbn [star_loop]. rewrite <- app_assoc. rewrite D, (det_lang _ _ D H1 _ _ H). rewrite IHF; auto.
      * destruct (k r); congruence.
      * rewrite app_length in L. destruct x; [congruence|simpl in L; lia].
Qed.

Lemma basic_item_quote : forall f r, det r_basic_item f -> f (34 :: r) = None.
Proof.
  intros f r D. pose proof (D (34 :: r) (fun s => Some s)) as H. destruct (f (34 :: r)); [|auto].
  vm_compute in H. discriminate H.
Qed.

Lemma read_quoted : forall x r, x <> [] -> basic_body x ->
  re_match re_quoted_key ((34 :: x ++ [34]) ++ r) = Some (34 :: x ++ [34], r).
Proof.
  intros x r N B. destruct det_basic_item as [f D]. pose proof (wf_star_basic true) as W.
  apply re_match_rm; auto. unfold re_quoted_key, RPlus. rewrite rm_seq, RStr1.
  replace ((34 :: x ++ [34]) ++ r) with ([34] ++ x ++ 34 :: r) by (cbn [app]; rewrite <- app_assoc; auto).
  rewrite rm_str_ok, rm_seq, rm_seq. apply (lang_basic true) in B. apply lang_star in B as (l & -> & F).
  destruct l as [|y l]; [exfalso; apply N; reflexivity|]. inversion F; subst. cbn [concat]. rewrite <- app_assoc.
  assert (WI : wf r_basic_item) by (inversion W; auto).
  rewrite D, (det_lang _ _ D WI y _ H1), rm_star, (greedy_star _ f); auto.
  - rewrite app_length. lia.
  - apply basic_item_quote; auto.
  - cbv beta. rewrite RStr1, (rm_str_ok [34] r). discriminate.
Qed.

(** the end of a quoted text is where its quotes say *)
Lemma quoted_split : forall x y r r', basic_body x -> basic_body y -> x ++ 34 :: r = y ++ 34 :: r' -> x = y /\ r = r'.
Proof.
  intros x y r r' X Y E. pose proof (read_basic x r X) as A. pose proof (read_basic y r' Y) as B.
  replace ((34 :: x ++ [34]) ++ r) with (34 :: x ++ 34 :: r) in A by (cbn [app]; rewrite <- app_assoc; auto).
  replace ((34 :: y ++ [34]) ++ r') with (34 :: y ++ 34 :: r') in B by (cbn [app]; rewrite <- app_assoc; auto).
  rewrite E, B in A. injection A as A ->. split; auto. apply app_inj_tail in A as [A _]. auto.
Qed.

Lemma read_literal : forall x r, literal_body x ->
  re_match re_raw_literal ((39 :: x ++ [39]) ++ r) = Some (39 :: x ++ [39], r).
Proof.
  intros x r B. destruct det_literal_item as [f D].
  assert (E : re_match (RSeq (RStr [39]) (RSeq (RStar false r_literal_item) (RStr [39])))
                (([39] ++ x ++ [39]) ++ r) = Some ([39] ++ x ++ [39], r)).
  { apply (read_delim _ f); auto; [apply wf_star_literal|apply lang_literal; auto|].
    intros y z -> Z L. apply lang_literal in L. destruct z as [|c z]; [congruence|].
    inversion L as [|? ? [C1 C2] ?]; subst. cbn [app starts_with].
    destruct (N.eqb_spec 39 c); [congruence|auto]. }
  exact E.
Qed.

(** the delimiter does not occur earlier *)
Lemma closes_starts : forall q x y z r, closes_at_end q x -> x = y ++ z -> z <> [] ->
  starts_with [q;q;q] (z ++ [q;q;q] ++ r) = false.
Proof.
  intros q x y z r C -> Z. destruct (starts_with [q;q;q] (z ++ [q;q;q] ++ r)) eqn:E; auto. exfalso.
  apply starts_with_app in E as (t & E).
  assert (S : exists b, z ++ [q;q;q] = [q;q;q] ++ b /\ b <> []).
  { destruct z as [|z1 [|z2 [|z3 z]]]; [congruence| | |]; cbn [app] in E; inversion E; subst;
    eexists; (split; [reflexivity|]); try discriminate. destruct z; discriminate. }
  destruct S as (b & S & B). apply B. apply (C y b). rewrite <- app_assoc, S. auto.
Qed.

Lemma read_ml_basic : forall x r, ml_basic_body x -> closes_at_end 34 x ->
  re_match re_raw_ml_basic (([34;34;34] ++ x ++ [34;34;34]) ++ r) =
  Some ([34;34;34] ++ x ++ [34;34;34], r).
Proof.
  intros x r B C. destruct det_ml_basic_item as [f D].
  apply (read_delim _ f); auto; [apply wf_star_ml_basic|apply lang_ml_basic; auto|].
  intros y z E Z _. eapply closes_starts; eauto.
Qed.

(** ** multi-line literal strings: two spaces may be one item or two *)

Lemma rm_mll_item : forall s k, rm r_ml_literal_item s k =
  match (match s with
         | a :: b :: s' => if (a =? 32) && (b =? 32) then k s' else None
         | _ => None end) with
  | Some x => Some x
  | None =>
    match s with
    | [] => None
    | c :: s' => if (32 <=? c) && (c <=? 65535) then k s' else
                 if c =? 10 then k s' else
                 if c =? 13 then match s' with d :: s'' => if d =? 10 then k s'' else None | [] => None end
                 else None
    end
  end.
Proof.
  intros s k. unfold r_ml_literal_item, RAlts.
  change (rm (RAlt (RStr [32; 32]) (RAlt (RCls [(32, 65535)]) (RAlt (RChr 10) (RStr [13; 10])))) s k)
    with (match rm (RStr [32;32]) s k with Some x => Some x | None =>
            match rm (RCls [(32,65535)]) s k with Some x => Some x | None =>
              match rm (RChr 10) s k with Some x => Some x | None => rm (RStr [13;10]) s k end end end).
  rewrite !rm_str, rm_chr.
  assert (E1 : (if starts_with [32;32] s then k (skipn (length [32;32]) s) else None) =
    match s with a :: b :: s' => if (a =? 32) && (b =? 32) then k s' else None | _ => None end).
  { destruct s as [|a [|b s]]; cbn [starts_with length skipn]; auto.
    - rewrite andb_false_r. auto.
    - rewrite andb_true_r, (N.eqb_sym 32 a), (N.eqb_sym 32 b). auto. }
  rewrite E1. clear E1. destruct (match s with a :: b :: s' => _ | _ => _ end); auto.
  destruct s as [|c s]; auto.
  assert (E2 : rm (RCls [(32, 65535)]) (c :: s) k = if (32 <=? c) && (c <=? 65535) then k s else None).
  { cbn [rm in_ranges]. rewrite orb_false_r. auto. }
  rewrite E2. clear E2.
  destruct ((32 <=? c) && (c <=? 65535)) eqn:G.
  - assert (c =? 10 = false) as -> by lia.
    destruct (k s); auto. cbn [starts_with]. assert (13 =? c = false) as -> by lia. auto.
  - destruct (N.eqb_spec c 10).
    + subst. destruct (k s); auto.
    + cbn [starts_with]. rewrite (N.eqb_sym 13 c). destruct (c =? 13); auto.
      destruct s as [|d s]; auto. cbn [starts_with andb length skipn]. rewrite andb_true_r, (N.eqb_sym 10 d). auto.
Qed.

Lemma mll_inv : forall c t, ml_literal_body (c :: t) ->
  (32 <= c <= 65535 /\ ml_literal_body t) \/ (c = 10 /\ ml_literal_body t) \/
  (c = 13 /\ exists t', t = 10 :: t' /\ ml_literal_body t').
Proof. intros c t H. inversion H; subst; eauto 6. Qed.

(** greedy, nothing required of what follows *)
Lemma star_mll_total : forall n s, (length s <= n)%nat -> ml_literal_body s ->
  star_loop true r_ml_literal_item (fun s => Some s) n s = Some [].
Proof.
  induction n as [|n IH]; intros s L B.
  - destruct s; [reflexivity|simpl in L; lia].
  - cbn [star_loop]. rewrite rm_mll_item. destruct s as [|c t]; [reflexivity|]. simpl in L.
    apply mll_inv in B as [[C B]|[[-> B]|(-> & t' & -> & B)]].
    + assert ((32 <=? c) && (c <=? 65535) = true) as -> by lia.
      assert (E : star_loop true r_ml_literal_item (fun s0 => Some s0) n t = Some []) by (apply IH; auto; lia).
      rewrite E. destruct t as [|b t']; auto.
      destruct ((c =? 32) && (b =? 32)) eqn:G; auto.
      apply mll_inv in B as [[_ B]|[[-> _]|(-> & _)]]; [|rewrite andb_false_r in G; discriminate|rewrite andb_false_r in G; discriminate].
      rewrite IH; auto. simpl in L. lia.
    + change (10 =? 32) with false. cbn [andb].
      assert (E : star_loop true r_ml_literal_item (fun s0 => Some s0) n t = Some []) by (apply IH; auto; lia).
      change ((32 <=? 10) && (10 <=? 65535)) with false. cbv iota. change (10 =? 10) with true. cbv iota.
      rewrite E. destruct t; auto.
    + change (13 =? 32) with false. cbn [andb]. change ((32 <=? 13) && (13 <=? 65535)) with false.
      change (13 =? 10) with false. change (13 =? 13) with true. change (10 =? 10) with true. cbv iota.
      rewrite IH; auto. simpl in L. lia.
Qed.

Lemma lang_mll : forall g s, lang (RStar g r_ml_literal_item) s <-> ml_literal_body s.
Proof.
  intros. split.
  - intros L. apply lang_star in L as (l & -> & F). induction F; simpl; [constructor|].
    apply lang_alts in H as (a & I & L). in_cases.
    + apply lang_str in L. subst. cbn [app]. apply ML_char; [lia|]. apply ML_char; [lia|auto].
    + apply lang_cls in L as (c & -> & H). cbn [in_ranges] in H. cbn [app]. apply ML_char; [lia|auto].
    + apply lang_chr in L. subst. cbn [app]. apply ML_lf. auto.
    + apply lang_str in L. subst. cbn [app]. apply ML_crlf. auto.
  - intros B. induction B.
    + constructor.
    + change (c :: t) with ([c] ++ t). constructor; auto. apply lang_alts. eexists. split; [right; in_list|].
      apply lang_cls. eexists. split; [reflexivity|]. cbn [in_ranges]. lia.
    + change (10 :: t) with ([10] ++ t). constructor; auto. apply lang_alts.
      exists (RChr 10). split; [in_list|apply lang_chr; auto].
    + change (13 :: 10 :: t) with ([13;10] ++ t). constructor; auto. apply lang_alts.
      exists (RStr [13;10]). split; [in_list|apply lang_crlf; auto].
Qed.

Lemma validate_ml_literal : forall s, validate (VString s SMLLiteral) = true <-> ml_literal_body s.
Proof.
  intros. cbn [validate]. unfold re_quoteless_ml_literal, re_full. split.
  - destruct (re_match _ s) as [[m rest]|] eqn:E; [|discriminate].
    destruct rest; [|discriminate]. intros _. apply re_match_sound in E as [-> L].
    rewrite app_nil_r. apply lang_mll in L. auto.
  - intros B. rewrite (re_match_rm _ _ s []); auto; [rewrite app_nil_r; auto|].
    rewrite rm_star. apply star_mll_total; auto.
Qed.

Lemma closes_tail : forall q c x, closes_at_end q (c :: x) -> closes_at_end q x.
Proof. intros q c x C a b E. apply (C (c :: a) b). cbn [app]. f_equal. auto. Qed.

Lemma lazy_mll : forall q r n x, (length x <= n)%nat -> ml_literal_body x -> closes_at_end q x ->
  q <> 32 -> q <> 10 ->
  star_loop false r_ml_literal_item (fun s => rm (RStr [q;q;q]) s (fun s => Some s)) n (x ++ [q;q;q] ++ r) = Some r.
Proof.
  intros q r. induction n as [|n IH]; intros x L B C Q1 Q2.
  - destruct x; [|simpl in L; lia]. cbn [star_loop]. apply (rm_str_ok [q;q;q]).
  - destruct x as [|c t].
    + change ([] ++ [q;q;q] ++ r) with ([q;q;q] ++ r). cbn [star_loop]. rewrite (rm_str_ok [q;q;q]). auto.
    + cbn [star_loop]. rewrite rm_str at 1.
      rewrite (closes_starts q (c :: t) [] (c :: t)) by (auto; discriminate).
      simpl in L. rewrite rm_mll_item. change ((c :: t) ++ [q;q;q] ++ r) with (c :: t ++ [q;q;q] ++ r).
      pose proof (closes_tail _ _ _ C) as C'.
      apply mll_inv in B as [[K B]|[[-> B]|(-> & t' & -> & B)]].
      * assert ((32 <=? c) && (c <=? 65535) = true) as -> by lia.
        rewrite (IH t) by (auto; lia).
        destruct t as [|b t']; cbn [app].
        -- destruct (N.eqb_spec q 32); [congruence|]. rewrite andb_false_r. auto.
        -- destruct ((c =? 32) && (b =? 32)) eqn:G; auto.
           apply mll_inv in B as [[_ B]|[[-> _]|(-> & _)]]; [|rewrite andb_false_r in G; discriminate|rewrite andb_false_r in G; discriminate].
           change (q :: q :: q :: r) with ([q;q;q] ++ r).
           rewrite IH; auto; [simpl in L; lia|]. eapply closes_tail; eauto.
      * change (10 =? 32) with false. cbn [andb].
        change ((32 <=? 10) && (10 <=? 65535)) with false. cbv iota. change (10 =? 10) with true. cbv iota.
        rewrite (IH t) by (auto; lia). destruct (t ++ _); auto.
      * change (13 =? 32) with false. cbn [andb app]. change ((32 <=? 13) && (13 <=? 65535)) with false.
        change (13 =? 10) with false. change (13 =? 13) with true. change (10 =? 10) with true. cbv iota.
        change (q :: q :: q :: r) with ([q;q;q] ++ r).
        rewrite IH; auto; [simpl in L; lia|]. eapply closes_tail; eauto.
Qed.

Lemma read_ml_literal : forall x r, ml_literal_body x -> closes_at_end 39 x ->
  re_match re_raw_ml_literal (([39;39;39] ++ x ++ [39;39;39]) ++ r) =
  Some ([39;39;39] ++ x ++ [39;39;39], r).
Proof.
  intros x r B C. apply re_match_rm; auto. rewrite <- !app_assoc. unfold re_raw_ml_literal.
  rewrite rm_seq, rm_str_ok, rm_seq, rm_star. apply lazy_mll; auto; try discriminate.
  rewrite app_length. lia.
Qed.
