(** Values printed and read back: lemmas for property C73. *)
From Verif Require Import Str Types Ast State Nom Keys Grammar Api Spec DocSpec ApiSpec CliSpec ShowSpec CtorFacts CliFacts RereadFacts LookFacts PropNest.

Lemma gap_nil : gap []. Proof. apply G_ws. constructor. Qed.
Lemma gap_space : gap [32]. Proof. apply G_ws. constructor; auto. constructor. Qed.
Lemma blanks_space : blanks [32]. Proof. constructor; auto. Qed.
Lemma blanks_nil : blanks []. Proof. constructor. Qed.

Lemma writable_printable : forall v, writable v -> printable v.
Proof.
  induction v using value_ind'; intros W; try constructor; inversion W as [v S|l' N F U|l' N F U]; subst; auto;
    try (inversion S; fail); rewrite Forall_forall in *; intros x I; apply H; auto; apply F; auto.
Qed.

Lemma elems_text : forall l, l <> [] -> Forall (fun v => spells v (value_text v)) l ->
  elems l (separated (lit ", ") (map value_text l)).
Proof.
  intros l N F. induction F as [|x l S F IH]; [congruence|]. destruct l as [|y l].
  - cbn [map separated]. rewrite <- (app_nil_r (value_text x)). apply El_last; auto using gap_nil.
  - change (separated (lit ", ") (map value_text (x :: y :: l))) with
      (value_text x ++ [] ++ lit "," ++ [32] ++ separated (lit ", ") (map value_text (y :: l))).
    apply El_cons; auto using blanks_nil, gap_space. apply IH. discriminate.
Qed.
Lemma fields_text : forall l, l <> [] -> Forall (fun kv => key_name (fst kv) /\ spells (snd kv) (value_text (snd kv))) l ->
  fields l (separated (lit ", ") (map (fun kv => fst kv ++ lit " = " ++ value_text (snd kv)) l)).
Proof.
  intros l N F. induction F as [|[k x] l [K S] F IH]; [congruence|]. cbn [fst snd] in *. destruct l as [|y l].
  - cbn [map separated fst snd]. rewrite <- (app_nil_r (value_text x)).
    apply (Fl_last k [32] [32] x (value_text x) []); auto using blanks_space, gap_nil.
  - change (separated (lit ", ") (map (fun kv => fst kv ++ lit " = " ++ value_text (snd kv)) ((k, x) :: y :: l))) with
      ((k ++ lit " = " ++ value_text x) ++ lit ", " ++
       separated (lit ", ") (map (fun kv => fst kv ++ lit " = " ++ value_text (snd kv)) (y :: l))).
    rewrite <- !app_assoc.
    apply (Fl_cons k [32] [32] x (value_text x) [] [32]); auto using blanks_space, blanks_nil, gap_space.
    apply IH. discriminate.
Qed.

Lemma writable_spells : forall v, writable v -> spells v (value_text v).
Proof.
  induction v using value_ind'; intros W; inversion W as [v S|l' N F U|l' N F U]; subst;
    try (apply Sp_scalar; exact S); try (inversion S; fail).
  - cbn [value_text]. apply (Sp_array l [] _ gap_nil); auto. apply elems_text; auto.
    rewrite Forall_forall in *. auto.
  - cbn [value_text]. apply (Sp_inline l [] _ blanks_nil); auto. apply fields_text; auto.
    rewrite Forall_forall in *. intros x I. destruct (F x I). auto.
Qed.

Scheme spells_i := Minimality for spells Sort Prop
  with elems_i := Minimality for elems Sort Prop
  with fields_i := Minimality for fields Sort Prop.
Combined Scheme spells_all from spells_i, elems_i, fields_i.

Lemma spells_writable_all :
  (forall v t, spells v t -> printable v -> writable v) /\
  (forall l t, elems l t -> Forall printable l -> Forall writable l) /\
  (forall l t, fields l t -> Forall (fun kv => printable (snd kv)) l ->
     Forall (fun kv => key_name (fst kv) /\ writable (snd kv)) l).
Proof.
  apply spells_all; intros; try (constructor; fail).
  - apply Wr_scalar. pose proof (scalar_spelling _ _ H) as [E _]. rewrite <- E. exact H.
  - inversion H3; subst. apply Wr_array; auto.
  - inversion H3; subst. apply Wr_inline; auto.
  - inversion H2; subst. auto.
  - inversion H5; subst. auto.
  - inversion H5; subst. auto.
  - inversion H8; subst. auto.
Qed.
Lemma spells_writable : forall v t, spells v t -> printable v -> writable v.
Proof. apply spells_writable_all. Qed.

Lemma one_line_read : forall ovf k v t, key_name k -> spells v t ->
  exists s, parse (new_parser ovf) (one_line k t) = Ok (s, Full) /\
    forall p, good_path p -> get_value s (k ++ path_text p) = Ok (at_path v p) /\
      get_children s (k ++ path_text p) = option_map kids_of (at_path v p).
Proof.
  intros ovf k v t K S. set (ls := [([] : str, DLine [] k [32] [32] v t [] None)]).
  assert (OK : lines_ok ls).
  { split; [reflexivity|]. split; [|constructor]. cbn. repeat split; auto using blanks_nil, blanks_space. }
  assert (D : distinct (body ls)).
  { constructor; cbn; try constructor; try constructor; auto; intros; try tauto. }
  assert (P : plain_headers (body ls)).
  { intros l1 l2 w0 w1 n w2 w3 c E. destruct l1 as [|x [|y l1]]; discriminate. }
  destruct (C46_paths ovf ls OK D P) as (s & A & B & _). exists s.
  assert (T : lines_text ls = one_line k t).
  { unfold ls, lines_text, one_line. cbn [map concat fst snd dline_text com_text app]. rewrite !app_nil_r. reflexivity. }
  rewrite T in A. split; auto. intros p G. apply (B TRoot k v p); auto. left. reflexivity.
Qed.
