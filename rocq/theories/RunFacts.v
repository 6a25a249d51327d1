(** Facts about runs of the tool that set several keys. *)
From Coq Require Import Lia ZifyBool ZifyNat ZifyN.
From Verif Require Import Str Regex Types Ast State Nom Keys Grammar Api Cli Facts Spec NomFacts DateFacts CtorFacts TypesFacts.
From Verif Require Import ApiSpec RoundTrip ParseFacts IdFacts WriteFacts SetFacts ApiFacts UpdateFacts CliSpec CliFacts PropCli DocSpec SessSpec RunSpec.

Lemma updates_worded : forall s l s', updates s l s' -> exists us, worded l us /\ sets s us s'.
Proof.
  intros s l s' U. induction U as [s|s k val typ v s1 l s' T SV U (us & W & S)].
  - exists []. split; constructor.
  - exists ((k, v) :: us). split; [|eapply Se_one; eauto]. destruct (typed_spells _ _ _ T) as (t & I & H). eapply Wo_cons; eauto.
Qed.
Lemma sets_updates : forall l us, fields l us -> forall s s', sets s us s' -> updates s l s'.
Proof.
  intros l us F. induction F as [|k val typ v l us T F IH]; intros s s' H; inversion H; subst; [apply Up_nil|]. eapply Up_cons; eauto.
Qed.
Lemma fields_count : forall l us, fields l us -> length l = (3 * length us)%nat.
Proof. intros l us F. induction F; cbn [length]; lia. Qed.
Lemma run_worded : forall x o m path text p c, wrote (process_document x o m path text) = Some (p, c) ->
  exists a l us s s', m.(m_set) = Some a /\ x.(x_split) a = Some l /\ worded l us /\ us <> [] /\
    p = or_else m.(m_out) path /\ parse (new_parser x.(x_ovf)) text = Ok (s, Full) /\ sets s us s' /\
    (show_parser s' = Ok c \/ show_parser s' = Panic /\ c = []).
Proof.
  intros x o m path text p c H. destruct (run_writes _ _ _ _ _ _ _ H) as (a & l & n & s & s' & A & B & L & C & D & E & F).
  destruct (updates_worded _ _ _ E) as (us & W & S). exists a, l, us, s, s'. repeat (split; auto).
  intros ->. inversion W; subst. discriminate L.
Qed.
Lemma text_typed : forall t typ val v, In typ (type_names t) -> has_text t val v -> validate v = true ->
  (forall d, v = VDateTime d -> datetime_digits d /\ without_z d = d) -> typed typ val v.
Proof.
  intros t typ val v I H V D. exists t. split; auto. destruct t; cbn [has_text value_of] in *;
    try (subst v; unfold basic_string, ml_basic_string, literal_string, ml_literal_string, int_from_str, float_from_str, checked; rewrite V; reflexivity).
  - destruct H as (b & A & ->). apply bool_from_str_spec. destruct b; auto.
  - destruct H as (d & -> & S). destruct (D d eq_refl) as [G W]. exists d. rewrite W. split; auto. rewrite <- S. cbn [spelling]. rewrite <- show_datetime_src.
    apply datetime_parse_show; auto.
Qed.

(** ** A session in one run *)
Section Run.
  Context {D : Type}.
  Variable pair : str -> str -> str -> str -> value -> str -> str -> option str -> D.
  Variable key_of : list (str * D) -> str -> str.
  Variable text : list (str * D) -> str.
  Lemma session_run : forall x g kvs out path l ls us ls' m', session pair key_of x.(x_ovf) text ls us ls' m' ->
    g.(g_print) = false -> x.(x_split) kvs = Some l -> fields l us -> us <> [] ->
    process_document x (new_options g) (set_values kvs out) path (text ls) =
      Finished (separated (separator g) (repeat (lit "Success") (length us)) ++ [10]) (Some (or_else out path, text ls')) /\
    (forall csv keys vs path', x.(x_split) csv = Some keys -> keys <> [] ->
       Forall2 (fun key v => exists n k0 w p, gives pair key_of ls' n k0 w /\ good_path p /\ key = k0 ++ path_text p /\ at_path w p = Some v) keys vs ->
       Forall printable vs ->
       exists ts, Forall2 (printed g.(g_strip)) vs ts /\
         process_document x (new_options g) (get_values csv) path' (text ls') = Finished (separated (separator g) ts ++ [10]) None) /\
    (forall csv keys path', x.(x_split) csv = Some keys -> Forall (clear_of pair key_of ls) keys ->
       process_document x (new_options g) (get_values csv) path' (text ls') =
       process_document x (new_options g) (get_values csv) path' (text ls)).
  Proof.
    intros x g kvs out path l ls us ls' m' (s & s' & s2 & P & S & SH & P2 & V & C) NP X F NE. split; [|split].
    - destruct (cli_set_ok x kvs (separator g) s l s' X) as (n & L & E); [|eapply sets_updates; eauto|].
      { intros ->. inversion F; subst. congruence. }
      pose proof (fields_count _ _ F) as L'. assert (n = length us) by lia. subst n.
      etransitivity; [exact (run_only_set x g kvs out path _ s s' _ P NP E)|]. cbv iota. rewrite SH. reflexivity.
    - intros csv keys vs path' XC NK FF PR. apply (C51_get_value x g csv keys vs path' (text ls') s2); auto.
      clear - FF V. induction FF as [|key v keys vs H F IH]; constructor; auto. destruct H as (n & k0 & w & p & G & GP & -> & A).
      destruct (V _ _ _ G) as (_ & B & _). destruct (B p GP) as [E _]. rewrite E, A. reflexivity.
    - intros csv keys path' XC FC. apply (run_get_ext x g csv path' _ (text ls') s s2 keys P P2 NP XC). intros k I.
      rewrite Forall_forall in FC. destruct (C k (FC k I)) as (_ & _ & _ & E). exact E.
  Qed.
End Run.
