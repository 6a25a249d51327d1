(** Facts about the run of the tool after one that set values. *)
From Coq Require Import Lia ZifyBool ZifyNat ZifyN.
From Verif Require Import TotalFacts Str Regex Types Ast State Nom Keys Grammar Api Cli Facts Spec NomFacts DateFacts CtorFacts TypesFacts.
From Verif Require Import ApiSpec RoundTrip ParseFacts WalkFacts IdFacts WriteFacts SetFacts ApiFacts UpdateFacts CliSpec CliFacts PropCli DocSpec SessSpec RunSpec RunFacts
  DotSpec TreeSpec WholeSpec WholeFacts TwinSpec KinSpec KinFacts StaySpec AgainSpec AgainFacts NextSpec.

(** ** Runs that only ask *)
Lemma has_ext : forall ask ask' sep tc fc tv fv, (forall k, ask k = ask' k) -> forall keys i result,
  has_loop ask sep tc fc tv fv i keys result = has_loop ask' sep tc fc tv fv i keys result.
Proof.
  intros ask ask' sep tc fc tv fv E. induction keys as [|k keys IH]; intros i result; auto. cbn [has_loop]. destruct tv as [tvs|]; auto. destruct (choose tvs i); auto. cbn [rbind].
  destruct fv as [fvs|]; auto. destruct (choose fvs i); auto. cbn [rbind]. rewrite E. destruct (ask' k); auto. cbn [rbind]. apply IH.
Qed.
Lemma children_ext : forall s s' sep a b c d, (forall k, get_children s k = get_children s' k) -> forall keys result,
  children_loop sep a b c d s keys result = children_loop sep a b c d s' keys result.
Proof.
  intros s s' sep a b c d E. induction keys as [|k keys IH]; intros result; auto. cbn [children_loop]. rewrite E. destruct (get_children s' k) as [[n|l]|]; auto. destruct (n =? 0); auto.
Qed.
Lemma run_ext : forall x g m path text text' s s',
  parse (new_parser x.(x_ovf)) text = Ok (s, Full) -> parse (new_parser x.(x_ovf)) text' = Ok (s', Full) -> g.(g_print) = false -> m.(m_set) = None ->
  (forall csv keys k, m.(m_get) = Some csv -> x.(x_split) csv = Some keys -> In k keys -> get_value s' k = get_value s k) -> kindred_answers s s' ->
  process_document x (new_options g) m path text' = process_document x (new_options g) m path text.
Proof.
  intros x g m path text text' s s' P P' NP NS H [KC KV].
  unfold process_document. rewrite P, P'. cbn [orun refusal].
  assert (E1 : step (m_get m) [] tt (fun a => let? r := cli_get_value x a (o_sep (new_options g)) (o_strip (new_options g)) s' in Ok (r, tt)) =
    step (m_get m) [] tt (fun a => let? r := cli_get_value x a (o_sep (new_options g)) (o_strip (new_options g)) s in Ok (r, tt))).
  { unfold step. destruct (m_get m) as [csv|]; auto. cbn [last_good rev]. specialize (H csv).
    assert (E : cli_get_value x csv (o_sep (new_options g)) (o_strip (new_options g)) s' = cli_get_value x csv (o_sep (new_options g)) (o_strip (new_options g)) s).
    { unfold cli_get_value. destruct (x_split x csv) as [keys|] eqn:X; auto. destruct keys as [|k keys]; auto. apply get_loop_ext. intros k0 I. eapply H; eauto. }
    rewrite E. reflexivity. }
  rewrite E1. clear E1. destruct (step (m_get m) [] tt _) as [[rs u]| |]; cbn [orun]; auto.
  assert (E2 : step (m_has m) rs 0 (fun a => cli_has_value x a (o_sep (new_options g)) (o_true (new_options g)) (o_false (new_options g)) s') =
    step (m_has m) rs 0 (fun a => cli_has_value x a (o_sep (new_options g)) (o_true (new_options g)) (o_false (new_options g)) s)).
  { unfold step. destruct (m_has m) as [csv|]; auto. destruct (last_good rs); auto. unfold cli_has_value. destruct (x_split x csv) as [keys|]; auto. destruct keys as [|k keys]; auto.
    rewrite (has_ext (fun k => let? o := get_value s' k in Ok (is_some o)) (fun k => let? o := get_value s k in Ok (is_some o))); auto.
    intros k0. specialize (KV k0). destruct (get_value s k0) as [[v|]| |], (get_value s' k0) as [[v'|]| |]; try contradiction; reflexivity. }
  rewrite E2. clear E2. destruct (step (m_has m) rs 0 _) as [[rs2 kc]| |]; cbn [orun]; auto.
  assert (E3 : forall a, cli_get_children x a (o_sep (new_options g)) (o_start (new_options g)) (o_end (new_options g)) (o_arr_sep (new_options g)) (o_len (new_options g)) s' =
    cli_get_children x a (o_sep (new_options g)) (o_start (new_options g)) (o_end (new_options g)) (o_arr_sep (new_options g)) (o_len (new_options g)) s).
  { intros a. unfold cli_get_children. destruct (x_split x a) as [keys|]; auto. destruct keys as [|k keys]; auto. apply children_ext. intros k0. symmetry. apply KC. }
  assert (E4 : step (m_children m) rs2 tt (fun a => Ok (cli_get_children x a (o_sep (new_options g)) (o_start (new_options g)) (o_end (new_options g)) (o_arr_sep (new_options g)) (o_len (new_options g)) s', tt)) =
    step (m_children m) rs2 tt (fun a => Ok (cli_get_children x a (o_sep (new_options g)) (o_start (new_options g)) (o_end (new_options g)) (o_arr_sep (new_options g)) (o_len (new_options g)) s, tt))).
  { unfold step. destruct (m_children m) as [csv|]; auto. rewrite E3. reflexivity. }
  rewrite E4. clear E4. destruct (step (m_children m) rs2 tt _) as [[rs3 u3]| |]; cbn [orun]; auto.
  assert (E5 : step (m_any m) rs3 tt (fun a => let? r := cli_has_children x a (o_sep (new_options g)) (o_true (new_options g)) (o_false (new_options g)) kc s' in Ok (r, tt)) =
    step (m_any m) rs3 tt (fun a => let? r := cli_has_children x a (o_sep (new_options g)) (o_true (new_options g)) (o_false (new_options g)) kc s in Ok (r, tt))).
  { unfold step. destruct (m_any m) as [csv|]; auto. destruct (last_good rs3); auto. unfold cli_has_children. destruct (x_split x csv) as [keys|]; auto. destruct keys as [|k keys]; auto.
    rewrite (has_ext (fun k => Ok (any_children s' k)) (fun k => Ok (any_children s k))); auto. intros k0. unfold any_children. rewrite KC. reflexivity. }
  rewrite E5. clear E5. destruct (step (m_any m) rs3 tt _) as [[rs4 u4]| |]; cbn [orun]; auto.
  rewrite NS. destruct rs4; auto. unfold finish. rewrite opt_print, NP. reflexivity.
Qed.

(** ** Several scalars set one after the other *)
Lemma types_scalar : forall a b, same_types a b -> scalar_value b -> scalar_value a.
Proof. intros a b H S. inversion H; subst; auto; destruct S. Qed.
Lemma scalar_leaf : forall t v, to_val t = Ok v -> scalar_value v -> leaf t.
Proof. intros t v T S. destruct t; cbn; auto; cbn [to_val] in T; apply rbind_ok in T as (l & _ & T); inversion T; subst; destruct S. Qed.
Lemma scalar_step : forall ovf s k old v, reach ovf s -> get_value s k = Ok (Some old) -> scalar_value old -> scalar_value v -> validate v = true ->
  exists s1, set_value s k v = Ok (s1, true) /\ get_value s1 k = Ok (Some v) /\
    (forall k' w, k' <> k -> get_value s k' = Ok (Some w) -> scalar_value w -> get_value s1 k' = Ok (Some w)).
Proof.
  intros ovf s k old v R G SO SV V. destruct (reach_wf _ _ R) as (h & W). apply get_value_some in G as (c & VC & T).
  destruct (set_scalar_cases s k v SV V) as [(c1 & VC1 & E)|[(N & _)|(c1 & VC1 & F & _)]].
  - rewrite VC in VC1. inversion VC1; subst c1. exists (write s (c.(c_id), tval_of v)). split; [exact E|]. unfold write. split.
    + apply get_value_some. exists (upd_c (c_id c) (tval_of v) c). cbn [p_map set_root set_map]. rewrite valof_upd, VC. split; auto. rewrite upd_c_eq, N.eqb_refl. cbn [c_val].
      destruct v; try destruct SV; reflexivity.
    + intros k' w NE G' SW. apply get_value_some in G' as (c' & VC' & T'). apply get_value_some. exists (upd_c (c_id c) (tval_of v) c'). cbn [p_map set_root set_map]. rewrite valof_upd, VC'. split; auto.
      rewrite upd_c_eq. cbn [c_val]. destruct (c_id c' =? c_id c) eqn:Q; [exfalso; apply NE; apply N.eqb_eq in Q; eapply co_inj; [apply (wf_co _ _ W)|exact VC'|exact VC|exact Q]|].
      rewrite upd_leaf; auto. eapply scalar_leaf; eauto.
  - apply get_value_none in N. congruence.
  - exfalso. rewrite VC in VC1. inversion VC1; subst c1. pose proof (scalar_leaf _ _ T SO) as L.
    destruct (c_val c); try destruct L; try discriminate T; cbn [same_structure] in F; rewrite V in F; cbn [negb] in F; destruct v; try destruct SV; discriminate F.
Qed.
Lemma set_many : forall ovf fs us, fields fs us -> forall s, reach ovf s ->
  Forall (fun u => exists old, get_value s (fst u) = Ok (Some old) /\ same_types old (snd u)) us ->
  exists s', CliSpec.updates s fs s' /\ updates_keeping same_types s us s' /\ reach ovf s' /\
    (forall k old, get_value s k = Ok (Some old) -> scalar_value old -> get_value s' k = Ok (Some (match set_to us k with Some v => v | None => old end))).
Proof.
  intros ovf fs us F. induction F as [|k val typ v fs us T F IH]; intros s R H.
  - exists s. split; [apply Up_nil|]. split; [apply Uk_none|]. split; auto.
  - inversion H as [|? ? (old & G & TY) H']; subst. cbn [fst snd] in *. destruct (typed_scalar _ _ _ T) as [SV VV]. pose proof (types_scalar _ _ TY SV) as SO.
    destruct (scalar_step ovf s k old v R G SO SV VV) as (s1 & E & G1 & OT).
    assert (R1 : reach ovf s1) by (eapply R_set; eauto).
    assert (H1 : Forall (fun u => exists o, get_value s1 (fst u) = Ok (Some o) /\ same_types o (snd u)) us).
    { assert (SC : Forall (fun u => scalar_value (snd u)) us) by (clear - F; induction F; constructor; auto; cbn [snd]; eapply typed_scalar; eauto).
      rewrite Forall_forall in *. intros u I. destruct (H' u I) as (o & G2 & T2). destruct (str_eqb (fst u) k) eqn:Q.
      - apply str_eqb_eq in Q. rewrite Q in *. rewrite G in G2. inversion G2; subst. exists v. split; auto. eapply types_trans; [apply types_sym|]; eauto.
      - exists o. split; auto. apply OT; auto; [intros Q'; rewrite Q', str_eqb_refl in Q; discriminate|]. eapply types_scalar; eauto. }
    destruct (IH s1 R1 H1) as (s' & A & B & C & D). exists s'. split; [eapply Up_cons; eauto|]. split; [|split; auto].
    + eapply Uk_one; eauto. intros x I. destruct v; try destruct SV; destruct I as [<-|[]]; exact VV.
    + intros k0 o G0 S0. cbn [set_to]. destruct (str_eqb k0 k) eqn:Q.
      * apply str_eqb_eq in Q. subst k0. rewrite (D k v G1 SV). destruct (set_to us k); reflexivity.
      * assert (NE : k0 <> k) by (intros Q'; rewrite Q', str_eqb_refl in Q; discriminate). rewrite (D k0 o (OT _ _ NE G0 S0) S0). destruct (set_to us k0); reflexivity.
Qed.

(** ** The next run *)
Lemma next_run : forall x g kvs out path l fs us s t0,
  formed_doc l -> parse (new_parser x.(x_ovf)) (tdoc_text l) = Ok (s, Full) -> show_parser s = Ok t0 ->
  g.(g_print) = false -> x.(x_split) kvs = Some fs -> fields fs us -> us <> [] ->
  Forall (fun u => well_spelled (snd u) /\ exists old, get_value s (fst u) = Ok (Some old) /\ same_types old (snd u)) us ->
  exists t, process_document x (new_options g) (set_values kvs out) path (tdoc_text l) =
      Finished (separated (separator g) (repeat (lit "Success") (length us)) ++ [10]) (Some (or_else out path, t)) /\
    (forall csv keys vs path', x.(x_split) csv = Some keys -> keys <> [] -> Forall2 (fun k v => set_to us k = Some v) keys vs ->
       exists ts, Forall2 (printed g.(g_strip)) vs ts /\
         process_document x (new_options g) (get_values csv) path' t = Finished (separated (separator g) ts ++ [10]) None) /\
    (forall m path', m.(m_set) = None ->
       (forall csv keys, m.(m_get) = Some csv -> x.(x_split) csv = Some keys -> Forall (left_alone s us) keys) ->
       process_document x (new_options g) m path' t = process_document x (new_options g) m path' (tdoc_text l)).
Proof.
  intros x g kvs out path l fs us s t0 F P SH NP X FI NE H. assert (R : reach x.(x_ovf) s) by (eapply R_parse; [apply R_new|exact P]).
  assert (H1 : Forall (fun u => exists old, get_value s (fst u) = Ok (Some old) /\ same_types old (snd u)) us) by (eapply Forall_impl; [|exact H]; cbv beta; tauto).
  assert (WS : Forall (fun u => well_spelled (snd u)) us) by (eapply Forall_impl; [|exact H]; cbv beta; tauto).
  destruct (set_many _ _ _ FI s R H1) as (s' & U & K & R' & V).
  apply (shaped_show s t0 (reach_shape _ _ R)) in SH as (N0 & PR & _). destruct (updates_printable _ _ _ U PR) as [PR' N1]. specialize (N1 N0).
  assert (SH' : show_parser s' = Ok (toml_src s'.(p_root))) by (apply shaped_show; auto; eapply reach_shape; eauto).
  destruct (again_typed _ _ _ _ _ _ F P K WS _ SH') as (s2 & r2 & P2 & GV & GC & _ & KR & KA). destruct r2; try contradiction.
  exists (toml_src s'.(p_root)). split; [|split].
  - destruct (cli_set_ok x kvs (separator g) s fs s' X) as (n & L & E); auto.
    { intros ->. inversion FI; subst. congruence. }
    pose proof (fields_count _ _ FI) as L'. assert (n = length us) by lia. subst n.
    etransitivity; [exact (run_only_set x g kvs out path _ s s' _ P NP E)|]. cbv iota. rewrite SH'. reflexivity.
  - intros csv keys vs path' XC NK FF.
    assert (SC : forall k v, set_to us k = Some v -> scalar_value v /\ exists old, get_value s k = Ok (Some old) /\ scalar_value old).
    { clear - FI H1. induction FI as [|k val typ v fs us T FI IH]; [discriminate|]. intros k0 w E. inversion H1 as [|? ? (old & G & TY) H2]; subst. cbn [set_to fst snd] in *.
      destruct (set_to us k0) as [w'|] eqn:Q; [inversion E; subst; apply IH; auto|]. destruct (str_eqb k0 k) eqn:Q2; [|discriminate]. inversion E; subst. apply str_eqb_eq in Q2. subst k0.
      destruct (typed_scalar _ _ _ T) as [SV _]. split; auto. exists old. split; auto. eapply types_scalar; eauto. }
    apply (C51_get_value x g csv keys vs path' _ s2); auto.
    + clear NK XC. induction FF as [|k v keys vs E FF IH]; constructor; auto. destruct (SC _ _ E) as (SV & old & G & SO). rewrite GV, (V k old G SO), E. reflexivity.
    + clear NK XC. induction FF as [|k v keys vs E FF IH]; constructor; auto. destruct (SC _ _ E) as (SV & _). destruct v; try destruct SV; constructor.
  - intros m path' NS LA. apply (run_ext x g m path' _ _ s s2); auto. intros csv keys k MG XC I. specialize (LA csv keys MG XC). rewrite Forall_forall in LA.
    destruct (LA k I) as [G|(E & v & G & SV)].
    + destruct KA as [_ KV]. specialize (KV k). rewrite G in *. destruct (get_value s2 k) as [[?|]| |]; try contradiction; auto.
    + rewrite GV, (V k v G SV), E. auto.
Qed.
