(** Date-times built from strings: lemmas for property C72. *)
From Verif Require Import Str Types State Nom Grammar Api Spec Facts TypesFacts DateFacts CtorFacts PartSpec.

Definition frac_txt (f : option str) : str := match f with Some f => lit "." ++ f | None => [] end.
Definition zulu_txt (o : option time_offset) : str :=
  match o with Some _ => lit "Z" | None => [] end.
Definition frac_good (f : option str) : Prop := match f with Some f => good_frac f | None => True end.
Definition frac_digits (f : option str) : Prop := match f with Some f => digits f | None => True end.

(** the time part without any assumption on the fraction *)
Lemma time_valid_good : forall h m s f o, digits h -> digits m -> digits s -> frac_digits f ->
  match o with Some (OffTime a) => digits a.(toa_hour) /\ digits a.(toa_minute) | _ => True end ->
  (time_validate {| t_hour := h; t_minute := m; t_second := s; t_fraction := f; t_offset := o |} = true <->
   good_time h m s /\ frac_good f /\
   match o with
   | Some (OffTime a) => length a.(toa_hour) = 2%nat /\ length a.(toa_minute) = 2%nat /\
                         real_offset (number a.(toa_hour)) (number a.(toa_minute))
   | _ => True
   end).
Proof.
  intros h m s f o H M S F O. destruct f as [[|c f]|].
  - rewrite time_validate_iff. split.
    + intros (_ & _ & _ & _ & K & _). exfalso. apply K. reflexivity.
    + intros (_ & [K _] & _). congruence.
  - rewrite time_validate_digits; auto.
    2:{ split; [exact F|discriminate]. }
    unfold good_time, frac_good, good_frac. intuition congruence.
  - rewrite time_validate_digits; auto. unfold good_time, frac_good. tauto.
Qed.

Lemma show_parts : forall y mo d h mi s f o,
  show_datetime {| dt_date := {| d_year := y; d_month := mo; d_day := d |};
                   dt_time := Some {| t_hour := h; t_minute := mi; t_second := s;
                                      t_fraction := f; t_offset := o |} |} =
  date_parts y mo d ++ time_parts h mi s ++ frac_txt f ++
  match o with Some o => show_time_offset o | None => [] end.
Proof.
  intros. unfold show_datetime. cbn [dt_time dt_date]. rewrite show_time_split.
  unfold show_date, date_parts, time_parts, frac_txt.
  cbn [d_year d_month d_day t_hour t_minute t_second t_fraction t_offset].
  rewrite <- !app_assoc. repeat f_equal.
Qed.

(** no numeric offset *)
Lemma with_parts : forall y mo d h mi s f o, o = None \/ o = Some Zulu ->
  assembles (datetime_with y mo d h mi s f o)
    (digits y /\ digits mo /\ digits d /\ digits h /\ digits mi /\ digits s /\ frac_digits f)
    (good_date y mo d /\ good_time h mi s /\ frac_good f)
    (date_parts y mo d ++ time_parts h mi s ++ frac_txt f ++ zulu_txt o).
Proof.
  intros y mo d h mi s f o Ho.
  assert (EO : match o with Some o => show_time_offset o | None => [] end =
               zulu_txt o) by (destruct Ho; subst; reflexivity).
  rewrite <- EO, <- show_parts.
  unfold datetime_with, date_from_parts, time_from_parts.
  destruct (date_validate _) eqn:V1.
  2:{ split; [discriminate|]. intros (Y & M & D & _). split; [|discriminate].
      split; [congruence|]. intros [G _]. apply (date_validate_digits y mo d Y M D) in G. congruence. }
  destruct (time_validate _) eqn:V2.
  2:{ split; [discriminate|]. intros (Y & M & D & H & MI & S & F). split; [|discriminate].
      split; [congruence|]. intros (_ & G & GF).
      assert (T : time_validate {| t_hour := h; t_minute := mi; t_second := s;
                                   t_fraction := f; t_offset := o |} = true); [|congruence].
      apply time_valid_good; auto; destruct Ho; subst; auto. }
  split.
  - intros v E. inversion E; subst v. split; [reflexivity|].
    cbn [validate dt_value]. unfold datetime_validate. cbn [dt_date dt_time]. rewrite V1, V2. reflexivity.
  - intros (Y & M & D & H & MI & S & F).
    pose proof (proj1 (date_validate_digits y mo d Y M D) V1) as GD.
    assert (GT : good_time h mi s /\ frac_good f).
    { apply (time_valid_good h mi s f o) in V2; auto; [tauto|destruct Ho; subst; auto]. }
    split; [split; [unfold good_date; tauto|discriminate]|].
    intros v E. inversion E; subst v. apply datetime_parse_show.
    + destruct GD as (? & ? & ? & _), GT as [(? & ? & ? & _) GF].
      split; [repeat split; assumption|]. cbn [dt_time]. repeat split; try assumption.
      * cbn [t_fraction]. destruct f; [|exact I]. split; [exact F|apply GF].
      * cbn [t_offset]. destruct Ho; subst; simpl; auto.
    + unfold datetime_validate. cbn [dt_date dt_time]. rewrite V1, V2. reflexivity.
Qed.

(** a numeric offset *)
Lemma with_offset_parts : forall y mo d h mi s f sg oh om,
  assembles (datetime_with_offset y mo d h mi s f sg oh om)
    (digits y /\ digits mo /\ digits d /\ digits h /\ digits mi /\ digits s /\ frac_digits f /\
     digits oh /\ digits om)
    (good_date y mo d /\ good_time h mi s /\ frac_good f /\ good_offset sg oh om)
    (date_parts y mo d ++ time_parts h mi s ++ frac_txt f ++ offset_parts sg oh om).
Proof.
  intros y mo d h mi s f sg oh om. unfold datetime_with_offset, date_from_parts, time_from_parts.
  destruct (date_validate _) eqn:V1.
  2:{ split; [discriminate|]. intros (Y & M & D & _). split; [|discriminate].
      split; [congruence|]. intros [G _]. apply (date_validate_digits y mo d Y M D) in G. congruence. }
  assert (ET : (exists p, sg = lit (match p with Pos => "+" | Neg => "-" end) /\
                 toa_validate {| toa_pn := p; toa_hour := oh; toa_minute := om |} = true /\
                 toa_from_str sg oh om = Some {| toa_pn := p; toa_hour := oh; toa_minute := om |}) \/
               (toa_from_str sg oh om = None /\
                (digits oh -> digits om -> ~ good_offset sg oh om))).
  { unfold toa_from_str.
    assert (X : forall p, toa_validate {| toa_pn := p; toa_hour := oh; toa_minute := om |} = false ->
              digits oh -> digits om -> ~ good_offset sg oh om).
    { intros p N O1 O2 (_ & L1 & L2 & R).
      assert (T : toa_validate {| toa_pn := p; toa_hour := oh; toa_minute := om |} = true); [|congruence].
      apply toa_validate_iff. rewrite !loose_field_digits, !loose_number_digits by auto. tauto. }
    destruct (str_eqb sg (lit "+")) eqn:E1; [apply str_eqb_eq in E1|].
    - destruct (toa_validate _) eqn:V; [left; exists Pos; auto|right; eauto].
    - destruct (str_eqb sg (lit "-")) eqn:E2; [apply str_eqb_eq in E2|].
      + destruct (toa_validate _) eqn:V; [left; exists Neg; auto|right; eauto].
      + right. split; [reflexivity|]. intros _ _ ([G|G] & _); apply str_eqb_eq in G; congruence. }
  destruct ET as [(p & ES & VO & ->)|[-> NO]].
  2:{ split; [discriminate|]. intros (_ & _ & _ & _ & _ & _ & _ & O1 & O2). split; [|discriminate].
      split; [congruence|]. intros (_ & _ & _ & G). destruct (NO O1 O2 G). }
  set (off := {| toa_pn := p; toa_hour := oh; toa_minute := om |}) in *.
  assert (EO : offset_parts sg oh om = show_time_offset (OffTime off)).
  { unfold offset_parts, off. rewrite ES. destruct p; reflexivity. }
  rewrite EO. rewrite <- (show_parts y mo d h mi s f (Some (OffTime off))).
  assert (GO : digits oh -> digits om ->
     length oh = 2%nat /\ length om = 2%nat /\ real_offset (number oh) (number om)).
  { intros O1 O2. apply toa_validate_iff in VO.
    rewrite !loose_field_digits, !loose_number_digits in VO by auto. tauto. }
  destruct (time_validate _) eqn:V2.
  2:{ split; [discriminate|]. intros (Y & M & D & H & MI & S & F & O1 & O2). split; [|discriminate].
      split; [congruence|]. intros (_ & G & GF & _).
      assert (T : time_validate {| t_hour := h; t_minute := mi; t_second := s;
                                   t_fraction := f; t_offset := Some (OffTime off) |} = true); [|congruence].
      apply time_valid_good; auto. }
  split.
  - intros v E. inversion E; subst v. split; [reflexivity|].
    cbn [validate dt_value]. unfold datetime_validate. cbn [dt_date dt_time]. rewrite V1, V2. reflexivity.
  - intros (Y & M & D & H & MI & S & F & O1 & O2).
    pose proof (proj1 (date_validate_digits y mo d Y M D) V1) as GD.
    assert (GT : good_time h mi s /\ frac_good f).
    { apply (time_valid_good h mi s f (Some (OffTime off))) in V2; auto. tauto. }
    pose proof (GO O1 O2) as GO'.
    split; [split; [intros _|discriminate]|].
    { destruct GT as [GT1 GT2]. split; [exact GD|]. split; [exact GT1|]. split; [exact GT2|].
      split; [destruct p; auto|exact GO']. }
    intros v E. inversion E; subst v. apply datetime_parse_show.
    + destruct GD as (? & ? & ? & _), GT as [(? & ? & ? & _) GF].
      split; [repeat split; assumption|]. cbn [dt_time]. repeat split; try assumption; try apply GO'.
      cbn [t_fraction]. destruct f; [|exact I]. split; [exact F|apply GF].
    + unfold datetime_validate. cbn [dt_date dt_time]. rewrite V1, V2. reflexivity.
Qed.

Lemma date_parts_spec : forall y m d,
  assembles (date_from_str y m d) (digits y /\ digits m /\ digits d) (good_date y m d) (date_parts y m d).
Proof.
  intros y m d. unfold date_from_str, date_from_parts.
  destruct (date_validate _) eqn:V1.
  2:{ split; [discriminate|]. intros (Y & M & D). split; [|discriminate].
      split; [congruence|]. intros G. apply (date_validate_digits y m d Y M D) in G. congruence. }
  assert (VV : datetime_validate {| dt_date := {| d_year := y; d_month := m; d_day := d |}; dt_time := None |} = true).
  { unfold datetime_validate. cbn [dt_date dt_time]. rewrite V1. reflexivity. }
  split.
  - intros v E. inversion E; subst v. split; [reflexivity|exact VV].
  - intros (Y & M & D). pose proof (proj1 (date_validate_digits y m d Y M D) V1) as GD.
    split; [split; [intros _; exact GD|discriminate]|].
    intros v E. inversion E; subst v.
    change (date_parts y m d) with
      (show_datetime {| dt_date := {| d_year := y; d_month := m; d_day := d |}; dt_time := None |}).
    apply datetime_parse_show; auto.
    destruct GD as (? & ? & ? & _). split; [repeat split; assumption|exact I].
Qed.

(** ** the constructors by name *)

Lemma assembles_ext : forall r (d d' ok ok' : Prop) t t', assembles r d ok t -> (d' -> d) -> (ok <-> ok') -> t = t' ->
  assembles r d' ok' t'.
Proof. intros r d d' ok ok' t t' [A B] D O <-. split; auto. intros X. destruct (B (D X)) as [B1 B2]. split; [tauto|auto]. Qed.

Ltac all_of := let A := fresh in intros A; unfold all_digits in A; repeat (apply Forall_cons_iff in A; destruct A as [? A]);
  cbn [frac_digits]; tauto.

Lemma datetime_parts_spec : forall y mo d h mi s,
  assembles (datetime_from_str y mo d h mi s) (all_digits [y; mo; d; h; mi; s])
    (good_date y mo d /\ good_time h mi s) (date_parts y mo d ++ time_parts h mi s).
Proof.
  intros. eapply assembles_ext; [apply (with_parts y mo d h mi s None None); auto|all_of|cbn; tauto|].
  cbn [frac_txt zulu_txt]. rewrite !app_nil_r. reflexivity.
Qed.

Lemma frac_parts_spec : forall y mo d h mi s f,
  assembles (datetime_frac_from_str y mo d h mi s f) (all_digits [y; mo; d; h; mi; s; f])
    (good_date y mo d /\ good_time h mi s /\ good_frac f)
    (date_parts y mo d ++ time_parts h mi s ++ lit "." ++ f).
Proof.
  intros. eapply assembles_ext; [apply (with_parts y mo d h mi s (Some f) None); auto|all_of|cbn; tauto|].
  cbn [frac_txt zulu_txt]. rewrite !app_nil_r. reflexivity.
Qed.

Lemma zulu_parts_spec : forall y mo d h mi s,
  assembles (datetime_zulu_from_str y mo d h mi s) (all_digits [y; mo; d; h; mi; s])
    (good_date y mo d /\ good_time h mi s) (date_parts y mo d ++ time_parts h mi s ++ lit "Z").
Proof.
  intros. eapply assembles_ext; [apply (with_parts y mo d h mi s None (Some Zulu)); auto|all_of|cbn; tauto|].
  reflexivity.
Qed.

Lemma full_zulu_parts_spec : forall y mo d h mi s f,
  assembles (datetime_full_zulu_from_str y mo d h mi s f) (all_digits [y; mo; d; h; mi; s; f])
    (good_date y mo d /\ good_time h mi s /\ good_frac f)
    (date_parts y mo d ++ time_parts h mi s ++ lit "." ++ f ++ lit "Z").
Proof.
  intros. eapply assembles_ext; [apply (with_parts y mo d h mi s (Some f) (Some Zulu)); auto|all_of|cbn; tauto|].
  cbn [frac_txt zulu_txt]. rewrite <- !app_assoc. reflexivity.
Qed.

Lemma offset_parts_spec : forall y mo d h mi s sg oh om,
  assembles (datetime_offset_from_str y mo d h mi s sg oh om) (all_digits [y; mo; d; h; mi; s; oh; om])
    (good_date y mo d /\ good_time h mi s /\ good_offset sg oh om)
    (date_parts y mo d ++ time_parts h mi s ++ offset_parts sg oh om).
Proof.
  intros. eapply assembles_ext; [apply (with_offset_parts y mo d h mi s None sg oh om)|all_of|cbn; tauto|].
  reflexivity.
Qed.

Lemma full_parts_spec : forall y mo d h mi s f sg oh om,
  assembles (datetime_full_from_str y mo d h mi s f sg oh om) (all_digits [y; mo; d; h; mi; s; f; oh; om])
    (good_date y mo d /\ good_time h mi s /\ good_frac f /\ good_offset sg oh om)
    (date_parts y mo d ++ time_parts h mi s ++ lit "." ++ f ++ offset_parts sg oh om).
Proof.
  intros. eapply assembles_ext; [apply (with_offset_parts y mo d h mi s (Some f) sg oh om)|all_of|cbn; tauto|].
  cbn [frac_txt]. rewrite <- !app_assoc. reflexivity.
Qed.
