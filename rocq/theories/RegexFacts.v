(** Facts about the regular expression matcher. *)
From Coq Require Import Lia ZifyBool ZifyNat ZifyN.
From Verif Require Import Str Regex Facts.

(** language of an expression *)
Inductive lang : re -> str -> Prop :=
| LEps : lang REps []
| LCls : forall c l, in_ranges c l = true -> lang (RCls l) [c]
| LSeq : forall a b x y, lang a x -> lang b y -> lang (RSeq a b) (x ++ y)
| LAltL : forall a b x, lang a x -> lang (RAlt a b) x
| LAltR : forall a b x, lang b x -> lang (RAlt a b) x
| LStar0 : forall g a, lang (RStar g a) []
| LStarS : forall g a x y, lang a x -> lang (RStar g a) y -> lang (RStar g a) (x ++ y).

(** the loop of the star, named *)
Definition star_loop (greedy : bool) (a : re) (k : str -> option str) :=
  fix loop (n : nat) (s : str) {struct n} : option str :=
    match n with
    | O => k s
    | S n' =>
        if greedy
        then match rm a s (loop n') with Some x => Some x | None => k s end
        else match k s with Some x => Some x | None => rm a s (loop n') end
    end.

Lemma rm_star : forall g a s k, rm (RStar g a) s k = star_loop g a k (length s) s.
Proof. reflexivity. Qed.

Lemma rm_sound : forall r s k x, rm r s k = Some x ->
  exists m s1, s = m ++ s1 /\ lang r m /\ k s1 = Some x.
Proof.
  induction r; intros s k x H.
  - exists [], s. repeat split; auto. constructor.
  - simpl in H. destruct s as [|c s]; [discriminate|].
    destruct (in_ranges c l) eqn:E; [|discriminate].
    exists [c], s. repeat split; auto. constructor; auto.
  - simpl in H. apply IHr1 in H as (m1 & s1 & -> & L1 & H).
    apply IHr2 in H as (m2 & s2 & -> & L2 & H).
    exists (m1 ++ m2), s2. rewrite app_assoc. repeat split; auto. constructor; auto.
  - simpl in H. destruct (rm r1 s k) eqn:E.
    + inversion H; subst. apply IHr1 in E as (m & s1 & -> & L & E).
      exists m, s1. repeat split; auto. apply LAltL; auto.
    + apply IHr2 in H as (m & s1 & -> & L & H).
      exists m, s1. repeat split; auto. apply LAltR; auto.
  - rewrite rm_star in H. revert H. generalize (length s) as n. intros n. revert s x.
    induction n; intros s x H; cbn [star_loop] in H.
    + exists [], s. repeat split; auto. constructor.
    + assert (D : k s = Some x \/ rm r s (star_loop greedy r k n) = Some x).
      { destruct greedy.
        - destruct (rm r s _) eqn:E; [right|left]; congruence.
        - destruct (k s) eqn:E; [left|right]; congruence. }
      destruct D as [D|D].
      * exists [], s. repeat split; auto. constructor.
      * apply IHr in D as (m1 & s1 & -> & L1 & D).
        apply IHn in D as (m2 & s2 & -> & L2 & D).
        exists (m1 ++ m2), s2. rewrite app_assoc. repeat split; auto. constructor; auto.
Qed.

(** expressions whose starred parts consume *)
Inductive wf : re -> Prop :=
| WEps : wf REps
| WCls : forall l, wf (RCls l)
| WSeq : forall a b, wf a -> wf b -> wf (RSeq a b)
| WAlt : forall a b, wf a -> wf b -> wf (RAlt a b)
| WStar : forall g a, wf a -> (~ lang a []) -> wf (RStar g a).

(** decidable sufficient condition *)
Fixpoint nullable (r : re) : bool :=
  match r with
  | REps => true
  | RCls _ => false
  | RSeq a b => nullable a && nullable b
  | RAlt a b => nullable a || nullable b
  | RStar _ _ => true
  end.
Fixpoint wfb (r : re) : bool :=
  match r with
  | REps | RCls _ => true
  | RSeq a b | RAlt a b => wfb a && wfb b
  | RStar _ a => wfb a && negb (nullable a)
  end.
Lemma nullable_lang : forall r m, lang r m -> m = [] -> nullable r = true.
Proof.
  intros r m L. induction L; intros E; simpl; auto; try discriminate.
  - apply app_eq_nil in E as [E1 E2]. rewrite IHL1, IHL2; auto.
  - rewrite IHL; auto.
  - rewrite IHL; auto. apply orb_true_r.
Qed.
Lemma wfb_wf : forall r, wfb r = true -> wf r.
Proof.
  induction r; simpl; intros H; try constructor; try (apply andb_true_iff in H as [H1 H2]; auto).
  intros L. apply nullable_lang in L; auto. rewrite L in H2. discriminate.
Qed.

Lemma rm_complete : forall r, wf r -> forall m s k, lang r m -> k s <> None -> rm r (m ++ s) k <> None.
Proof.
  induction r; intros W m s k L K.
  - inversion L; subst. auto.
  - inversion L as [|c0 l0 Hc| | | | |]; subst. simpl. rewrite Hc. auto.
  - inversion W as [| |? ? W1 W2| |]; subst.
    inversion L as [| |? ? x y L1 L2| | | |]; subst. simpl. rewrite <- app_assoc. apply IHr1; auto.
  - inversion W as [| | |? ? W1 W2|]; subst. simpl.
    inversion L as [| | |? ? ? L1|? ? ? L1| |]; subst.
    + specialize (IHr1 W1 m s k L1 K). destruct (rm r1 (m ++ s) k); congruence.
    + specialize (IHr2 W2 m s k L1 K). destruct (rm r1 (m ++ s) k); congruence.
  - inversion W as [| | | |? ? W1 H3]; subst. pose proof (IHr W1) as IHr'. clear IHr. rename IHr' into IHr.
    clear W. rename W1 into H1.
    rewrite rm_star.
    assert (G : forall n, (length m <= n)%nat -> star_loop greedy r k n (m ++ s) <> None).
    { clear - IHr H1 H3 L K. remember (RStar greedy r) as R eqn:ER.
      induction L; inversion ER; subst; intros n Hn.
      - destruct n; cbn [star_loop]; auto. simpl. destruct greedy.
        + destruct (rm r s _); congruence.
        + destruct (k s); congruence.
      - destruct n.
        { destruct x; [|simpl in Hn; lia]. simpl in Hn. exfalso. apply H3; auto. }
        cbn [star_loop].
        assert (rm r ((x ++ y) ++ s) (star_loop greedy r k n) <> None).
        { rewrite <- app_assoc. apply IHr; auto. apply IHL2; auto.
          destruct x; [exfalso; apply H3; auto|]. simpl in Hn. rewrite app_length in Hn. lia. }
        destruct greedy.
        + destruct (rm r _ _); congruence.
        + destruct (k ((x ++ y) ++ s)); [congruence|auto]. }
    apply G. rewrite app_length. lia.
Qed.

Lemma re_match_sound : forall r s m rest, re_match r s = Some (m, rest) ->
  s = m ++ rest /\ lang r m.
Proof.
  unfold re_match. intros r s m rest H.
  destruct (rm r s _) as [x|] eqn:E; [|discriminate]. inversion H; subst.
  apply rm_sound in E as (m' & s1 & -> & L & E). inversion E; subst.
  replace (firstn (length (m' ++ rest) - length rest) (m' ++ rest)) with m'.
  - auto.
  - rewrite app_length. replace (length m' + length rest - length rest)%nat with (length m') by lia.
    rewrite firstn_app, Nat.sub_diag, firstn_all, firstn_O, app_nil_r. auto.
Qed.

Lemma re_match_rm : forall r s m rest, s = m ++ rest ->
  rm r s (fun s' => Some s') = Some rest -> re_match r s = Some (m, rest).
Proof.
  intros r s m rest -> H. unfold re_match. rewrite H. f_equal. f_equal.
  rewrite app_length. replace (length m + length rest - length rest)%nat with (length m) by lia.
  rewrite firstn_app, Nat.sub_diag, firstn_all, firstn_O, app_nil_r. auto.
Qed.

Lemma re_match_none : forall r s, wf r -> re_match r s = None ->
  forall m rest, s = m ++ rest -> ~ lang r m.
Proof.
  intros r s W H m rest -> L. unfold re_match in H.
  assert (rm r (m ++ rest) (fun s' => Some s') <> None) by (apply rm_complete; auto; congruence).
  destruct (rm r _ _); congruence.
Qed.

(** deterministic expressions: at most one way to match a prefix, given by
    [step] *)
Definition det (a : re) (step : str -> option str) : Prop :=
  forall s k, rm a s k = match step s with Some s' => k s' | None => None end.

(** the suffix after iterating a step as long as possible *)
Fixpoint iter_step (step : str -> option str) (n : nat) (s : str) : str :=
  match n with
  | O => s
  | S n' => match step s with Some s' => iter_step step n' s' | None => s end
  end.

Lemma star_greedy_det : forall a step k, det a step -> (forall s, k s <> None) ->
  forall n s, star_loop true a k n s = k (iter_step step n s).
Proof.
  intros a step k D K. induction n; intros s; cbn [star_loop iter_step]; auto.
  rewrite D. destruct (step s) as [s'|]; auto.
  rewrite IHn. destruct (k (iter_step step n s')) eqn:E; auto. exfalso. eapply K; eauto.
Qed.

(** single-character classes *)
Definition cls_step (l : list (N * N)) (s : str) : option str :=
  match s with c :: s' => if in_ranges c l then Some s' else None | [] => None end.

Lemma det_cls : forall l, det (RCls l) (cls_step l).
Proof. intros l s k. simpl. destruct s; simpl; auto. destruct (in_ranges n l); auto. Qed.

Fixpoint drop_while (f : N -> bool) (s : str) : str :=
  match s with c :: s' => if f c then drop_while f s' else s | [] => [] end.
Fixpoint take_wh (f : N -> bool) (s : str) : str :=
  match s with c :: s' => if f c then c :: take_wh f s' else [] | [] => [] end.

Lemma take_drop : forall f s, take_wh f s ++ drop_while f s = s.
Proof. induction s; simpl; auto. destruct (f a); simpl; congruence. Qed.

Lemma take_wh_forall : forall f s, Forall (fun c => f c = true) (take_wh f s).
Proof. induction s; simpl; auto. destruct (f a) eqn:E; auto. Qed.

Lemma take_wh_app : forall f a b, Forall (fun c => f c = true) a ->
  match b with [] => True | c :: _ => f c = false end ->
  take_wh f (a ++ b) = a /\ drop_while f (a ++ b) = b.
Proof.
  induction a; intros b H Hb; simpl.
  - destruct b; simpl; auto. rewrite Hb. auto.
  - inversion H; subst. rewrite H2. destruct (IHa b H3 Hb) as [-> ->]. auto.
Qed.

Lemma iter_cls : forall l n s, (length s <= n)%nat ->
  iter_step (cls_step l) n s = drop_while (fun c => in_ranges c l) s.
Proof.
  induction n; intros s H; destruct s; simpl in *; auto; try lia.
  destruct (in_ranges n0 l); auto. apply IHn. lia.
Qed.

Lemma star_cls : forall l s k, (forall s, k s <> None) ->
  rm (RStar true (RCls l)) s k = k (drop_while (fun c => in_ranges c l) s).
Proof.
  intros. rewrite rm_star, (star_greedy_det _ _ _ (det_cls l) H), iter_cls; auto.
Qed.

(** inversion helpers for languages *)
Lemma lang_seq : forall a b m, lang (RSeq a b) m <-> exists x y, m = x ++ y /\ lang a x /\ lang b y.
Proof.
  split; intros H.
  - inversion H; subst. eauto 6.
  - destruct H as (x & y & -> & H1 & H2). constructor; auto.
Qed.
Lemma lang_alt : forall a b m, lang (RAlt a b) m <-> lang a m \/ lang b m.
Proof.
  split; intros H.
  - inversion H; subst; auto.
  - destruct H; [apply LAltL|apply LAltR]; auto.
Qed.
Lemma lang_cls : forall l m, lang (RCls l) m <-> exists c, m = [c] /\ in_ranges c l = true.
Proof.
  split; intros H.
  - inversion H; subst; eauto.
  - destruct H as (c & -> & H). constructor; auto.
Qed.
Lemma lang_eps : forall m, lang REps m <-> m = [].
Proof. split; intros H; [inversion H; auto | subst; constructor]. Qed.
Lemma lang_chr : forall c m, lang (RChr c) m <-> m = [c].
Proof.
  intros. unfold RChr. rewrite lang_cls. simpl. split.
  - intros (d & -> & H). f_equal. lia.
  - intros ->. exists c. split; auto. lia.
Qed.
Lemma lang_str : forall s m, lang (RStr s) m <-> m = s.
Proof.
  induction s; intros; simpl.
  - apply lang_eps.
  - rewrite lang_seq. split.
    + intros (x & y & -> & H1 & H2). apply lang_chr in H1. apply IHs in H2. subst. auto.
    + intros ->. exists [a], s. split; auto. split; [apply lang_chr|apply IHs]; auto.
Qed.
Lemma lang_opt : forall a m, lang (ROpt a) m <-> lang a m \/ m = [].
Proof. intros. unfold ROpt. rewrite lang_alt, lang_eps. tauto. Qed.

(** a star as a list of non-trivially many pieces *)
Lemma lang_star : forall g a m, lang (RStar g a) m <-> exists l, m = concat l /\ Forall (lang a) l.
Proof.
  split; intros H.
  - remember (RStar g a) as R eqn:E. induction H; inversion E; subst.
    + exists []. auto.
    + destruct (IHlang2 eq_refl) as (l & -> & F). exists (x :: l). auto.
  - destruct H as (l & -> & F). induction F; simpl; [constructor|]. constructor; auto.
Qed.

Lemma lang_star_cls : forall g l m, lang (RStar g (RCls l)) m <->
  Forall (fun c => in_ranges c l = true) m.
Proof.
  intros. rewrite lang_star. split.
  - intros (p & -> & F). induction F; simpl; auto. apply lang_cls in H as (c & -> & H).
    simpl. auto.
  - intros F. exists (map (fun c => [c]) m). split.
    + induction m; simpl; auto. inversion F; subst. f_equal; auto.
    + induction F; simpl; auto. constructor; auto. constructor; auto.
Qed.

Lemma lang_rep_cls : forall n l m, lang (RRep n (RCls l)) m <->
  Forall (fun c => in_ranges c l = true) m /\ length m = n.
Proof.
  induction n; intros; simpl.
  - rewrite lang_eps. split; [intros ->; auto|]. intros [_ H]. destruct m; auto; discriminate.
  - rewrite lang_seq. split.
    + intros (x & y & -> & H1 & H2). apply lang_cls in H1 as (c & -> & H1).
      apply IHn in H2 as [H2 <-]. simpl. split; auto.
    + intros [F L]. destruct m as [|c m]; [discriminate|]. inversion F; subst.
      exists [c], m. split; auto. split; [constructor; auto|]. apply IHn. auto.
Qed.

Lemma rm_rep_cls : forall n l m rest k, Forall (fun c => in_ranges c l = true) m -> length m = n ->
  rm (RRep n (RCls l)) (m ++ rest) k = k rest.
Proof.
  induction n; intros; destruct m; try discriminate; simpl; auto.
  inversion H; subst. rewrite H3. apply IHn; auto.
Qed.

Lemma lang_plus_cls : forall l m, lang (RPlus (RCls l)) m <->
  Forall (fun c => in_ranges c l = true) m /\ m <> [].
Proof.
  intros. unfold RPlus. rewrite lang_seq. split.
  - intros (x & y & -> & H1 & H2). apply lang_cls in H1 as (c & -> & H1).
    apply lang_star_cls in H2. simpl. split; auto. discriminate.
  - intros [F H]. destruct m as [|c m]; [congruence|]. inversion F; subst.
    exists [c], m. split; auto. split; [constructor; auto|]. apply lang_star_cls; auto.
Qed.

Lemma rm_plus_cls : forall l m rest k, (forall s, k s <> None) ->
  Forall (fun c => in_ranges c l = true) m -> m <> [] ->
  match rest with [] => True | c :: _ => in_ranges c l = false end ->
  rm (RPlus (RCls l)) (m ++ rest) k = k rest.
Proof.
  intros. destruct m as [|c m]; [congruence|]. inversion H0; subst.
  unfold RPlus.
  assert (E : rm (RSeq (RCls l) (RStar true (RCls l))) ((c :: m) ++ rest) k =
              rm (RStar true (RCls l)) (m ++ rest) k) by (simpl; rewrite H5; reflexivity).
  rewrite E, star_cls by auto.
  destruct (take_wh_app (fun c => in_ranges c l) m rest H6 H2) as [_ ->]. auto.
Qed.
