(** Proofs about runs over several files. *)
From Coq Require Import Lia ZifyBool ZifyNat ZifyN.
From Verif Require Import Str Types Ast State Api Facts Spec ApiSpec Cli CliSpec CliFacts Main MainSpec.

(** ** The names on stdin *)
Lemma trim_front_margin : forall a s, margin a -> trim_front (a ++ s) = trim_front s.
Proof.
  intros a s M. induction M as [|c a H M IH]; [reflexivity|]. cbn [app trim_front].
  assert (W : is_white c = true) by (destruct H as [->|[->| ->]]; reflexivity). rewrite W. exact IH.
Qed.
Lemma trim_front_stop : forall c s, is_white c = false -> trim_front (c :: s) = c :: s.
Proof. intros c s W. cbn [trim_front]. rewrite W. reflexivity. Qed.
Lemma margin_rev : forall a, margin a -> margin (rev a).
Proof. intros a M. apply Forall_forall. intros c I. rewrite <- in_rev in I. unfold margin in M. rewrite Forall_forall in M. auto. Qed.
Lemma trim_line : forall a p b e, margin a -> file_name p -> margin b -> e = [] \/ e = [10] -> trim (a ++ p ++ b ++ e) = p.
Proof.
  intros a p b e A (NP & F & L) B E. unfold trim. rewrite trim_front_margin by auto.
  assert (TE : forall s, trim_front (rev (b ++ e) ++ s) = trim_front s).
  { intros s. rewrite rev_app_distr, <- app_assoc. destruct E as [->| ->]; cbn [rev app]; [|cbn [trim_front]; change (is_white 10) with true; cbv iota];
      apply trim_front_margin, margin_rev; auto. }
  destruct p as [|c p].
  - cbn [app]. assert (Z : trim_front (b ++ e) = []).
    { rewrite trim_front_margin by auto. destruct E as [->| ->]; reflexivity. }
    rewrite Z. reflexivity.
  - cbn [app]. rewrite (trim_front_stop c) by (apply (F c p); auto). change (c :: p ++ b ++ e) with ((c :: p) ++ b ++ e).
    rewrite rev_app_distr, TE. destruct (rev (c :: p)) as [|d q] eqn:R.
    { apply (f_equal (@length N)) in R. rewrite rev_length in R. discriminate R. }
    rewrite trim_front_stop.
    + rewrite <- R. apply rev_involutive.
    + apply (L d (rev q)). rewrite <- (rev_involutive (c :: p)), R. reflexivity.
Qed.
Lemma read_plain : forall s cur rest, ~ In 10 s -> read_lines cur (s ++ rest) = read_lines (rev s ++ cur) rest.
Proof.
  induction s as [|c s IH]; intros cur rest N; [reflexivity|]. cbn [app read_lines rev]. destruct (N.eqb_spec c 10) as [->|_].
  - exfalso. apply N. left; auto.
  - rewrite IH by (intros I; apply N; right; auto). rewrite <- app_assoc. reflexivity.
Qed.
Lemma margin_line : forall a, margin a -> ~ In 10 a.
Proof. intros a M I. unfold margin in M. rewrite Forall_forall in M. apply M in I. lia. Qed.
Lemma read_names : forall s l, stdin_names s l -> map trim (read_lines [] s) = l.
Proof.
  intros s l S. induction S as [|a p b A P B N|a p b s l A P B S IH]; [reflexivity| |].
  - assert (NL : ~ In 10 (a ++ p ++ b)).
    { rewrite !in_app_iff. pose proof (margin_line _ A). pose proof (margin_line _ B). destruct P as [P _]. tauto. }
    pose proof (read_plain (a ++ p ++ b) [] [] NL) as R. rewrite app_nil_r in R. rewrite R, app_nil_r. cbn [read_lines].
    destruct (rev (a ++ p ++ b)) as [|c q] eqn:RV.
    { exfalso. apply N. rewrite <- (rev_involutive (a ++ p ++ b)), RV. reflexivity. }
    cbn [map]. f_equal. rewrite <- RV, rev_involutive. rewrite <- (app_nil_r b) at 1. apply trim_line; auto.
  - assert (NL : ~ In 10 (a ++ p ++ b)).
    { rewrite !in_app_iff. pose proof (margin_line _ A). pose proof (margin_line _ B). destruct P as [P _]. tauto. }
    replace (a ++ p ++ b ++ [10] ++ s) with ((a ++ p ++ b) ++ 10 :: s) by (rewrite <- !app_assoc; reflexivity).
    rewrite read_plain by auto. cbn [read_lines]. rewrite N.eqb_refl, app_nil_r. cbn [map rev]. rewrite rev_involutive, IH. f_equal.
    rewrite <- !app_assoc. apply trim_line; auto.
Qed.

(** ** The files *)
Lemma written_app : forall q a b old, written q (a ++ b) old = written q b (written q a old).
Proof. induction a as [|[[p c]|] a IH]; intros b old; cbn [app written]; auto. Qed.
Lemma written_other : forall q fs old, Forall (fun f => forall p c, f = Some (p, c) -> q <> p) fs -> written q fs old = old.
Proof.
  intros q fs old F. revert old. induction F as [|[[p c]|] fs H F IH]; intros old; cbn [written]; auto.
  rewrite IH. destruct (str_eqb q p) eqn:E; auto. apply str_eqb_eq in E. exfalso. apply (H p c); auto.
Qed.
Lemma put_written : forall f files q, put_files f files q = written q [f] (files q).
Proof. intros [[p c]|] files q; reflexivity. Qed.

Definition same_but (y y' : system) : Prop := y'.(y_writable) = y.(y_writable) /\ y'.(y_reason) = y.(y_reason).
(** the file that is written, if any *)
Lemma writes_target : forall x o m p text out f q c, process_document x o m p text = Finished out f -> f = Some (q, c) ->
  q = or_else m.(m_out) p /\ m.(m_set) <> None.
Proof.
  intros x o m p text out f q c R ->. destruct (run_writes x o m p text q c) as (a & l & n & s & s' & M & _ & _ & E & _).
  { rewrite R. reflexivity. }
  split; auto. congruence.
Qed.
Lemma file_alone : forall x o m y p out f, alone x o m y p out f ->
  process_file x o m y p = After out (put_files f y.(y_files)) Ended.
Proof.
  intros x o m y p out f (text & T & R & W). unfold process_file. rewrite T, R. destruct f as [[q c]|]; [|reflexivity].
  rewrite (W q c eq_refl). reflexivity.
Qed.
Lemma alone_same : forall x o m y y' p out f, same_but y y' -> y'.(y_files) p = y.(y_files) p -> alone x o m y p out f -> alone x o m y' p out f.
Proof. intros x o m y y' p out f [W _] E (text & T & R & Wr). exists text. rewrite E, W. auto. Qed.

Definition moved (y : system) (files : str -> option str) : system := {| y_files := files; y_writable := y.(y_writable); y_reason := y.(y_reason) |}.
Lemma names_run : forall x o m lines2 lines1 y ofs, apart m (map trim lines1) ->
  Forall2 (fun p r => alone x o m y p (fst r) (snd r)) (map trim lines1) ofs ->
  exists files, (forall q, files q = written q (map snd ofs) (y.(y_files) q)) /\
    let r' := process_names x o m (moved y files) lines2 in
    process_names x o m y (lines1 ++ lines2) = After (concat (map fst ofs) ++ r'.(f_out)) r'.(f_files) r'.(f_end).
Proof.
  intros x o m lines2. induction lines1 as [|l lines1 IH]; intros y ofs AP F.
  { inversion F; subst. exists y.(y_files). split; [reflexivity|]. cbn [app map concat]. unfold moved. destruct y as [a b c].
    cbn [y_files y_writable y_reason]. destruct (process_names x o m _ lines2); reflexivity. }
  cbn [map] in *. inversion F as [|p r ps rs A FR]; subst. destruct r as [out f]. cbn [fst snd] in A.
  assert (FA : process_file x o m y (trim l) = After out (put_files f y.(y_files)) Ended) by (apply file_alone; auto).
  assert (TG : forall q c, f = Some (q, c) -> q = or_else m.(m_out) (trim l)).
  { intros q c E. destruct A as (text & _ & R & _). eapply writes_target in R as [R _]; eauto. }
  assert (NS : m.(m_set) = None -> f = None).
  { intros M. destruct f as [[q c]|]; auto. destruct A as (text & _ & R & _). eapply writes_target in R as [_ R]; eauto. congruence. }
  set (y1 := moved y (put_files f y.(y_files))).
  destruct (IH y1 rs) as (files & FI & E).
  { destruct AP as [AP|[ND MO]]; [left; auto|right]. inversion ND as [|? ? NI ND']; subst. split; auto.
    intros g G I. apply (MO g G). right; auto. }
  { clear - FR TG AP NS. assert (G : forall p, In p (map trim lines1) -> y_files y1 p = y_files y p).
    { intros p I. unfold y1, moved. cbn [y_files]. destruct f as [[q c]|]; [|reflexivity]. cbn [put_files]. unfold put_file.
      destruct (str_eqb p q) eqn:Q; auto. apply str_eqb_eq in Q. subst q. exfalso. destruct AP as [AP|[ND MO]]; [discriminate (NS AP)|]. inversion ND as [|? ? NI ND']; subst. pose proof (TG p c eq_refl) as Z.
      destruct (m_out m) as [g|]; cbn [or_else] in Z; subst.
      - apply (MO g eq_refl). right; auto.
      - auto. }
    assert (SB : same_but y y1) by (split; reflexivity). revert FR G. generalize (map trim lines1). intros ps FR.
    induction FR as [|p r ps rs A FR IH]; intros G; constructor.
    - eapply alone_same; eauto. apply G. left; auto.
    - apply IH. intros q I. apply G. right; auto. }
  exists files. split.
  - intros q. rewrite FI. unfold y1, moved. cbn [y_files map]. cbn [snd].
    rewrite put_written, <- (written_app q [f] (map snd rs)). reflexivity.
  - cbn [app process_names]. rewrite FA. cbn [f_end f_files f_out]. change {| y_files := put_files f (y_files y); y_writable := y_writable y; y_reason := y_reason y |} with y1.
    cbv zeta in E. rewrite E. cbn [f_out f_files f_end map concat fst]. rewrite app_assoc. reflexivity.
Qed.

Lemma file_stops : forall x o m y p t, stops x o m y p t -> process_file x o m y p = After t y.(y_files) Exited.
Proof.
  intros x o m y p t S. unfold process_file. destruct S as [T|text t T R|text t T R|text q c T R W]; rewrite T.
  - unfold line_of, dq, complaint. rewrite <- !app_assoc. reflexivity.
  - rewrite R. reflexivity.
  - rewrite R. reflexivity.
  - unfold wrote in R. rewrite R, W. unfold line_of, dq, complaint, quoted. rewrite <- !app_assoc. reflexivity.
Qed.
Lemma stops_same : forall x o m y y' p t, same_but y y' -> y'.(y_files) p = y.(y_files) p -> stops x o m y p t -> stops x o m y' p t.
Proof.
  intros x o m y y' p t [W R] E S. destruct S as [T|text t T Q|text t T Q|text q c T Q V].
  - rewrite <- R. apply St_open. congruence.
  - eapply St_exit; eauto. congruence.
  - eapply St_usage; eauto. congruence.
  - rewrite <- R. eapply St_write; eauto; congruence.
Qed.

(** ** What a run may change *)
Lemma file_changes : forall x o m y p q, (process_file x o m y p).(f_files) q <> y.(y_files) q ->
  m.(m_set) <> None /\ y.(y_writable) q = true /\ q = or_else m.(m_out) p.
Proof.
  intros x o m y p q. unfold process_file. destruct (y_files y p) as [text|]; [|cbn [f_files]; congruence].
  destruct (match process_document x o m p text with Finished _ f | Crash f => f | _ => None end) as [[f c]|] eqn:F.
  - destruct (y_writable y f) eqn:W; cbn [f_files]; [|congruence]. unfold put_files, put_file. destruct (str_eqb q f) eqn:Q; [|congruence]. intros _.
    apply str_eqb_eq in Q. subst f. destruct (run_writes x o m p text q c) as (a & l & n & s & s' & M & _ & _ & E & _).
    { destruct (process_document x o m p text); cbn [wrote]; try discriminate F; exact F. }
    split; [congruence|]. auto.
  - destruct (process_document x o m p text); cbn [f_files]; congruence.
Qed.
Lemma names_changes : forall x o m lines y q, (process_names x o m y lines).(f_files) q <> y.(y_files) q ->
  m.(m_set) <> None /\ y.(y_writable) q = true /\ (m.(m_out) = Some q \/ m.(m_out) = None /\ In q (map trim lines)).
Proof.
  intros x o m. induction lines as [|l lines IH]; intros y q H; [cbn in H; congruence|]. cbn [process_names] in H.
  pose proof (file_changes x o m y (trim l) q) as FC. set (r := process_file x o m y (trim l)) in *.
  assert (ONE : f_files r q <> y_files y q -> m.(m_set) <> None /\ y.(y_writable) q = true /\ (m.(m_out) = Some q \/ m.(m_out) = None /\ In q (map trim (l :: lines)))).
  { intros D. destruct (FC D) as (A & B & C). split; auto. split; auto. destruct (m_out m) as [g|]; cbn [or_else] in C; subst; auto.
    right. split; auto. left; auto. }
  destruct (f_end r) eqn:E; auto. cbn [f_files] in H.
  assert (DEC : f_files r q = y_files y q \/ f_files r q <> y_files y q).
  { destruct (f_files r q) as [a|], (y_files y q) as [b|]; try (right; discriminate); auto.
    destruct (str_eqb a b) eqn:Q; [apply str_eqb_eq in Q; subst; auto|]. right. intros Z. injection Z as ->. rewrite str_eqb_refl in Q. discriminate Q. }
  destruct DEC as [D|D]; auto. rewrite <- D in H.
  destruct (IH {| y_files := f_files r; y_writable := y_writable y; y_reason := y_reason y |} q H) as (A & B & C). cbn [y_writable] in B.
  split; auto. split; auto. destruct C as [C|[C I]]; auto. right. split; auto. right; auto.
Qed.

(** ** Runs *)
Lemma main_all : forall x o m y s names ofs, stdin_names s names -> apart m names ->
  Forall2 (fun p r => alone x o m y p (fst r) (snd r)) names ofs ->
  let r := main x o m y None s in
  r.(f_out) = concat (map fst ofs) /\ r.(f_end) = Ended /\ forall q, r.(f_files) q = written q (map snd ofs) (y.(y_files) q).
Proof.
  intros x o m y s names ofs S AP F r. unfold r, main. apply read_names in S. subst names.
  destruct (names_run x o m [] (read_lines [] s) y ofs AP F) as (files & FI & E). rewrite app_nil_r in E. rewrite E. cbn.
  rewrite app_nil_r. auto.
Qed.
Lemma main_stops : forall x o m y s pre p post ofs t, stdin_names s (pre ++ p :: post) -> apart m (pre ++ [p]) ->
  Forall2 (fun p r => alone x o m y p (fst r) (snd r)) pre ofs -> stops x o m y p t ->
  let r := main x o m y None s in
  r.(f_out) = concat (map fst ofs) ++ t /\ r.(f_end) = Exited /\ forall q, r.(f_files) q = written q (map snd ofs) (y.(y_files) q).
Proof.
  intros x o m y s pre p post ofs t S AP F ST r. unfold r, main. apply read_names in S. apply map_eq_app in S as (l1 & l2 & E & E1 & E2).
  destruct l2 as [|l l2]; [discriminate E2|]. cbn [map] in E2. injection E2 as EP E2. rewrite E. subst pre.
  assert (AP' : apart m (map trim l1)).
  { destruct AP as [AP|[ND MO]]; [left; auto|right]. split.
    - clear - ND. induction (map trim l1) as [|a l IH]; [constructor|]. cbn [app] in ND. inversion ND; subst. constructor; auto.
      intros I. apply H1. apply in_or_app. auto.
    - intros f G I. apply (MO f G). apply in_or_app. auto. }
  destruct (names_run x o m (l :: l2) l1 y ofs AP' F) as (files & FI & R). rewrite R. cbv zeta. cbn [process_names]. rewrite EP.
  assert (OLD : files p = y_files y p).
  { rewrite FI. apply written_other. apply Forall_forall. intros f I q c -> PQ. subst q. apply in_map_iff in I as ((out & g) & G & I). cbn [snd] in G. subst g.
    assert (X : exists p', In p' (map trim l1) /\ alone x o m y p' out (Some (p, c))).
    { clear - F I. induction F as [|a r ps rs A F IH]; [destruct I|]. destruct I as [->|I]; [exists a; split; [left; auto|exact A]|].
      destruct (IH I) as (b & B & C). exists b. split; [right; auto|auto]. }
    destruct X as (p' & I' & text & _ & D & _). destruct (writes_target _ _ _ _ _ _ _ p c D eq_refl) as [TG NS].
    destruct AP as [AP|[ND MO]]; [congruence|]. destruct (m_out m) as [g|]; cbn [or_else] in TG.
    - apply (MO g eq_refl). rewrite <- TG. apply in_or_app. right. left; auto.
    - subst p'. apply NoDup_remove_2 in ND. rewrite app_nil_r in ND. auto. }
  assert (ST' : stops x o m (moved y files) p t).
  { eapply stops_same; [|exact OLD|exact ST]. split; reflexivity. }
  rewrite (file_stops _ _ _ _ _ _ ST'). cbn [f_end f_out f_files moved y_files]. auto.
Qed.
Lemma main_changes : forall x o m y inp s q, (main x o m y inp s).(f_files) q <> y.(y_files) q ->
  m.(m_set) <> None /\ y.(y_writable) q = true /\
  (m.(m_out) = Some q \/ m.(m_out) = None /\ match inp with Some p => q = p | None => In q (map trim (read_lines [] s)) end).
Proof.
  intros x o m y inp s q H. destruct inp as [p|]; cbn [main] in H.
  - apply file_changes in H as (A & B & C). split; auto. split; auto. destruct (m_out m); cbn [or_else] in C; subst; auto.
  - apply names_changes in H. exact H.
Qed.
(** the last document that is written wins *)
Lemma written_last : forall q a c fs old, Forall (fun f => f = None) fs -> written q (a ++ Some (q, c) :: fs) old = Some c.
Proof.
  intros q a c fs old F. rewrite written_app. cbn [written]. rewrite str_eqb_refl. generalize (Some c). induction F as [|f fs -> F IH]; intros o; cbn [written]; auto.
Qed.
Lemma written_in : forall q c fs old, In (Some (q, c)) fs -> (forall d, In (Some (q, d)) fs -> d = c) -> written q fs old = Some c.
Proof.
  intros q c fs. assert (G : forall fs old, (forall d, In (Some (q, d)) fs -> d = c) -> (In (Some (q, c)) fs \/ old = Some c) -> written q fs old = Some c).
  { clear fs. induction fs as [|[[p d]|] fs IH]; intros old U [I|I]; cbn [written]; auto; try (destruct I; fail).
    - apply IH; [intros e J; apply U; right; auto|]. destruct I as [I|I]; auto. injection I as -> ->. rewrite str_eqb_refl. auto.
    - apply IH; [intros e J; apply U; right; auto|]. destruct (str_eqb q p) eqn:E; auto. apply str_eqb_eq in E. subst p. right. f_equal. apply U. left; auto.
    - apply IH; [intros e J; apply U; right; auto|]. destruct I as [I|I]; auto. discriminate I.
    - apply IH; [intros e J; apply U; right; auto|]. auto. }
  intros old I U. apply G; auto.
Qed.
Lemma forall2_pick : forall {A B} (P : A -> B -> Prop) l r b, Forall2 P l r -> In b r -> exists a, In (a, b) (combine l r) /\ P a b.
Proof.
  intros A B P l r b F. induction F as [|a r0 l r H F IH]; intros I; [destruct I|]. destruct I as [->|I].
  - exists a. split; auto. left; auto.
  - destruct (IH I) as (a' & J & K). exists a'. split; auto. right; auto.
Qed.
(** without an output file every document goes back to where it came from *)
Lemma main_in_place : forall x o m y s names ofs p out f, stdin_names s names -> m.(m_out) = None -> NoDup names ->
  Forall2 (fun p r => alone x o m y p (fst r) (snd r)) names ofs -> In (p, (out, f)) (combine names ofs) ->
  (main x o m y None s).(f_files) p = match f with Some (_, c) => Some c | None => y.(y_files) p end.
Proof.
  intros x o m y s names ofs p out f S MO ND F I.
  destruct (main_all x o m y s names ofs S) as (_ & _ & W); auto.
  { right. split; auto. rewrite MO. discriminate. }
  rewrite W. clear W S.
  assert (OWN : forall q g c, In (q, (fst g, snd g)) (combine names ofs) -> snd g = Some (p, c) -> q = p).
  { intros q g c J E. assert (A : alone x o m y q (fst g) (snd g)).
    { clear - F J. induction F as [|a r ps rs A F IH]; [destruct J|]. destruct J as [J|J]; auto. injection J as -> ->. exact A. }
    destruct A as (text & _ & D & _). destruct (writes_target _ _ _ _ _ _ _ p c D E) as [T _]. rewrite MO in T. cbn [or_else] in T. auto. }
  assert (ONE : forall g, In (p, g) (combine names ofs) -> g = (out, f)).
  { clear - ND F I. revert ofs F I. induction names as [|a names IH]; intros ofs F I g J; [inversion F; subst; destruct J|].
    inversion F as [|? r ? rs A F']; subst. inversion ND as [|? ? NI ND']; subst. cbn [combine] in *.
    destruct I as [I|I], J as [J|J].
    - congruence.
    - injection I as -> ->. apply in_combine_l in J. contradiction.
    - injection J as -> ->. apply in_combine_l in I. contradiction.
    - eapply IH; eauto. }
  assert (ALL : forall c, In (Some (p, c)) (map snd ofs) -> f = Some (p, c)).
  { intros c J. apply in_map_iff in J as (g & G & J). destruct (forall2_pick _ _ _ _ F J) as (q & K & _).
    destruct g as [go gf]. cbn [snd] in G. subst gf. pose proof (OWN q (go, Some (p, c)) c K eq_refl). subst q. apply ONE in K. congruence. }
  destruct f as [[q c]|].
  - pose proof I as I'. assert (q = p) as ->.
    { assert (A : alone x o m y p out (Some (q, c))).
      { clear - F I. induction F as [|a r ps rs A F IH]; [destruct I|]. destruct I as [I|I]; auto. injection I as -> ->. exact A. }
      destruct A as (text & _ & D & _). destruct (writes_target _ _ _ _ _ _ _ q c D eq_refl) as [T _]. rewrite MO in T. cbn [or_else] in T. auto. }
    apply written_in.
    + apply in_combine_r in I'. apply in_map_iff. eexists. split; [|exact I']. reflexivity.
    + intros d J. apply ALL in J. congruence.
  - apply written_other. apply Forall_forall. intros g J q c -> E. subst q. apply ALL in J. discriminate J.
Qed.
