(** Texts that have the form of TOML are read to their end from any state. *)
From Coq Require Import Lia ZifyBool ZifyNat ZifyN.
From Verif Require Import Str Regex Types Ast State Nom Keys Grammar Api Facts Spec.
From Verif Require Import RegexFacts NomFacts TypesFacts DateFacts NumFacts StringFacts ScalarFacts.
From Verif Require Import LineFacts FlatFacts RoundTrip ParseFacts ApiFacts DocSpec DotSpec TreeSpec MixSpec PathFacts NestFacts SectFacts DotFacts BlindFacts WholeSpec.

(** reading ends after [t], if it does not panic *)
Definition takes {A} (p : P A) (Q : A -> Prop) (t r : str) : Prop :=
  forall s s' x, p s (t ++ r) = Ok (s', x) -> exists a, x = Done r a /\ Q a.

Lemma tk_weak : forall A (p : P A) (Q Q' : A -> Prop) t r, takes p Q t r -> (forall a, Q a -> Q' a) -> takes p Q' t r.
Proof. intros A p Q Q' t r T W s s' x E. destruct (T _ _ _ E) as (a & -> & H). eauto. Qed.
Lemma tk_bind : forall A B (p : P A) (f : A -> P B) Q Q' t u r, takes p Q t (u ++ r) -> (forall a, Q a -> takes (f a) Q' u r) ->
  takes (bind p f) Q' (t ++ u) r.
Proof.
  intros A B p f Q Q' t u r T F s s' x E. rewrite <- app_assoc in E. unfold bind in E. apply rbind_ok in E as ([s1 x1] & E1 & E).
  destruct (T _ _ _ E1) as (a & -> & H). eapply F; eauto.
Qed.
Lemma tk_ret : forall A (Q : A -> Prop) a r, Q a -> takes (ret a) Q [] r.
Proof. intros A Q a r H s s' x E. inversion E; subst. eauto. Qed.
Lemma tk_ok : forall A (p : P A) (a : A) t r, (forall s, exists s', p s (t ++ r) = Ok (s', Done r a)) -> takes p (fun b => b = a) t r.
Proof. intros A p a t r H s s' x E. destruct (H s) as (s2 & E2). rewrite E2 in E. inversion E; subst. eauto. Qed.
Lemma tk_complete : forall A (p : P A) Q t r, takes p Q t r -> takes (complete p) Q t r.
Proof. intros A p Q t r T s s' x E. unfold complete in E. apply rbind_ok in E as ([s1 x1] & E1 & E). destruct (T _ _ _ E1) as (a & -> & H). inversion E; subst. eauto. Qed.
Lemma tk_alt : forall A (p q : P A) Q t r, takes p Q t r -> takes (alt p q) Q t r.
Proof. intros A p q Q t r T s s' x E. unfold alt in E. apply rbind_ok in E as ([s1 x1] & E1 & E). destruct (T _ _ _ E1) as (a & -> & H). inversion E; subst. eauto. Qed.
Lemma tk_skip : forall A (p q : P A) Q t r, (forall s, exists s', p s (t ++ r) = Ok (s', Error)) -> takes q Q t r -> takes (alt p q) Q t r.
Proof. intros A p q Q t r H T s s' x E. unfold alt in E. destruct (H s) as (s1 & E1). rewrite E1 in E. cbn [rbind] in E. eapply T; eauto. Qed.
Lemma tk_act : forall A (f : pst -> res (pst * A)) a n r, gives f a n -> takes (act f) (fun b => b = a) [] r.
Proof. intros A f a n r G s s' x E. unfold act in E. apply rbind_ok in E as ([s1 b] & E1 & E). apply G in E1 as (-> & _). inversion E; subst. eauto. Qed.
Lemma tk_cell : forall A (p : P A) (f : A -> tval) (Q : A -> Prop) (Q' : cell -> Prop) t r, takes p Q t r -> (forall a id, Q a -> Q' (Cell id (f a))) -> takes (pcell p f) Q' t r.
Proof.
  intros A p f Q Q' t r T W. unfold pcell. rewrite <- (app_nil_r t). eapply tk_bind; [apply tk_complete; rewrite app_nil_l; exact T|]. intros a H s s' x E.
  unfold act, new_cell in E. inversion E; subst. eauto.
Qed.

(** ** Values *)
Scheme denotes_mut := Minimality for denotes Sort Prop
  with delems_mut := Minimality for delems Sort Prop
  with dfields_mut := Minimality for dfields Sort Prop.

(** trees that print as values of this form *)
Definition leaf (x : tval) : Prop := exists v, to_val x = Ok v /\ denotes v (tsrc x).
Definition sep_is (last : bool) (e : str) (x : option wssep * list comment_or_newlines) : Prop :=
  match fst x with
  | None => last = true /\ gap (show_cons (snd x) ++ e)
  | Some p => blanks p.(ws1) /\ gap (p.(ws2) ++ show_cons (snd x) ++ e)
  end.
Fixpoint seps_ok (e : str) (l : list (option wssep * list comment_or_newlines)) : Prop :=
  match l with
  | [] => e = []
  | [x] => sep_is true e x
  | x :: l' => sep_is false [] x /\ seps_ok e l'
  end.
Definition asep (av : array_value) := (av.(av_sep), av.(av_nls)).
Definition fsep (tk : table_keyval) := (tk.(tk_sep), tk.(tk_nls)).
Fixpoint tform (x : tval) : Prop :=
  match x with
  | TArray vals n1 n2 => gap (show_cons n1) /\ seps_ok (show_cons n2) (map asep vals) /\
      fold_right (fun av P => tform av.(av_val).(c_val) /\ P) True vals
  | TInlineTable kvs w => blanks w.(ws1) /\ match kvs with [] => blanks w.(ws2) | _ => seps_ok w.(ws2) (map fsep kvs) end /\
      fold_right (fun tk P => (key_name tk.(tk_kv).(kv_key) /\ blanks tk.(tk_kv).(kv_sep).(ws1) /\ blanks tk.(tk_kv).(kv_sep).(ws2) /\
        tform tk.(tk_kv).(kv_val).(c_val)) /\ P) True kvs
  | TTable => False
  | _ => leaf x
  end.

Definition vsays (v : value) (c : cell) : Prop := to_val c.(c_val) = Ok v /\ tform c.(c_val).
Definition takes_value (pval : P cell) (v : value) (t : str) : Prop := forall r, ends_value r -> takes pval (vsays v) t r.

Lemma date_takes : forall pv d, datetime_digits d -> takes_value (val_ pv) (VDateTime d) (datetime_src d).
Proof.
  intros pv d D r R. unfold val_.
  assert (HD : match datetime_src d ++ r with [] => False | c :: _ => c = 43 \/ c = 45 \/ digit c end).
  { destruct D as [([Y L] & _) _]. unfold datetime_src. rewrite <- app_assoc.
    destruct (d_year (dt_date d)) as [|c y]; [discriminate|]. inversion Y; subst. cbn [app]. auto. }
  apply tk_skip. { intros s. eexists. apply arr_err; eapply num_head_not; eauto; unfold digit; lia. }
  apply tk_skip. { intros s. eexists. apply inl_err; eapply num_head_not; eauto; unfold digit; lia. }
  apply tk_alt. eapply (tk_cell _ _ _ (fun a => a = d)); [|intros a id ->; split; [reflexivity|exists (VDateTime d); split; [reflexivity|]; cbn [c_val tsrc]; rewrite <- datetime_src_show; apply Dn_date; exact D]].
  intros s s' x E. unfold date_time in E. rewrite datetime_src_show in E at 1. rewrite dti_ok in E by (auto; apply ends_dt_stop; auto). cbn [rbind] in E.
  destruct (datetime_validate d); [inversion E; subst; eauto|]. apply rbind_ok in E as ([[a b] c] & _ & E). inversion E; subst. eauto.
Qed.
Lemma leaf_scalar : forall v t, scalar v t -> tform (tval_of v).
Proof.
  intros v t S. assert (E : tsrc (tval_of v) = t).
  { destruct S; try reflexivity. cbn [tval_of tsrc]. symmetry. apply datetime_src_show. }
  assert (L : leaf (tval_of v)) by (exists v; split; [eapply to_val_of; eauto|rewrite E; apply Dn_scalar; auto]).
  destruct S; exact L.
Qed.
Lemma scalar_takes : forall pv v t, scalar v t -> takes_value (val_ pv) v t.
Proof.
  intros pv v t S r R s s' x E. rewrite (val_scalar_ pv v t r s S R) in E. inversion E; subst. eexists. split; [reflexivity|].
  split; [eapply to_val_of; eauto|]. cbn [c_val]. eapply leaf_scalar; eauto.
Qed.

Definition esays (v : value) (av : array_value) : Prop := vsays v av.(av_val).
Definition tail_is (last : bool) (y : str) : Prop := (last = true /\ gap y) \/ exists w g, blanks w /\ gap g /\ y = w ++ lit "," ++ g.
Lemma tail_is_text : forall b y, tail_is b y -> tail_text y.
Proof. intros b y [[_ G]|X]; [left; auto|right; auto]. Qed.
Lemma gap_blank_app : forall w g, blanks w -> gap g -> gap (w ++ g).
Proof.
  intros w g W G. destruct G as [u U|u c nl g U C N G].
  - apply G_ws. induction W as [|c w C W IH]; [exact U|]. cbn [app]. apply BL_char; [lia|exact IH].
  - rewrite app_assoc. apply G_com; auto. induction W as [|x w X W IH]; [exact U|]. cbn [app]. apply BL_char; [lia|exact IH].
Qed.
Lemma tail_takes : forall b y r A (f : option wssep -> list comment_or_newlines -> P A) Q, tail_is b y -> solid r -> head_not 44 r ->
  (forall sep nls, sep_is b [] (sep, nls) -> takes (f sep nls) Q [] r) ->
  takes (bind (opt (complete array_sep)) (fun sep => bind (complete comment_or_nls) (fun nls => f sep nls))) Q y r.
Proof.
  intros b y r A f Q Y R H F s s' x E. destruct (tail_ok y r s (tail_is_text b y Y) R H) as (sep & nls & y2 & E1 & E2 & SH & G2).
  assert (S : sep_is b [] (sep, nls)).
  { unfold sep_is. cbn [fst snd]. rewrite app_nil_r, SH.
    destruct Y as [[-> G]|(w & g & W & G & ->)].
    - destruct sep as [p|]; [|split; auto]. exfalso. clear E E2. unfold opt, complete, array_sep in E1. destruct (gap_blanks y r G R) as (w & g2 & -> & W & G2' & NB).
      rewrite <- app_assoc in E1. erewrite bind_ok in E1 by (apply ws_ok; auto).
      assert (X : head_not 44 (g2 ++ r)).
      { destruct G2' as [w2 W2|w2 c nl g W2 C NL G3].
        - destruct W2; cbn [app]; auto; simpl; lia.
        - rewrite <- app_assoc. destruct W2; simpl; lia. }
      change (lit ",") with [44] in E1. destruct (tag1_err 44 s (g2 ++ r) X) as (x0 & E3 & [-> | ->]); [rewrite (bind_err _ _ _ _ _ E3) in E1|rewrite (bind_inc _ _ _ _ _ E3) in E1]; discriminate E1.
    - destruct (gap_blanks g r G R) as (w2 & g2 & -> & W2 & G3 & NB). unfold opt, complete, array_sep in E1. rewrite <- !app_assoc in E1.
      erewrite bind_ok in E1 by (apply ws_ok; auto; simpl; lia). erewrite bind_ok in E1 by apply tag_ok. erewrite bind_ok in E1 by (apply ws_ok; auto).
      cbn [ret rbind] in E1. inversion E1; subst. cbn [ws1 ws2]. split; [auto|]. apply gap_blank_app; auto. }
  rewrite (bind_ok _ _ _ _ _ _ _ E1), (bind_ok _ _ _ _ _ _ _ E2) in E. eapply F; eauto.
Qed.
Lemma elem_takes : forall b pval v t y r, takes_value pval v t -> tail_is b y -> solid r -> head_not 44 r -> ends_value (y ++ r) ->
  takes (array_value_ pval) (fun av => esays v av /\ sep_is b [] (asep av)) (t ++ y) r.
Proof.
  intros b pval v t y r T Y R H EV. unfold array_value_. eapply tk_bind; [apply T; auto|]. intros c C. eapply tail_takes; eauto. intros sep nls S.
  eapply tk_weak; [eapply tk_act, value_gives|]. intros a ->. split; [exact C|exact S].
Qed.
Definition takes_elems (pval : P cell) (vs : list value) (t : str) : Prop := forall n r, (length (t ++ lit "]" ++ r) < n)%nat ->
  takes (many_loop n (array_value_ pval)) (fun l => Forall2 esays vs l /\ seps_ok [] (map asep l)) t (lit "]" ++ r).
Lemma elems_end : forall pval, (forall s r, pval s (lit "]" ++ r) = Ok (s, Error)) -> takes_elems pval [] [].
Proof.
  intros pval CL n r L s s' x E. cbn [app] in E. destruct n; [simpl in L; lia|]. cbn [many_loop] in E. change (lit "]" ++ r) with (93 :: r) in E. cbv iota in E.
  unfold array_value_ in E. change (93 :: r) with (lit "]" ++ r) in E. rewrite (bind_err _ _ _ _ _ (CL s r)) in E. inversion E; subst. eexists. split; [reflexivity|]. split; [constructor|reflexivity].
Qed.
(** one more round of a loop *)
Lemma loop_takes : forall A (p : P A) (Q : A -> Prop) (QL : list A -> Prop) (QL' : list A -> Prop) t u r n, t <> [] -> takes p Q t (u ++ r) ->
  takes (many_loop n p) QL u r -> (forall a l, Q a -> QL l -> QL' (a :: l)) -> takes (many_loop (S n) p) QL' (t ++ u) r.
Proof.
  intros A p Q QL QL' t u r n N T TL W s s' x E. rewrite <- app_assoc in E. cbn [many_loop] in E.
  destruct (t ++ u ++ r) as [|c0 i0] eqn:I; [destruct t; [congruence|discriminate]|]. rewrite <- I in E. clear I c0 i0.
  apply rbind_ok in E as ([s1 x1] & E1 & E). destruct (T _ _ _ E1) as (a & -> & H).
  assert (Nat.eqb (length (u ++ r)) (length (t ++ u ++ r)) = false) as NE.
  { apply Nat.eqb_neq. rewrite (app_length t). destruct t; [congruence|]. cbn [length]. lia. }
  rewrite NE in E. apply rbind_ok in E as ([s2 x2] & E2 & E). destruct (TL _ _ _ E2) as (l & -> & HL). inversion E; subst. eauto.
Qed.
Lemma seps_cons : forall b x l, sep_is b [] x -> (b = true -> l = []) -> seps_ok [] l -> seps_ok [] (x :: l).
Proof.
  intros b x l S B L. destruct l as [|y l].
  - cbn [seps_ok]. unfold sep_is in *. destruct (fst x); [exact S|]. split; [reflexivity|apply S].
  - change (sep_is false [] x /\ seps_ok [] (y :: l)). split; [|exact L]. destruct b; [discriminate (B eq_refl)|exact S].
Qed.
Lemma elems_step : forall b pval v t y vs r0, takes_value pval v t -> tail_is b y -> (b = true -> vs = []) -> t <> [] ->
  (forall r, solid (r0 ++ lit "]" ++ r) /\ head_not 44 (r0 ++ lit "]" ++ r) /\ ends_value (y ++ r0 ++ lit "]" ++ r)) ->
  takes_elems pval vs r0 -> takes_elems pval (v :: vs) (t ++ y ++ r0).
Proof.
  intros b pval v t y vs r0 T Y B N R E n r L. destruct (R r) as (R1 & R2 & R3). destruct n; [lia|]. rewrite app_assoc.
  eapply loop_takes with (Q := fun av => esays v av /\ sep_is b [] (asep av)) (QL := fun l => Forall2 esays vs l /\ seps_ok [] (map asep l)).
  - destruct t; [congruence|discriminate].
  - apply elem_takes; auto.
  - apply E. rewrite !app_length in *. destruct t; [congruence|]. cbn [length] in L. lia.
  - intros a l [A A2] [F S]. split; [constructor; auto|]. apply seps_cons with (b := b); auto. intros X. specialize (B X). subst vs. inversion F; reflexivity.
Qed.
Lemma esays_all : forall vs avs, Forall2 esays vs avs -> rmap (fun av : array_value => to_val av.(av_val).(c_val)) avs = Ok vs.
Proof. induction 1 as [|? ? ? ? [A _] F IH]; [reflexivity|]. apply rmap_eq; auto. Qed.
Lemma esays_form : forall vs avs, Forall2 esays vs avs -> fold_right (fun (av : array_value) P => tform av.(av_val).(c_val) /\ P) True avs.
Proof. induction 1 as [|? ? ? ? [_ A] F IH]; cbn [fold_right]; auto. Qed.
Lemma tk_tag : forall t r, takes (tag t) (fun _ => True) t r.
Proof. intros t r s s' x E. rewrite tag_ok in E. inversion E; subst. eauto. Qed.
Lemma tk_gap : forall g r, gap g -> solid r -> takes comment_or_nls (fun l => show_cons l = g) g r.
Proof. intros g r G S s s' x E. destruct (gap_ok g r s G S) as (l & E2 & SH). rewrite E2 in E. inversion E; subst. eauto. Qed.
Lemma tk_ws : forall w r, blanks w -> no_blank r -> takes ws (fun x => x = w) w r.
Proof. intros w r W N s s' x E. rewrite ws_ok in E by auto. inversion E; subst. eauto. Qed.
Lemma many0_takes : forall A (p : P A) Q t r, takes (many_loop (S (length (t ++ r))) p) Q t r -> takes (many0 p) Q t r.
Proof. intros A p Q t r T s s' x E. unfold many0 in E. eapply T; eauto. Qed.
Lemma array_takes : forall pval vs g t, takes_elems pval vs t -> gap g -> (forall r, solid (t ++ lit "]" ++ r)) ->
  takes_value (val_ pval) (VArray vs) (lit "[" ++ g ++ t ++ lit "]").
Proof.
  intros pval vs g t T G SO r R. unfold val_. apply tk_alt.
  eapply (tk_cell _ _ _ (fun a => to_val a = Ok (VArray vs) /\ tform a)); [|intros a id H; exact H].
  intros s s' x E. unfold array_ in E. apply rbind_ok in E as ([s1 x1] & E1 & E). inversion E; subst x1. clear E. revert E1. generalize s1. clear H0.
  generalize (push_key (KIndex 0) (set_atypes (vpush (p_atypes s) ANone) s)). intros s0 s2 E1.
  assert (W : takes (array_internal_ pval) (fun a => to_val a = Ok (VArray vs) /\ tform a) (lit "[" ++ g ++ t ++ lit "]") r); [|eapply W; eauto].
  unfold array_internal_. eapply tk_bind; [apply tk_tag|]. intros _ _. eapply tk_bind; [apply tk_gap; auto; rewrite <- app_assoc; apply SO|]. intros n1 N1.
  eapply tk_bind; [unfold array_values_; apply many0_takes, T; lia|]. intros avs [AV SP].
  eapply (tk_bind _ _ _ _ (fun l => show_cons l = []) _ [] (lit "]")); [apply tk_gap; [apply (G_ws [] BL_nil)|simpl; lia]|]. intros n2 N2.
  eapply (tk_bind _ _ _ _ (fun _ => True) _ (lit "]") []); [apply tk_tag|]. intros _ _. apply tk_ret. split.
  - cbn [to_val]. rewrite (esays_all _ _ AV). reflexivity.
  - cbn [tform]. rewrite N1, N2. split; [auto|]. split; [auto|]. eapply esays_form; eauto.
Qed.

(** ** Inline tables *)
Definition fform (tk : table_keyval) : Prop :=
  key_name tk.(tk_kv).(kv_key) /\ blanks tk.(tk_kv).(kv_sep).(ws1) /\ blanks tk.(tk_kv).(kv_sep).(ws2) /\ tform tk.(tk_kv).(kv_val).(c_val).
Definition fsays (kv : str * value) (tk : table_keyval) : Prop := fkey tk = fst kv /\ to_val (fval tk).(c_val) = Ok (snd kv) /\ fform tk.
Lemma tk_key : forall k r, key_name k -> match r with [] => True | c :: _ => ~ bare_char c end -> takes key_p (fun x => x = k) k r.
Proof. intros k r K R s s' x E. rewrite key_p_bare in E by auto. inversion E; subst. eauto. Qed.
Lemma tk_ksep : forall w1 w2 r, blanks w1 -> blanks w2 -> no_blank r -> takes keyval_sep (fun x => x = {| ws1 := w1; ws2 := w2 |}) (w1 ++ lit "=" ++ w2) r.
Proof. intros w1 w2 r W1 W2 N s s' x E. rewrite <- !app_assoc in E. rewrite keyval_sep_ok in E by auto. inversion E; subst. eauto. Qed.
Lemma tk_keyval : forall pval k w1 w2 v t r, takes_value pval v t -> key_name k -> blanks w1 -> blanks w2 -> no_blank (t ++ r) -> ends_value r ->
  takes (keyval_p_ pval) (fun kv => exists c, vsays v c /\ kv = KeyVal k {| ws1 := w1; ws2 := w2 |} c) (k ++ (w1 ++ lit "=" ++ w2) ++ t) r.
Proof.
  intros pval k w1 w2 v t r T K W1 W2 N R. unfold keyval_p_.
  eapply tk_bind.
  { apply tk_key; auto. rewrite <- !app_assoc. apply (blanks_app_head (fun c => ~ bare_char c)); auto; unfold bare_char; simpl; lia. }
  intros k' ->. eapply tk_bind; [apply tk_ksep; auto|]. intros sep ->. rewrite <- (app_nil_r t). eapply tk_bind; [rewrite app_nil_l; apply T; auto|].
  intros c C. eapply tk_weak; [eapply tk_act, keyval_gives|]. intros a ->. eauto.
Qed.
Lemma field_takes : forall b pval k w1 w2 v t y r, takes_value pval v t -> key_name k -> blanks w1 -> blanks w2 -> (forall r, no_blank (t ++ r)) ->
  tail_is b y -> solid r -> head_not 44 r -> ends_value (y ++ r) -> takes (table_keyval_p_ pval) (fun tk => fsays (k, v) tk /\ sep_is b [] (fsep tk)) ((k ++ w1 ++ lit "=" ++ w2 ++ t) ++ y) r.
Proof.
  intros b pval k w1 w2 v t y r T K W1 W2 N Y R H EV. unfold table_keyval_p_. eapply tk_bind.
  { replace (k ++ w1 ++ lit "=" ++ w2 ++ t) with (k ++ (w1 ++ lit "=" ++ w2) ++ t) by (rewrite <- !app_assoc; reflexivity). apply (tk_keyval pval k w1 w2 v t); auto. }
  intros kv (c & [C1 C2] & ->). eapply tail_takes; eauto. intros sep nls S. apply tk_ret. split; [|exact S]. split; [reflexivity|]. split; [exact C1|].
  split; [exact K|]. split; [exact W1|]. split; [exact W2|exact C2].
Qed.
Definition takes_fields (pval : P cell) (kvs : list (str * value)) (t : str) : Prop := forall n r, (length (t ++ lit "}" ++ r) < n)%nat ->
  takes (many_loop n (table_keyval_p_ pval)) (fun l => Forall2 fsays kvs l /\ seps_ok [] (map fsep l)) t (lit "}" ++ r).
Lemma fields_end : forall pval, takes_fields pval [] [].
Proof.
  intros pval n r L s s' x E. destruct n; [simpl in L; lia|]. cbn [many_loop app] in E. change (lit "}" ++ r) with (125 :: r) in E. cbv iota in E.
  unfold table_keyval_p_, keyval_p_ in E. erewrite bind_err in E; [|apply bind_err, key_p_err; unfold bare_char; lia]. inversion E; subst. eexists. split; [reflexivity|]. split; [constructor|reflexivity].
Qed.
Lemma fields_step : forall b pval k w1 w2 v t y kvs r0, takes_value pval v t -> key_name k -> blanks w1 -> blanks w2 -> (forall r, no_blank (t ++ r)) ->
  tail_is b y -> (b = true -> kvs = []) ->
  (forall r, solid (r0 ++ lit "}" ++ r) /\ head_not 44 (r0 ++ lit "}" ++ r) /\ ends_value (y ++ r0 ++ lit "}" ++ r)) ->
  takes_fields pval kvs r0 -> takes_fields pval ((k, v) :: kvs) ((k ++ w1 ++ lit "=" ++ w2 ++ t) ++ y ++ r0).
Proof.
  intros b pval k w1 w2 v t y kvs r0 T K W1 W2 N Y B R E n r L. destruct (R r) as (R1 & R2 & R3). destruct n; [lia|].
  pose proof (key_ne k K) as KN. rewrite app_assoc.
  eapply loop_takes with (Q := fun tk => fsays (k, v) tk /\ sep_is b [] (fsep tk)) (QL := fun l => Forall2 fsays kvs l /\ seps_ok [] (map fsep l)).
  - destruct k; [congruence|discriminate].
  - apply field_takes; auto.
  - apply E. rewrite !app_length in *. destruct k; [congruence|]. cbn [length] in L. lia.
  - intros a l [A A2] [F S]. split; [constructor; auto|]. apply seps_cons with (b := b); auto. intros X. specialize (B X). subst kvs. inversion F; reflexivity.
Qed.
Lemma fsays_form : forall kvs tks, Forall2 fsays kvs tks -> fold_right (fun tk P => fform tk /\ P) True tks.
Proof. induction 1 as [|? ? ? ? (_ & _ & A) F IH]; cbn [fold_right]; auto. Qed.
Lemma fsays_all : forall kvs tks w, Forall2 fsays kvs tks -> to_val (TInlineTable tks w) = Ok (VInlineTable kvs).
Proof.
  intros kvs tks w F. apply fields_to_val.
  - induction F as [|a b l l' (A & B & _) F IH]; cbn [map]; [reflexivity|congruence].
  - induction F as [|a b l l' (A & B & _) F IH]; constructor; auto.
Qed.
Lemma opt_takes : forall A (p : P A) (Q : A -> Prop) t r, takes p Q t r -> takes (opt p) (fun o => exists a, o = Some a /\ Q a) t r.
Proof. intros A p Q t r T s s' x E. unfold opt in E. apply rbind_ok in E as ([s1 x1] & E1 & E). destruct (T _ _ _ E1) as (a & -> & H). inversion E; subst. eauto. Qed.
Lemma inline_takes : forall pval kvs w t, takes_fields pval kvs t -> blanks w -> (forall r, no_blank (t ++ lit "}" ++ r)) ->
  takes_value (val_ pval) (VInlineTable kvs) (lit "{" ++ w ++ t ++ lit "}").
Proof.
  intros pval kvs w t T W SO r R. unfold val_. apply tk_skip. { intros s. eexists. apply arr_err. simpl. lia. } apply tk_alt.
  eapply (tk_cell _ _ _ (fun a => to_val a = Ok (VInlineTable kvs) /\ tform a)); [|intros a id H; exact H].
  unfold inline_table_. eapply tk_bind; [apply tk_tag|]. intros _ _. eapply tk_bind; [apply tk_ws; auto; rewrite <- app_assoc; apply SO|]. intros w1 ->.
  eapply tk_bind; [apply opt_takes, tk_complete; unfold inline_table_keyvals_; apply many0_takes, T; lia|]. intros o (tks & -> & F & SP).
  eapply (tk_bind _ _ _ _ (fun x => x = []) _ [] (lit "}")); [apply tk_ws; [constructor|simpl; lia]|]. intros w2 ->.
  eapply (tk_bind _ _ _ _ (fun _ => True) _ (lit "}") []); [apply tk_tag|]. intros _ _. apply tk_ret. split; [apply fsays_all; auto|].
  cbn [tform ws1 ws2]. split; [auto|]. split; [destruct tks; [constructor|exact SP]|]. exact (fsays_form _ _ F).
Qed.

(** ** All values *)
Lemma denotes_head : forall v t, denotes v t -> vhead t.
Proof.
  intros v t H. destruct H as [v t S|d D| |]; [eapply scalar_head; eauto| | |]; try (simpl; lia).
  eapply writes_head. apply Wr_date. exact D.
Qed.
Lemma delems_head : forall vs t r, delems vs t -> solid (t ++ lit "]" ++ r) /\ head_not 44 (t ++ lit "]" ++ r).
Proof.
  intros vs t r H. destruct H as [|v t g S G|v t w g vs r0 S W G E]; [simpl; lia| |]; apply denotes_head in S;
  rewrite <- app_assoc; destruct (vhead_solid _ (vhead_app _ (g ++ lit "]" ++ r) S)) as (A & B & _ & _); auto.
  destruct (vhead_solid _ (vhead_app _ ((w ++ lit "," ++ g ++ r0) ++ lit "]" ++ r) S)) as (A2 & B2 & _ & _); auto.
Qed.
Lemma dfields_head : forall vs t r, dfields vs t ->
  solid (t ++ lit "}" ++ r) /\ head_not 44 (t ++ lit "}" ++ r) /\ no_blank (t ++ lit "}" ++ r).
Proof.
  assert (Q : forall k x, key_name k -> solid (k ++ x) /\ head_not 44 (k ++ x) /\ no_blank (k ++ x)).
  { intros k x B. apply key_head in B as (c & u & -> & C). unfold bare_char in C. simpl. lia. }
  intros vs t r H. destruct H; [simpl; lia| |]; rewrite <- app_assoc; apply Q; auto.
Qed.
Lemma denotes_takes : forall v t, denotes v t -> forall n, (length t < n)%nat -> takes_value (val n) v t.
Proof.
  apply (denotes_mut
    (fun v t => forall n, (length t < n)%nat -> takes_value (val n) v t)
    (fun vs t => forall n, (length t < n)%nat -> takes_elems (val n) vs t)
    (fun kvs t => forall n, (length t < n)%nat -> takes_fields (val n) kvs t)).
  - intros v t S n L. destruct n; [lia|]. apply scalar_takes; auto.
  - intros d D n L. destruct n; [lia|]. apply date_takes; auto.
  - intros vs g t G E IH n L. destruct n; [lia|]. change (val (S n)) with (val_ (val n)).
    apply array_takes; auto.
    + apply IH. rewrite !app_length in L. simpl in L. lia.
    + intros r. eapply delems_head; eauto.
  - intros kvs w t W F IH n L. destruct n; [lia|]. change (val (S n)) with (val_ (val n)).
    apply inline_takes; auto.
    + apply IH. rewrite !app_length in L. simpl in L. lia.
    + intros r. eapply dfields_head; eauto.
  - intros n L. destruct n; [lia|]. apply elems_end. intros. apply val_close.
  - intros v t g S IH G n L. rewrite app_length in L. rewrite <- (app_nil_r g). apply elems_step with (b := true); auto.
    + apply IH. lia.
    + left; auto.
    + apply denotes_head, vhead_solid in S. tauto.
    + intros r. split; [simpl; lia|]. split; [simpl; lia|]. apply gap_ends; auto. simpl; tauto.
    + destruct n; [lia|]. apply elems_end. intros. apply val_close.
  - intros v t w g vs r0 S IH W G E IHE n L. repeat rewrite app_length in L.
    replace (t ++ w ++ lit "," ++ g ++ r0) with (t ++ (w ++ lit "," ++ g) ++ r0) by (rewrite <- !app_assoc; auto).
    apply elems_step with (b := false).
    + apply IH. lia.
    + right. eauto.
    + discriminate.
    + apply denotes_head, vhead_solid in S. tauto.
    + intros r. destruct (delems_head vs r0 r E). split; [auto|]. split; [auto|]. rewrite <- !app_assoc.
      apply (blanks_app_head (fun c => In c [9; 10; 13; 32; 35; 44; 93; 125])); auto; simpl; tauto.
    + apply IHE. lia.
  - intros n L. apply fields_end.
  - intros k w1 w2 v t g B W1 W2 S IH G n L. repeat rewrite app_length in L. rewrite <- (app_nil_r g).
    replace (k ++ w1 ++ lit "=" ++ w2 ++ t ++ g ++ []) with ((k ++ w1 ++ lit "=" ++ w2 ++ t) ++ g ++ []) by (rewrite <- !app_assoc; auto).
    apply fields_step with (b := true); auto.
    + apply IH. lia.
    + intros r. apply denotes_head in S. destruct (vhead_solid _ (vhead_app _ r S)) as (_ & _ & A & _). auto.
    + left; auto.
    + intros r. split; [simpl; lia|]. split; [simpl; lia|]. apply gap_ends; auto. simpl; tauto.
    + apply fields_end.
  - intros k w1 w2 v t w g l r0 B W1 W2 S IH W G F IHF n L. repeat rewrite app_length in L.
    replace (k ++ w1 ++ lit "=" ++ w2 ++ t ++ w ++ lit "," ++ g ++ r0)
      with ((k ++ w1 ++ lit "=" ++ w2 ++ t) ++ (w ++ lit "," ++ g) ++ r0) by (rewrite <- !app_assoc; auto).
    apply fields_step with (b := false); auto.
    + apply IH. lia.
    + intros r. apply denotes_head in S. destruct (vhead_solid _ (vhead_app _ r S)) as (_ & _ & A & _). auto.
    + right. eauto.
    + discriminate.
    + intros r. destruct (dfields_head l r0 r F) as (A1 & A2 & _). split; [auto|]. split; [auto|]. rewrite <- !app_assoc.
      apply (blanks_app_head (fun c => In c [9; 10; 13; 32; 35; 44; 93; 125])); auto; simpl; tauto.
    + apply IHF. lia.
Qed.
Lemma denotes_val : forall v t, denotes v t -> takes_value val_p v t.
Proof. intros v t D r R s s' x E. unfold val_p in E. eapply (denotes_takes v t D (S (length (t ++ r)))); eauto. rewrite app_length. lia. Qed.

(** ** Headers *)
Definition mkey (x : str * str * str) : wskey := {| wk_ws := {| ws1 := fst (fst x); ws2 := snd (fst x) |}; wk_key := snd x |}.
Lemma more_stop : forall more w r, Forall (fun x : str * str * str => blanks (fst (fst x)) /\ blanks (snd (fst x)) /\ key_name (snd x)) more -> blanks w ->
  match concat (map more_text more) ++ w ++ lit "]" ++ r with [] => True | c :: _ => ~ bare_char c end.
Proof.
  intros [|[[a b] k] more] w r F W.
  - cbn [map concat app]. apply (blanks_app_head (fun c => ~ bare_char c)); auto; unfold bare_char; simpl; lia.
  - cbn [map concat]. unfold more_text at 1. cbn [fst snd]. rewrite <- !app_assoc. inversion F as [|? ? (A' & _ & _) _]; subst. cbn [fst] in A'.
    apply (blanks_app_head (fun c => ~ bare_char c)); auto; unfold bare_char; simpl; lia.
Qed.
Lemma key_no_blank : forall k r, key_name k -> no_blank (k ++ r).
Proof. intros k r K. apply key_head in K as (c & u & -> & C). simpl. unfold bare_char in C. lia. Qed.
Lemma subkeys_takes : forall more n w r, Forall (fun x : str * str * str => blanks (fst (fst x)) /\ blanks (snd (fst x)) /\ key_name (snd x)) more ->
  blanks w -> (length (concat (map more_text more) ++ w ++ lit "]" ++ r) < n)%nat ->
  takes (many_loop n table_subkey) (fun l => l = map mkey more) (concat (map more_text more)) (w ++ lit "]" ++ r).
Proof.
  induction more as [|[[a b] k] more IH]; intros n w r F W L.
  - intros s s' x E. destruct (subkeys_loop [] s n w r F W L) as (ks & E2 & M). rewrite E2 in E.
    inversion E; subst. eexists. split; [reflexivity|]. destruct ks; [reflexivity|discriminate M].
  - inversion F as [|? ? (A & B & K) F']; subst. cbn [fst snd] in *. destruct n as [|n]; [lia|]. cbn [map concat].
    eapply loop_takes with (Q := fun x => x = mkey (a, b, k)) (QL := fun l => l = map mkey more).
    + unfold more_text. cbn [fst snd]. destruct a; discriminate.
    + unfold more_text at 1. cbn [fst snd]. unfold table_subkey.
      eapply tk_bind; [apply tk_ws; auto; simpl; lia|]. intros w1 ->. eapply tk_bind; [apply tk_tag|]. intros _ _.
      eapply tk_bind; [apply tk_ws; auto; rewrite <- ?app_assoc; apply key_no_blank; auto|]. intros w2 ->. rewrite <- (app_nil_r k).
      eapply tk_bind; [rewrite app_nil_l; apply tk_key; auto; apply more_stop; auto|]. intros k' ->. apply tk_ret. rewrite app_nil_r. reflexivity.
    + apply IH; auto. cbn [map concat] in L. unfold more_text at 1 in L. cbn [fst snd] in L. rewrite !app_length in *. change (length (lit ".")) with 1%nat in L. lia.
    + intros x l -> ->. reflexivity.
Qed.

Lemma head_takes : forall w1 n more w2 r, blanks w1 -> key_name n ->
  Forall (fun x : str * str * str => blanks (fst (fst x)) /\ blanks (snd (fst x)) /\ key_name (snd x)) more -> blanks w2 ->
  takes table_p (fun x => x = TStandard (head_keys w1 n more w2)) (lit "[" ++ w1 ++ n ++ concat (map more_text more) ++ w2 ++ lit "]") r.
Proof.
  intros w1 n more w2 r W1 K F W2. unfold table_p. apply tk_skip.
  { intros s. rewrite <- !app_assoc. set (T := concat (map more_text more) ++ w2 ++ lit "]" ++ r).
    unfold array_table. assert (S : starts_with (lit "[[") (lit "[" ++ w1 ++ n ++ T) = false).
    { pose proof (bare_blank_head w1 n T (fun c => c <> 91) W1 K) as Q.
      destruct (w1 ++ n ++ T) as [|c x]; [exfalso; apply Q; try lia; unfold bare_char; intros; lia|].
      change (lit "[" ++ c :: x) with (91 :: c :: x). change (starts_with (lit "[[") (91 :: c :: x)) with ((91 =? 91) && ((91 =? c) && starts_with [] x)).
      destruct (N.eqb_spec 91 c); [|reflexivity]. exfalso. assert (c <> 91); [|congruence]. apply Q; try lia. unfold bare_char. intros; lia. }
    exists s. apply complete_err. destruct (tag_fail _ s _ S) as [X|X].
    + left. apply bind_err; exact X.
    + right. apply bind_inc; exact X. }
  apply tk_complete. unfold std_table. eapply tk_bind; [apply tk_tag|]. intros _ _.
  eapply tk_bind; [apply tk_ws; auto; rewrite <- ?app_assoc; apply key_no_blank; auto|]. intros x1 ->.
  eapply tk_bind; [apply tk_key; auto; rewrite <- ?app_assoc; apply more_stop; auto|]. intros k' ->.
  eapply tk_bind; [unfold table_subkeys; apply many0_takes; rewrite <- !app_assoc; apply subkeys_takes; auto; lia|]. intros ks ->.
  eapply tk_bind; [apply tk_ws; auto; simpl; lia|]. intros x2 ->. eapply (tk_bind _ _ _ _ (fun _ => True) _ (lit "]") []); [apply tk_tag|]. intros _ _.
  eapply tk_weak; [eapply tk_act, std_gives|]. intros a ->. reflexivity.
Qed.
Lemma arr_takes : forall w1 n more w2 r, blanks w1 -> key_name n ->
  Forall (fun x : str * str * str => blanks (fst (fst x)) /\ blanks (snd (fst x)) /\ key_name (snd x)) more -> blanks w2 ->
  takes table_p (fun x => x = TArrayOf (head_keys w1 n more w2)) (lit "[[" ++ w1 ++ n ++ concat (map more_text more) ++ w2 ++ lit "]]") r.
Proof.
  intros w1 n more w2 r W1 K F W2. unfold table_p. apply tk_alt. apply tk_complete. unfold array_table. eapply tk_bind; [apply tk_tag|]. intros _ _.
  eapply tk_bind; [apply tk_ws; auto; rewrite <- ?app_assoc; apply key_no_blank; auto|]. intros x1 ->.
  change (lit "]]") with (lit "]" ++ lit "]") at 1.
  eapply tk_bind; [apply tk_key; auto; rewrite <- ?app_assoc; apply more_stop; auto|]. intros k' ->.
  eapply tk_bind; [unfold table_subkeys; apply many0_takes; rewrite <- !app_assoc; apply subkeys_takes; auto; lia|]. intros ks ->.
  eapply tk_bind; [apply tk_ws; auto; simpl; lia|]. intros x2 ->. eapply (tk_bind _ _ _ _ (fun _ => True) _ (lit "]]") []); [apply tk_tag|]. intros _ _.
  eapply tk_weak; [eapply tk_act, arr_gives|]. intros a ->. reflexivity.
Qed.

(** ** Lines *)
Lemma tk_end : forall w c r A (f : str -> option str -> A), blanks w -> com_ok c -> line_start r ->
  takes (bind ws (fun w2 => bind (opt (complete comment)) (fun c => ret (f w2 c)))) (fun x => x = f w c) (w ++ com_text c) r.
Proof.
  intros w c r A f W C R s s' x E. rewrite <- app_assoc in E. rewrite (bind_ok _ _ _ _ _ _ _ (ws_ok w _ s W (com_no_blank c r R))) in E.
  rewrite (bind_ok _ _ _ _ _ _ _ (opt_comment c r s C R)) in E. inversion E; subst. eauto.
Qed.
Definition eform (e : expression) : Prop := match e.(e_keyval) with Some kv => tform kv.(kv_val).(c_val) | None => True end.
Lemma line_takes : forall d r, formed d -> line_start r -> takes expression_p (fun e => stands_for d e /\ eform e) (tline_text d) r.
Proof.
  intros d r F R. destruct d as [[w c|w0 k w1 w2 v t w3 c|w0 w1 n m w2 w3 c]|w0 w1 n m w2 w3 c]; cbn [formed tline_ok hline_ok tline_text hline_text stands_for] in *.
  - intros s s' x E. destruct F as [W C]. pose proof (istep_blank s w c (conj W C) r R) as E2. cbn [item_text item_expr] in E2. rewrite E2 in E. inversion E; subst. eexists. split; [reflexivity|]. split; [reflexivity|exact I].
  - destruct F as (W0 & K & W1 & W2 & D & W3 & C). pose proof (vhead_solid t (denotes_head v t D)) as (_ & _ & NB & TN).
    unfold expression_p. apply tk_skip.
    { intros s. eexists. rewrite <- app_assoc. apply table_comment_err; auto; apply key_head in K as (c0 & u & -> & C0); unfold bare_char in C0; simpl; lia. }
    apply tk_alt, tk_complete. unfold keyval_comment. eapply tk_bind; [apply tk_ws; auto; rewrite <- ?app_assoc; apply key_no_blank; auto|]. intros x0 ->.
    replace (k ++ w1 ++ lit "=" ++ w2 ++ t ++ w3 ++ com_text c) with ((k ++ (w1 ++ lit "=" ++ w2) ++ t) ++ w3 ++ com_text c) by (rewrite <- !app_assoc; reflexivity).
    eapply tk_bind.
    { apply (tk_keyval val_p k w1 w2 v t); auto; [apply denotes_val; auto|destruct t; [congruence|exact NB]|]. rewrite <- app_assoc. apply ends_after; auto. }
    intros kv (x & X & ->). eapply tk_weak; [apply tk_end; auto|]. intros a ->. destruct X as [X1 X2]. split; [exists x; split; [exact X1|reflexivity]|exact X2].
  - destruct F as (W0 & W1 & K & F & W2 & W3 & C). unfold expression_p. apply tk_alt, tk_complete. unfold table_comment.
    eapply tk_bind; [apply tk_ws; auto; simpl; lia|]. intros x0 ->.
    replace (lit "[" ++ w1 ++ n ++ concat (map more_text m) ++ w2 ++ lit "]" ++ w3 ++ com_text c) with
      ((lit "[" ++ w1 ++ n ++ concat (map more_text m) ++ w2 ++ lit "]") ++ w3 ++ com_text c) by (rewrite <- !app_assoc; reflexivity).
    eapply tk_bind; [apply (head_takes w1 n m w2); auto|]. intros x ->. eapply tk_weak; [apply tk_end; auto|]. intros a ->. split; [reflexivity|exact I].
  - destruct F as (W0 & W1 & K & F & W2 & W3 & C). unfold expression_p. apply tk_alt, tk_complete. unfold table_comment.
    eapply tk_bind; [apply tk_ws; auto; simpl; lia|]. intros x0 ->.
    replace (lit "[[" ++ w1 ++ n ++ concat (map more_text m) ++ w2 ++ lit "]]" ++ w3 ++ com_text c) with
      ((lit "[[" ++ w1 ++ n ++ concat (map more_text m) ++ w2 ++ lit "]]") ++ w3 ++ com_text c) by (rewrite <- !app_assoc; reflexivity).
    eapply tk_bind; [apply (arr_takes w1 n m w2); auto|]. intros x ->. eapply tk_weak; [apply tk_end; auto|]. intros a ->. split; [reflexivity|exact I].
Qed.
Definition lsays (x : str * tline) (e : nl_expression) : Prop := e.(ne_nl) = fst x /\ stands_for (snd x) e.(ne_expr) /\ eform e.(ne_expr).
Lemma tdoc_start : forall l, Forall (fun x : str * tline => line_end (fst x) /\ formed (snd x)) l -> line_start (tdoc_text l).
Proof.
  intros [|[nl d] l] F; [left; reflexivity|]. right. inversion F as [|? ? [A B] _]; subst. cbn [fst snd] in *. exists nl. eexists. split; [exact A|].
  unfold tdoc_text. cbn [map concat fst snd]. rewrite <- app_assoc. reflexivity.
Qed.
Lemma lines_take : forall l, Forall (fun x : str * tline => line_end (fst x) /\ formed (snd x)) l -> forall n, (length (tdoc_text l) < n)%nat ->
  takes (many_loop n nl_expression_p) (fun x => Forall2 lsays l x) (tdoc_text l) [].
Proof.
  induction l as [|[nl d] l IH]; intros F n L.
  - intros s s' x E. destruct n; [lia|]. cbn in E. inversion E; subst. eauto.
  - inversion F as [|? ? [A B] F']; subst. cbn [fst snd] in *. destruct n as [|n]; [lia|].
    change (tdoc_text ((nl, d) :: l)) with ((nl ++ tline_text d) ++ tdoc_text l) in *. 
    assert (NN : nl <> []) by (destruct A as [->| ->]; discriminate).
    eapply loop_takes with (Q := lsays (nl, d)) (QL := fun x => Forall2 lsays l x).
    + destruct nl; [congruence|discriminate].
    + rewrite app_nil_r. unfold nl_expression_p. eapply (tk_bind _ _ _ _ (fun x => x = nl)).
      { intros s s' x E. rewrite newline_ok in E by auto. inversion E; subst. eauto. }
      intros x ->. rewrite <- (app_nil_r (tline_text d)). eapply tk_bind; [rewrite app_nil_l; apply line_takes; auto; apply tdoc_start; auto|].
      intros e H. apply tk_ret. split; [reflexivity|exact H].
    + apply IH; auto. rewrite !app_length in L. destruct nl; [congruence|]. cbn [length] in L. lia.
    + intros a x HA HL. constructor; auto.
Qed.
Lemma doc_takes : forall l, formed_doc l -> takes toml_p (fun x => Forall2 lsays l x) (tdoc_text l) [].
Proof.
  intros [|[nl d] l] F; [destruct F|]. destruct F as (-> & FD & F). change (tdoc_text (([], d) :: l)) with (tline_text d ++ tdoc_text l).
  unfold toml_p. eapply tk_bind; [rewrite app_nil_r; apply line_takes; auto; apply tdoc_start; auto|]. intros e H.
  rewrite <- (app_nil_r (tdoc_text l)). eapply tk_bind; [rewrite app_nil_l; unfold nl_expressions; apply many0_takes, lines_take; auto; rewrite app_nil_r; lia|].
  intros x HL. apply tk_ret. constructor; [split; [reflexivity|exact H]|exact HL].
Qed.
Lemma doc_whole : forall s l s' r, formed_doc l -> parse s (tdoc_text l) = Ok (s', r) ->
  r = match s'.(p_errors) with [] => Full | es => FullError es end /\ s'.(p_leftover) = [] /\
  Forall2 (fun x e => e.(ne_nl) = fst x /\ stands_for (snd x) e.(ne_expr)) l s'.(p_root).
Proof.
  intros s l s' r F H. apply parse_inv in H as (s1 & rest & t & T & _ & -> & ->).
  pose proof (doc_takes l F s s1 (Done rest t)) as D. rewrite app_nil_r in D. destruct (D T) as (x & E & HL). inversion E; subst. clear D E.
  split; [|split; [reflexivity|]].
  - cbn [p_errors set_leftover set_root]. destruct (p_errors s1); reflexivity.
  - cbn [p_root set_leftover set_root]. clear - HL. induction HL as [|? ? ? ? (A & B & _) HL IH]; constructor; auto.
Qed.
Lemma doc_form : forall s l s' r, formed_doc l -> parse s (tdoc_text l) = Ok (s', r) -> Forall2 lsays l s'.(p_root).
Proof.
  intros s l s' r F H. apply parse_inv in H as (s1 & rest & t & T & _ & -> & ->).
  pose proof (doc_takes l F s s1 (Done rest t)) as D. rewrite app_nil_r in D. destruct (D T) as (x & E & HL). inversion E; subst. exact HL.
Qed.

(** ** Values without faults have this form *)
Lemma spells_denotes : forall v t, spells v t -> denotes v t.
Proof.
  apply (spells_mut denotes delems dfields); intros; try solve [constructor; auto].
Qed.
