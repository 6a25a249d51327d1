(** Reading nested values. *)
From Coq Require Import Lia ZifyBool ZifyNat ZifyN.
From Verif Require Import Str Regex Types Ast State Nom Keys Grammar Api Facts Spec.
From Verif Require Import RegexFacts NomFacts TypesFacts DateFacts NumFacts StringFacts ScalarFacts.
From Verif Require Import LineFacts FlatFacts RoundTrip WalkFacts IdFacts WriteFacts ApiSpec ApiFacts DocSpec MixSpec PathFacts.

(** ** Sub-cells along a path *)
Fixpoint tat (c : cell) (p : list pstep) {struct p} : option cell :=
  match p with
  | [] => Some c
  | PIdx i :: p' =>
      match c.(c_val) with
      | TArray l _ _ => match nth_error l (N.to_nat i) with Some av => tat av.(av_val) p' | None => None end
      | _ => None
      end
  | PKey k :: p' =>
      match c.(c_val) with
      | TInlineTable l _ =>
          match find (fun tk => same_key k tk.(tk_kv).(kv_key)) l with
          | Some tk => tat tk.(tk_kv).(kv_val) p'
          | None => None
          end
      | _ => None
      end
  end.

Definition tkids (t : tval) : children :=
  match t with
  | TArray l _ _ => Count (nlen l)
  | TInlineTable l _ => Keys (map (fun tk => tk.(tk_kv).(kv_key)) l)
  | _ => Count 0
  end.
(** the entry of a value before it is inserted itself *)
Definition pending (t : tval) : option hash_value :=
  match t with
  | TArray (_ :: _) _ _ | TInlineTable (_ :: _) _ => Some (HashValue None (tkids t))
  | _ => None
  end.
Definition held (c : cell) : option hash_value := Some (HashValue (Some c) (tkids c.(c_val))).

Lemma rmap_nth : forall A B (f : A -> res B) l r, rmap f l = Ok r -> length r = length l /\
  forall i, match nth_error l i with Some x => exists y, nth_error r i = Some y /\ f x = Ok y | None => nth_error r i = None end.
Proof.
  intros A B f. induction l as [|x l IH]; intros r H.
  - inversion H; subst. split; auto. intros i; destruct i; reflexivity.
  - apply rmap_cons in H as (a & b & E & R & ->). destruct (IH b R) as [L N]. split; [cbn [length]; congruence|].
    intros [|i]; cbn [nth_error]; [eauto|apply N].
Qed.

Lemma tkids_of : forall t v, to_val t = Ok v -> tkids t = kids_of v.
Proof.
  intros t v H. destruct t; cbn [to_val] in H; try (inversion H; subst; reflexivity).
  - apply rbind_ok in H as (l & R & H). inversion H; subst. cbn [tkids kids_of]. apply rmap_nth in R as [L _].
    unfold nlen. rewrite L. auto.
  - apply rbind_ok in H as (l & R & H). inversion H; subst. cbn [tkids kids_of]. f_equal. clear H. revert l R.
    induction keyvals as [|k ks IH]; intros l R; [inversion R; subst; reflexivity|]. apply rmap_cons in R as (a & b & E & R & ->).
    apply rbind_ok in E as (x & _ & E). inversion E; subst. cbn [map fst]. f_equal. auto.
Qed.

Lemma tat_at : forall p c v, to_val c.(c_val) = Ok v ->
  match at_path v p with Some x => exists y, tat c p = Some y /\ to_val y.(c_val) = Ok x | None => tat c p = None end.
Proof.
  induction p as [|[i|k] p IH]; intros c v H; cbn [at_path tat].
  - eauto.
  - destruct (c_val c); cbn [to_val] in H; try (inversion H; subst; reflexivity).
    + apply rbind_ok in H as (l & R & H). inversion H; subst. apply rmap_nth in R as [_ R]. specialize (R (N.to_nat i)).
      destruct (nth_error values (N.to_nat i)) as [av|]; [|rewrite R; auto]. destruct R as (y & -> & E). apply IH; auto.
    + apply rbind_ok in H as (l & R & H). inversion H; subst. auto.
  - destruct (c_val c); cbn [to_val] in H; try (inversion H; subst; reflexivity).
    + apply rbind_ok in H as (l & R & H). inversion H; subst. auto.
    + apply rbind_ok in H as (l & R & H). inversion H; subst. clear H. revert l R.
      induction keyvals as [|tk ks IHk]; intros l R; [inversion R; subst; reflexivity|]. apply rmap_cons in R as (a & b & E & R & ->).
      apply rbind_ok in E as (x & E1 & E). inversion E; subst. cbn [first_value find].
      destruct (same_key k (kv_key (tk_kv tk))); [apply IH; auto|apply IHk; auto].
Qed.

(** ** The type of a value *)
Definition atype_of (v : value) : array_type :=
  match v with
  | VInteger _ => AInteger | VFloat _ => AFloat | VBoolean _ => ABoolean | VDateTime _ => ADateTime
  | VString _ _ => AString | VArray _ => AArray | VInlineTable _ => AInlineTable
  end.
Lemma atype_to_val : forall t v, to_val t = Ok v -> map_val_to_array_type t = Ok (atype_of v).
Proof.
  intros t v H. destruct t; cbn [to_val] in H; try (inversion H; subst; reflexivity);
    apply rbind_ok in H as (l & R & H); inversion H; subst; reflexivity.
Qed.
Lemma atype_kind : forall a b, kind a = kind b -> atype_of a = atype_of b.
Proof. intros a b H. destruct a, b; try discriminate H; reflexivity. Qed.
Lemma array_type_eqb_refl : forall t, array_type_eqb t t = true.
Proof. intros []; reflexivity. Qed.

(** ** Keys of the chain *)
Definition chain (kc : list key) : str := fold_left chain_step kc [].
Definition good_chain (kc : list key) : Prop := exists k r, kc = KStr k :: r /\ k <> [].
Lemma chain_ne : forall kc, good_chain kc -> chain kc <> [].
Proof.
  intros kc (k & r & -> & N). unfold chain. cbn [fold_left chain_step app].
  assert (H : forall r acc, acc <> [] -> fold_left chain_step r acc <> []); [|apply H; auto].
  clear. induction r as [|[s|i] r IH]; intros acc A; cbn [fold_left]; auto; apply IH; cbn [chain_step].
  - destruct acc; [congruence|discriminate].
  - destruct acc; [congruence|discriminate].
Qed.
Lemma chain_idx : forall kc i, chain (kc ++ [KIndex i]) = chain kc ++ step_text (PIdx i).
Proof. intros. unfold chain. rewrite fold_left_app. reflexivity. Qed.
Lemma chain_str : forall kc k, good_chain kc -> chain (kc ++ [KStr k]) = chain kc ++ step_text (PKey k).
Proof.
  intros kc k G. apply chain_ne in G. unfold chain in *. rewrite fold_left_app. cbn [fold_left chain_step step_text].
  destruct (fold_left chain_step kc []); [congruence|]. rewrite <- app_assoc. auto.
Qed.
Lemma good_chain_app : forall kc x, good_chain kc -> good_chain (kc ++ x).
Proof. intros kc x (k & r & -> & N). exists k, (r ++ x). auto. Qed.
Lemma chain_one : forall k, chain [KStr k] = k.
Proof. reflexivity. Qed.

(** ** Context *)
(** the fields that reading a value leaves alone, apart from the key chain and
    the stack of array types *)
Record frame0 (s s' : pst) : Prop := {
  f0_tables : s'.(p_tables) = s.(p_tables);
  f0_tindex : s'.(p_tindex) = s.(p_tindex);
  f0_last : s'.(p_last_table) = s.(p_last_table);
  f0_aerr : s'.(p_array_error) = s.(p_array_error);
  f0_ovf : s'.(p_ovf) = s.(p_ovf) }.
Lemma frame0_refl : forall s, frame0 s s.
Proof. intros. constructor; auto. Qed.
Lemma frame0_trans : forall a b c, frame0 a b -> frame0 b c -> frame0 a c.
Proof. intros a b c [] []. constructor; congruence. Qed.
Record frame (s s' : pst) : Prop := {
  fr_0 : frame0 s s';
  fr_chain : s'.(p_keychain) = s.(p_keychain);
  fr_types : s'.(p_atypes) = s.(p_atypes) }.

(** full and parent key of the value of the chain [kc]; they depend on the map at the keys [fx] only *)
Definition parent_of (pre par : str) (kc : list key) : str :=
  match removelast kc with [] => par | l => pre ++ chain l end.
Record vctx (s : pst) (fx : list str) (pre par : str) : Prop := {
  vx_err : s.(p_array_error) = false;
  vx_fx : forall x, In x fx -> x <> par /\ forall y, x <> pre ++ y;
  vx_keys : forall s2, frame0 s s2 -> (forall x, In x fx -> hget x s2.(p_map) = hget x s.(p_map)) ->
              good_chain s2.(p_keychain) ->
              keyval_keys s2 = Ok (pre ++ chain s2.(p_keychain), parent_of pre par s2.(p_keychain)) }.

Lemma vctx_keep : forall s s' fx pre par, vctx s fx pre par ->
  s'.(p_tables) = s.(p_tables) -> s'.(p_tindex) = s.(p_tindex) -> s'.(p_last_table) = s.(p_last_table) ->
  s'.(p_array_error) = s.(p_array_error) -> s'.(p_ovf) = s.(p_ovf) ->
  (forall x, (forall y, x <> pre ++ y) -> x <> par -> hget x s'.(p_map) = hget x s.(p_map)) ->
  vctx s' fx pre par.
Proof.
  intros s s' fx pre par [A B C] T1 T2 T3 T4 T5 M. constructor; [congruence|auto|].
  intros s2 F H G.
  apply C; auto.
  - destruct F. constructor; congruence.
  - intros x I. rewrite H, M; auto; destruct (B x I); auto.
Qed.

(** the keys that errors carry *)
Definition fullctx (s : pst) (fx : list str) (pre : str) : Prop :=
  forall s2, frame0 s s2 -> (forall x, In x fx -> hget x s2.(p_map) = hget x s.(p_map)) -> good_chain s2.(p_keychain) ->
  exists x par, get_full_key s2.(p_ovf) s2.(p_map) s2.(p_tables) s2.(p_tindex) s2.(p_keychain) =
    Ok (x, pre ++ chain s2.(p_keychain), parent_of pre par s2.(p_keychain)).
Lemma fullctx_keep : forall s s' fx pre par, fullctx s fx pre -> vctx s fx pre par ->
  s'.(p_tables) = s.(p_tables) -> s'.(p_tindex) = s.(p_tindex) -> s'.(p_last_table) = s.(p_last_table) ->
  s'.(p_array_error) = s.(p_array_error) -> s'.(p_ovf) = s.(p_ovf) ->
  (forall x, (forall y, x <> pre ++ y) -> x <> par -> hget x s'.(p_map) = hget x s.(p_map)) ->
  fullctx s' fx pre.
Proof.
  intros s s' fx pre par FC [A B C] T1 T2 T3 T4 T5 M s2 F H G.
  apply FC; auto.
  - destruct F. constructor; congruence.
  - intros x I. rewrite H, M; auto; destruct (B x I); auto.
Qed.

(** ** Errors of values *)
Fixpoint efaults (i : N) (prev : option value) (l : list value) : list vfault :=
  match l with
  | [] => []
  | x :: l' => map (inside (PIdx i)) (vfaults x) ++ (if other_type prev x then [BadElem [] i] else []) ++ efaults (i + 1) (Some x) l'
  end.
Fixpoint ffaults (l : list (str * value)) : list vfault :=
  match l with
  | [] => []
  | (k, x) :: l' => map (inside (PKey k)) (vfaults x) ++ ffaults l'
  end.
Lemma vfaults_array : forall l, vfaults (VArray l) = efaults 0 None l.
Proof. reflexivity. Qed.
Lemma vfaults_inline : forall l, vfaults (VInlineTable l) = ffaults l.
Proof. reflexivity. Qed.

(** what the parser does about a fault of the value at [A] *)
Definition note (A : str) (f : vfault) (ln : N) (es : list parse_error) : list parse_error :=
  match f with
  | BadDate r d => vpush es (EInvalidDateTime (A ++ path_text r) ln (datetime_src d))
  | BadElem r i =>
      match vlast es with
      | Some (EMixedArray k _) =>
          if starts_with k (A ++ path_text r ++ step_text (PIdx i)) then es else vpush es (EMixedArray (A ++ path_text r) ln)
      | Some _ => es
      | None => vpush es (EMixedArray (A ++ path_text r) ln)
      end
  end.
Inductive notes (A : str) : list vfault -> N -> N -> list parse_error -> list parse_error -> Prop :=
| No_nil : forall lo hi es, lo <= hi -> notes A [] lo hi es es
| No_cons : forall f l lo ln hi es es', lo <= ln -> notes A l ln hi (note A f ln es) es' -> notes A (f :: l) lo hi es es'.
Lemma notes_le : forall A l lo hi es es', notes A l lo hi es es' -> lo <= hi.
Proof. induction 1; lia. Qed.
Lemma notes_lo : forall A l lo hi es es' lo', notes A l lo hi es es' -> lo' <= lo -> notes A l lo' hi es es'.
Proof. intros A l lo hi es es' lo' H L. destruct H; [apply No_nil; lia|eapply No_cons; [|eassumption]; lia]. Qed.
Lemma notes_app : forall A l1 l2 lo mi hi es es1 es2, notes A l1 lo mi es es1 -> notes A l2 mi hi es1 es2 -> notes A (l1 ++ l2) lo hi es es2.
Proof.
  intros A l1 l2 lo mi hi es es1 es2 H. revert hi es2. induction H; intros hi' es2 K; cbn [app].
  - eapply notes_lo; eauto.
  - econstructor; eauto.
Qed.
Lemma note_inside : forall A x f ln es, note (A ++ step_text x) f ln es = note A (inside x f) ln es.
Proof. intros A x [r d|r i] ln es; cbn [inside note]; rewrite path_cons, <- !app_assoc; reflexivity. Qed.
Lemma notes_inside : forall A x l lo hi es es', notes (A ++ step_text x) l lo hi es es' -> notes A (map (inside x) l) lo hi es es'.
Proof.
  intros A x l lo hi es es' H. induction H; cbn [map]; [constructor; auto|]. econstructor; eauto. rewrite <- note_inside. auto.
Qed.
Lemma notes_none : forall A lo hi es es', notes A [] lo hi es es' -> es' = es.
Proof. intros A lo hi es es' H. inversion H; auto. Qed.
Lemma notes_refl : forall A lo es, notes A [] lo lo es es.
Proof. intros. constructor. lia. Qed.

Lemma parent_snoc : forall pre par kc x, kc <> [] -> parent_of pre par (kc ++ [x]) = pre ++ chain kc.
Proof. intros. unfold parent_of. rewrite removelast_last. destruct kc; [congruence|auto]. Qed.
Lemma good_chain_ne : forall kc, good_chain kc -> kc <> [].
Proof. intros kc (k & r & -> & _). discriminate. Qed.

(** insertion of a value that is not there yet *)
Lemma insert_at : forall s c A P, keyval_keys s = Ok (A, P) -> hget A s.(p_map) = pending c.(c_val) ->
  insert_keyval_into_map s c =
  (let? m := update_parent (hput A (HashValue (Some c) (tkids c.(c_val))) s.(p_map)) P s.(p_keychain) in
   Ok (set_map m s)).
Proof.
  intros s c A P K H. unfold insert_keyval_into_map. rewrite K. cbn [rbind]. rewrite H.
  destruct (c_val c) as [| | | |[|av avs] n1 n2| |[|tk tks] w|]; reflexivity.
Qed.

(** ** The result of reading a value *)
Definition fresh (m : vmap) (A : str) : Prop := forall x, under A x -> hget x m = None.

Record read (s s' : pst) (A : str) (v : value) (c : cell) : Prop := {
  rd_frame : frame s s';
  rd_val : to_val c.(c_val) = Ok v;
  rd_good : forall p x, tat c p = Some x -> good_path p;
  rd_pend : hget A s'.(p_map) = pending c.(c_val);
  rd_hit : forall p x, p <> [] -> tat c p = Some x -> hget (A ++ path_text p) s'.(p_map) = held x;
  rd_only : forall x hv, hget x s'.(p_map) = Some hv ->
      x = A \/ hget x s.(p_map) = Some hv \/ exists p y, p <> [] /\ tat c p = Some y /\ x = A ++ path_text p;
  rd_miss : forall x, ~ under A x -> hget x s'.(p_map) = hget x s.(p_map) }.

Definition reads_value (pval : P cell) (v : value) (t : str) : Prop :=
  forall s r fx pre par, ends_value r -> vctx s fx pre par -> good_chain s.(p_keychain) ->
  fresh s.(p_map) (pre ++ chain s.(p_keychain)) -> vfaults v = [] \/ fullctx s fx pre ->
  exists s' c, pval s (t ++ r) = Ok (s', Done r c) /\ read s s' (pre ++ chain s.(p_keychain)) v c /\
    notes (pre ++ chain s.(p_keychain)) (vfaults v) s.(p_line) s'.(p_line) s.(p_errors) s'.(p_errors).

(** scalars *)
Lemma tat_leaf : forall c p x, leaf c.(c_val) -> tat c p = Some x -> p = [] /\ x = c.
Proof.
  intros [i t] p x L H. cbn [c_val] in L. destruct p as [|[j|k] p]; cbn [tat c_val] in H.
  - inversion H; auto.
  - destruct t; try discriminate H; destruct L.
  - destruct t; try discriminate H; destruct L.
Qed.

Lemma tval_leaf : forall v t, scalar v t -> leaf (tval_of v) /\ pending (tval_of v) = None.
Proof. intros v t H. destruct H; split; try exact I; reflexivity. Qed.

Lemma exists_real : forall d, date_exists d = true <->
  datetime_real d /\
  match d.(dt_time) with
  | Some t => match t.(t_fraction) with Some f => number f <= 18446744073709551615 | None => True end
  | None => True
  end.
Proof.
  intros [[y m d] [[h mi s f o]|]]; unfold date_exists, datetime_real, real_date, real_time, real_offset;
    cbn [dt_date dt_time d_year d_month d_day t_hour t_minute t_second t_fraction t_offset].
  - destruct o as [[|[sg a b]]|]; destruct f as [f|]; cbn [toa_hour toa_minute]; rewrite ?andb_true_iff, ?N.leb_le; tauto.
  - rewrite ?andb_true_iff, ?N.leb_le; tauto.
Qed.
Lemma exists_validate : forall d, datetime_digits d -> date_exists d = datetime_validate d.
Proof.
  intros d D. apply eq_true_iff_eq. rewrite exists_real. symmetry. apply datetime_validate_digits; auto.
Qed.
Lemma scalar_faults : forall v t, scalar v t -> vfaults v = [].
Proof.
  intros v t H. destruct H as [| | | |d (D & RE & F)| | | |]; try reflexivity. cbn [vfaults].
  assert (date_exists d = true) as -> by (apply exists_real; auto). reflexivity.
Qed.

Lemma reads_date : forall pv d, datetime_digits d -> reads_value (val_ pv) (VDateTime d) (datetime_src d).
Proof.
  intros pv d D s r fx pre par R C K F CF. set (A := pre ++ chain (p_keychain s)) in *.
  set (es := if datetime_validate d then p_errors s else vpush (p_errors s) (EInvalidDateTime A (p_line s) (datetime_src d))).
  set (s1 := set_errors es s). exists (set_next (p_next s1 + 1) s1), (Cell (p_next s1) (TDateTime d)).
  assert (DT : date_time s (datetime_src d ++ r) = Ok (s1, Done r d)).
  { unfold date_time. rewrite datetime_src_show at 1. rewrite dti_ok by (auto; apply ends_dt_stop; auto). cbn [rbind].
    unfold s1, es. destruct (datetime_validate d) eqn:V; [destruct s; reflexivity|].
    destruct CF as [CF|CF]; [cbn [vfaults] in CF; rewrite (exists_validate d D), V in CF; discriminate|].
    destruct (CF s (frame0_refl s)) as (x & par' & ->); auto. cbn [rbind]. unfold push_error. fold A.
    rewrite app_length, Nat.add_sub, firstn_app, Nat.sub_diag, firstn_all, firstn_O, app_nil_r. reflexivity. }
  split; [|split].
  - unfold val_.
    assert (HD : match datetime_src d ++ r with [] => False | c :: _ => c = 43 \/ c = 45 \/ digit c end).
    { destruct D as [([Y L] & _) _]. unfold datetime_src. rewrite <- app_assoc.
      destruct (d_year (dt_date d)) as [|c y]; [discriminate|]. inversion Y; subst. cbn [app]. auto. }
    erewrite alt_err by (apply arr_err; eapply num_head_not; eauto; unfold digit; lia).
    erewrite alt_err by (apply inl_err; eapply num_head_not; eauto; unfold digit; lia).
    apply alt_ok. erewrite pcell_ok by exact DT. reflexivity.
  - assert (L : leaf (TDateTime d)) by exact I. constructor.
    + constructor; try reflexivity. constructor; reflexivity.
    + reflexivity.
    + intros p x T. apply tat_leaf in T as [-> _]; auto. constructor.
    + apply F. left; auto.
    + intros p x N T. apply tat_leaf in T as [-> _]; auto. congruence.
    + auto.
    + auto.
  - change (p_errors (set_next (p_next s1 + 1) s1)) with es. change (p_line (set_next (p_next s1 + 1) s1)) with (p_line s).
    unfold es. cbn [vfaults]. rewrite (exists_validate d D). destruct (datetime_validate d); [apply notes_refl|]. apply No_cons with (ln := p_line s); [lia|].
    cbn [note]. change (path_text []) with (@nil N). rewrite app_nil_r. apply notes_refl.
Qed.

Lemma reads_scalar : forall pv v t, scalar v t -> reads_value (val_ pv) v t.
Proof.
  intros pv v t H s r fx pre par R C K F CF. destruct (tval_leaf v t H) as [L Q].
  exists (after_scalar t s), (Cell s.(p_next) (tval_of v)). split; [apply val_scalar_; auto|].
  split; [|rewrite (scalar_faults v t H); constructor; cbn; lia]. constructor.
  - constructor; try reflexivity. constructor; reflexivity.
  - eapply to_val_of; eauto.
  - intros p x T. apply tat_leaf in T as [-> _]; auto. constructor.
  - cbn [c_val]. rewrite Q. apply F. left; auto.
  - intros p x N T. apply tat_leaf in T as [-> _]; auto. congruence.
  - auto.
  - auto.
Qed.

(** ** What follows a value inside brackets *)
Definition tail_text (y : str) : Prop := gap y \/ exists w g, blanks w /\ gap g /\ y = w ++ lit "," ++ g.
Lemma tail_ok : forall y r s, tail_text y -> solid r -> head_not 44 r -> exists sep nls y2,
  opt (complete array_sep) s (y ++ r) = Ok (s, Done (y2 ++ r) sep) /\
  complete comment_or_nls s (y2 ++ r) = Ok (s, Done r nls) /\ show_cons nls = y2 /\ gap y2.
Proof.
  intros y r s [G|(w & g & W & G & ->)] R H.
  - destruct (gap_ok y r s G R) as (l & E & SH). exists None, l, y. split; [|split; [apply complete_ok|]; auto].
    apply opt_err, complete_err. unfold array_sep. destruct (gap_blanks y r G R) as (w & g2 & -> & W & G2 & NB).
    rewrite <- app_assoc. erewrite bind_ok by (apply ws_ok; auto).
    assert (X : head_not 44 (g2 ++ r)).
    { destruct G2 as [w2 W2|w2 c nl g W2 C NL G2].
      - destruct W2; cbn [app]; auto; simpl; lia.
      - rewrite <- app_assoc. destruct W2; simpl; lia. }
    change (lit ",") with [44]. destruct (tag1_err 44 s (g2 ++ r) X) as (x & E2 & [-> | ->]); [left; apply bind_err|right; apply bind_inc]; exact E2.
  - destruct (gap_blanks g r G R) as (w2 & g2 & -> & W2 & G2 & NB). destruct (gap_ok g2 r s G2 R) as (l & E & SH).
    exists (Some {| ws1 := w; ws2 := w2 |}), l, g2. split; [|split; [apply complete_ok|]; auto].
    apply opt_ok, complete_ok. unfold array_sep. rewrite <- !app_assoc.
    erewrite bind_ok by (apply ws_ok; auto; simpl; lia). erewrite bind_ok by apply tag_ok.
    erewrite bind_ok by (apply ws_ok; auto). reflexivity.
Qed.
Lemma tail_ends : forall y r, tail_text y -> ends_value r -> ends_value (y ++ r).
Proof.
  intros y r [G|(w & g & W & G & ->)] R; [apply gap_ends; auto|]. rewrite <- app_assoc.
  apply (blanks_app_head (fun c => In c [9; 10; 13; 32; 35; 44; 93; 125])); auto; simpl; tauto.
Qed.

(** ** One element of an array *)
Definition counted (n : N) : option hash_value := if n =? 0 then None else Some (HashValue None (Count n)).

Record elem_read (s s' : pst) (A : str) (kc : list key) (tys : list array_type) (i : N) (v : value) (c : cell) : Prop := {
  el_0 : frame0 s s';
  el_chain : s'.(p_keychain) = kc ++ [KIndex (i + 1)];
  el_types : s'.(p_atypes) = tys ++ [atype_of v];
  el_val : to_val c.(c_val) = Ok v;
  el_good : forall p x, tat c p = Some x -> good_path p;
  el_count : hget A s'.(p_map) = counted (i + 1);
  el_hit : forall p x, tat c p = Some x -> hget (A ++ path_text (PIdx i :: p)) s'.(p_map) = held x;
  el_only : forall x hv, hget x s'.(p_map) = Some hv ->
      x = A \/ hget x s.(p_map) = Some hv \/ exists p y, tat c p = Some y /\ x = A ++ path_text (PIdx i :: p);
  el_miss : forall x, x <> A -> ~ under (A ++ step_text (PIdx i)) x -> hget x s'.(p_map) = hget x s.(p_map) }.

Lemma step_ne : forall (A : str) x, A ++ step_text x <> A.
Proof. intros A x E. rewrite <- app_nil_r in E. apply app_inv_head in E. destruct x; discriminate. Qed.
Lemma step_path : forall (A : str) x p, A ++ path_text (x :: p) = (A ++ step_text x) ++ path_text p.
Proof. intros. rewrite path_cons, app_assoc. auto. Qed.
Lemma path_ne : forall (A : str) p, p <> [] -> A ++ path_text p <> A.
Proof. intros A p N E. apply (below_not_self A). rewrite <- E at 2. apply below_path; auto. Qed.
Lemma not_under_step : forall (A : str) x, ~ under (A ++ step_text x) A.
Proof. intros A x U. apply under_step_below in U. apply below_not_self in U. auto. Qed.

Definition prev_type (prev : option value) : array_type := match prev with Some u => atype_of u | None => ANone end.
Lemma other_type_eq : forall prev v,
  negb (array_type_eqb (prev_type prev) ANone) && negb (array_type_eqb (prev_type prev) (atype_of v)) = other_type prev v.
Proof. intros [[]|] []; reflexivity. Qed.
Lemma set_same_errors : forall s, set_errors (p_errors s) s = s.
Proof. intros []; reflexivity. Qed.

Lemma array_elem : forall pval v t y r s fx pre par kc tys prev i,
  reads_value pval v t -> tail_text y -> solid r -> head_not 44 r -> ends_value (y ++ r) ->
  vctx s fx pre par -> s.(p_keychain) = kc ++ [KIndex i] -> good_chain kc -> s.(p_atypes) = tys ++ [prev_type prev] ->
  hget (pre ++ chain kc) s.(p_map) = counted i ->
  fresh s.(p_map) ((pre ++ chain kc) ++ step_text (PIdx i)) ->
  (vfaults v = [] /\ other_type prev v = false) \/ fullctx s fx pre ->
  exists s' av, array_value_ pval s (t ++ y ++ r) = Ok (s', Done r av) /\
    elem_read s s' (pre ++ chain kc) kc tys i v av.(av_val) /\
    notes (pre ++ chain kc) (map (inside (PIdx i)) (vfaults v) ++ if other_type prev v then [BadElem [] i] else [])
      s.(p_line) s'.(p_line) s.(p_errors) s'.(p_errors).
Proof.
  intros pval v t y r s fx pre par kc tys prev i RV Y R R2 RE C K G T CNT F CF.
  set (A := pre ++ chain kc) in *.
  assert (AE : pre ++ chain s.(p_keychain) = A ++ step_text (PIdx i)).
  { rewrite K, chain_idx. unfold A. rewrite <- app_assoc. auto. }
  destruct (RV s (y ++ r) fx pre par) as (s1 & c & E & [[F0 FC FT] V GD PE HI ON MI] & NT).
  { auto. } { auto. } { rewrite K. apply good_chain_app; auto. } { rewrite AE. auto. } { tauto. }
  rewrite AE in *.
  destruct (tail_ok y r s1 Y R R2) as (sep & nls & y2 & E2 & E3 & _).
  unfold array_value_. erewrite bind_ok by exact E. erewrite bind_ok by exact E2. erewrite bind_ok by exact E3.
  unfold act, array_value_act. rewrite (atype_to_val _ _ V). cbn [rbind].
  assert (SAME : forall x, In x fx -> hget x (p_map s1) = hget x (p_map s)).
  { intros x I. apply MI. intros U. destruct (vx_fx _ _ _ _ C x I) as [_ N].
    apply under_stop in U as (z & _ & ->). unfold A in N. rewrite <- !app_assoc in N. eapply N. reflexivity. }
  assert (CM : exists es2, check_mixed (atype_of v) s1 = Ok (set_errors es2 s1) /\
     notes A (if other_type prev v then [BadElem [] i] else []) (p_line s1) (p_line s1) (p_errors s1) es2).
  { unfold check_mixed. rewrite FT, T, vlast_app, other_type_eq. destruct (other_type prev v) eqn:OT.
    2:{ exists (p_errors s1). rewrite set_same_errors. split; auto. apply notes_refl. }
    destruct CF as [[_ CF]|CF]; [discriminate|].
    destruct (CF s1) as (x & par' & ->); auto. { rewrite FC, K. apply good_chain_app; auto. }
    cbn [rbind]. rewrite FC, K, parent_snoc by (apply good_chain_ne; auto). rewrite <- K, AE. fold A.
    exists (note A (BadElem [] i) (p_line s1) (p_errors s1)). split.
    - cbn [note]. change (path_text [] ++ step_text (PIdx i)) with (step_text (PIdx i)). change (path_text []) with (@nil N). rewrite app_nil_r.
      unfold push_error. destruct (vlast (p_errors s1)) as [[k l0|k l0 v0|k l0 kvs|k l0 t0]|]; try (rewrite set_same_errors; reflexivity); [|reflexivity].
      destruct (starts_with k (A ++ step_text (PIdx i))); cbn [negb]; [rewrite set_same_errors|]; reflexivity.
    - econstructor; [apply N.le_refl|]. apply notes_refl. }
  destruct CM as (es2 & -> & NT2). cbn [rbind]. set (s2 := set_atypes _ _).
  assert (C2 : keyval_keys s2 = Ok (A ++ step_text (PIdx i), A)).
  { rewrite (vx_keys _ _ _ _ C s2).
    - change (p_keychain s2) with (p_keychain s1). rewrite FC, AE. rewrite K, parent_snoc; auto. apply good_chain_ne; auto.
    - destruct F0. constructor; auto.
    - exact SAME.
    - change (p_keychain s2) with (p_keychain s1). rewrite FC, K. apply good_chain_app; auto. }
  rewrite (insert_at _ _ _ _ C2 PE). change (p_map s2) with (p_map s1). change (p_keychain s2) with (p_keychain s1). rewrite FC, K.
  assert (HA : hget A (p_map s1) = counted i).
  { rewrite MI; auto. apply not_under_step. }
  set (hv := HashValue (Some c) (tkids (c_val c))).
  assert (UP : exists m, update_parent (hput (A ++ step_text (PIdx i)) hv (p_map s1)) A (kc ++ [KIndex i]) = Ok m /\
     m = hput A (HashValue None (Count (i + 1))) (hput (A ++ step_text (PIdx i)) hv (p_map s1))).
  { unfold update_parent. rewrite hget_hput_other by (apply not_eq_sym, step_ne). rewrite HA. unfold counted.
    destruct (N.eqb_spec i 0) as [->|NZ].
    - rewrite vlast_app. eauto.
    - cbn [hv_subkeys hv_value]. eauto. }
  destruct UP as (m & -> & EM). cbn [rbind]. change (p_keychain (set_map m s2)) with (p_keychain s1). rewrite FC, K.
  rewrite app_length. cbn [length]. replace (length kc + 1 - 1)%nat with (length kc) by lia.
  rewrite nth_error_app2, Nat.sub_diag by lia. cbn [nth_error].
  rewrite firstn_app, Nat.sub_diag, firstn_all, firstn_O, app_nil_r.
  replace (length kc + 1)%nat with (length (kc ++ [KIndex i])) by (rewrite app_length; auto). rewrite skipn_all.
  cbn [key_inc]. eexists. eexists. split; [reflexivity|]. cbn [av_val].
  set (s3 := set_keychain _ _). split.
  2:{ change (p_line s3) with (p_line s1). change (p_errors s3) with es2. eapply notes_app; [|exact NT2]. apply notes_inside. exact NT. }
  assert (GM : forall x, hget x (p_map s3) = if list_eq_dec N.eq_dec x A then counted (i + 1)
     else if list_eq_dec N.eq_dec x (A ++ step_text (PIdx i)) then Some hv else hget x (p_map s1)).
  { intros x. change (p_map s3) with m. rewrite EM. destruct (list_eq_dec N.eq_dec x A) as [->|N1].
    - rewrite hget_hput_same. unfold counted. assert (i + 1 =? 0 = false) as -> by lia. auto.
    - rewrite hget_hput_other by auto. destruct (list_eq_dec N.eq_dec x (A ++ step_text (PIdx i))) as [->|N2].
      + apply hget_hput_same.
      + apply hget_hput_other; auto. }
  constructor.
  - destruct F0. constructor; auto.
  - reflexivity.
  - cbn. rewrite FT, T. unfold vpush. rewrite vpop_app. auto.
  - auto.
  - auto.
  - rewrite GM. destruct (list_eq_dec N.eq_dec A A); [auto|congruence].
  - intros p x TT. rewrite GM. destruct (list_eq_dec N.eq_dec (A ++ path_text (PIdx i :: p)) A) as [Q|_].
    { exfalso. apply path_ne in Q; auto. discriminate. }
    destruct p as [|z p].
    + cbn [tat] in TT. inversion TT; subst x. destruct (list_eq_dec N.eq_dec _ _) as [_|N]; [reflexivity|].
      exfalso. apply N. rewrite step_path. apply app_nil_r.
    + rewrite step_path. destruct (list_eq_dec N.eq_dec _ _) as [Q|_].
      { exfalso. apply path_ne in Q; auto. discriminate. }
      apply HI; auto. discriminate.
  - intros x h H. rewrite GM in H. destruct (list_eq_dec N.eq_dec x A) as [->|N1]; auto.
    destruct (list_eq_dec N.eq_dec x (A ++ step_text (PIdx i))) as [->|N2].
    + right. right. exists [], c. split; auto. rewrite step_path. symmetry. apply app_nil_r.
    + apply ON in H as [H|[H|(p & z & N & TT & ->)]]; [congruence|auto|]. right. right. exists p, z.
      split; auto. rewrite step_path. auto.
  - intros x N1 N2. rewrite GM. destruct (list_eq_dec N.eq_dec x A); [congruence|].
    destruct (list_eq_dec N.eq_dec x (A ++ step_text (PIdx i))) as [->|_]; [|apply MI; auto].
    exfalso. apply N2. left; auto.
Qed.

(** ** The elements of an array *)
Record elems_read (s s' : pst) (A : str) (kc : list key) (tys : list array_type) (i : N) (vs : list value)
    (avs : list array_value) : Prop := {
  es_0 : frame0 s s';
  es_chain : s'.(p_keychain) = kc ++ [KIndex (i + nlen vs)];
  es_types : exists ty, s'.(p_atypes) = tys ++ [ty];
  es_val : rmap (fun av : array_value => to_val av.(av_val).(c_val)) avs = Ok vs;
  es_good : forall av p x, In av avs -> tat av.(av_val) p = Some x -> good_path p;
  es_count : hget A s'.(p_map) = counted (i + nlen vs);
  es_hit : forall j av p x, nth_error avs j = Some av -> tat av.(av_val) p = Some x ->
      hget (A ++ path_text (PIdx (i + N.of_nat j) :: p)) s'.(p_map) = held x;
  es_only : forall x hv, hget x s'.(p_map) = Some hv ->
      x = A \/ hget x s.(p_map) = Some hv \/
      exists j av p y, nth_error avs j = Some av /\ tat av.(av_val) p = Some y /\
        x = A ++ path_text (PIdx (i + N.of_nat j) :: p);
  es_miss : forall x, x <> A -> (forall j, i <= j -> ~ under (A ++ step_text (PIdx j)) x) ->
      hget x s'.(p_map) = hget x s.(p_map) }.

Definition reads_elems (pval : P cell) (vs : list value) (t : str) : Prop :=
  forall n s r fx pre par kc tys prev i, (length (t ++ lit "]" ++ r) < n)%nat ->
  vctx s fx pre par -> s.(p_keychain) = kc ++ [KIndex i] -> good_chain kc -> s.(p_atypes) = tys ++ [prev_type prev] ->
  hget (pre ++ chain kc) s.(p_map) = counted i ->
  (forall j, i <= j -> fresh s.(p_map) ((pre ++ chain kc) ++ step_text (PIdx j))) ->
  efaults i prev vs = [] \/ fullctx s fx pre ->
  exists s' avs, many_loop n (array_value_ pval) s (t ++ lit "]" ++ r) = Ok (s', Done (lit "]" ++ r) avs) /\
    elems_read s s' (pre ++ chain kc) kc tys i vs avs /\
    notes (pre ++ chain kc) (efaults i prev vs) s.(p_line) s'.(p_line) s.(p_errors) s'.(p_errors).

Lemma elems_nil : forall pval, (forall s r, pval s (lit "]" ++ r) = Ok (s, Error)) -> reads_elems pval [] [].
Proof.
  intros pval CL n s r fx pre par kc tys prev i L C K G T CNT F CF. exists s, []. split; [|split; [|apply notes_refl]].
  - destruct n; [simpl in L; lia|]. cbn [many_loop app]. change (lit "]" ++ r) with (93 :: r). cbv iota.
    unfold array_value_. rewrite (bind_err _ _ _ _ _ (CL s r)). reflexivity.
  - replace (nlen (@nil value)) with 0 by reflexivity. constructor; rewrite ?N.add_0_r; auto using frame0_refl.
    + eauto.
    + intros av p x [].
    + intros [|j] av p x H; discriminate.
Qed.

Lemma nlen_cons : forall A (x : A) l, nlen (x :: l) = 1 + nlen l.
Proof. intros. unfold nlen. cbn [length]. lia. Qed.
Lemma N_succ_of : forall j, N.of_nat (S j) = 1 + N.of_nat j.
Proof. intros. lia. Qed.

Lemma elem_vctx : forall s s' A kc tys i v c fx pre par, elem_read s s' A kc tys i v c -> A = pre ++ chain kc ->
  vctx s fx pre par -> vctx s' fx pre par.
Proof.
  intros s s' A kc tys i v c fx pre par E EA C. pose proof (el_0 _ _ _ _ _ _ _ _ E) as []. eapply vctx_keep; eauto.
  intros x N1 N2. apply (el_miss _ _ _ _ _ _ _ _ E).
  - subst A. apply N1.
  - intros U. apply under_stop in U as (z & _ & ->). subst A. rewrite <- !app_assoc in N1. eapply N1. reflexivity.
Qed.

Lemma elem_fullctx : forall s s' A kc tys i v c fx pre par, elem_read s s' A kc tys i v c -> A = pre ++ chain kc ->
  vctx s fx pre par -> fullctx s fx pre -> fullctx s' fx pre.
Proof.
  intros s s' A kc tys i v c fx pre par E EA C FC. pose proof (el_0 _ _ _ _ _ _ _ _ E) as []. eapply fullctx_keep; eauto.
  intros x N1 N2. apply (el_miss _ _ _ _ _ _ _ _ E).
  - subst A. apply N1.
  - intros U. apply under_stop in U as (z & _ & ->). subst A. rewrite <- !app_assoc in N1. eapply N1. reflexivity.
Qed.

(** one element in front *)
Lemma elems_more : forall pval v t y vs r0, reads_value pval v t -> tail_text y -> t <> [] ->
  (forall r, solid (r0 ++ lit "]" ++ r) /\ head_not 44 (r0 ++ lit "]" ++ r) /\ ends_value (y ++ r0 ++ lit "]" ++ r)) ->
  reads_elems pval vs r0 -> reads_elems pval (v :: vs) (t ++ y ++ r0).
Proof.
  intros pval v t y vs r0 RV Y TN RR RE n s r fx pre par kc tys prev i L C K G T CNT F CF.
  destruct (RR r) as (R1 & R2 & R3).
  destruct (array_elem pval v t y (r0 ++ lit "]" ++ r) s fx pre par kc tys prev i) as (s1 & av & E & EL & NT); auto.
  { apply F. lia. }
  { destruct CF as [CF|CF]; auto. left. cbn [efaults] in CF. apply app_eq_nil in CF as [CF1 CF2]. apply app_eq_nil in CF2 as [CF2 _].
    apply map_eq_nil in CF1. destruct (other_type prev v); [discriminate|auto]. }
  pose proof EL as [F0 EC ET EV EG EN EH EO EM]. rewrite <- !app_assoc in L |- *.
  destruct n; [lia|].
  destruct (RE n s1 r fx pre par kc tys (Some v) (i + 1)) as (s2 & avs & E2 & EL2 & NT2); auto.
  { rewrite app_length in L. destruct t; [congruence|]. cbn [length] in L. rewrite app_length in L. lia. }
  { eapply elem_vctx; eauto. }
  { intros j J x X. rewrite EM.
    - apply (F j); auto. lia.
    - intros ->. apply not_under_step in X. auto.
    - intros X2. assert (Q : PIdx i = PIdx j) by (eapply step_disjoint; eauto; exact I). inversion Q. lia. }
  { destruct CF as [CF|CF]; [|right; eapply elem_fullctx; eauto]. left. cbn [efaults] in CF. apply app_eq_nil in CF as [_ CF].
    apply app_eq_nil in CF as [_ CF]. auto. }
  pose proof EL2 as [G0 GC GT GV GG GN GH GO GM].
  exists s2, (av :: avs). split.
  - cbn [many_loop]. destruct (t ++ y ++ r0 ++ lit "]" ++ r) as [|a b] eqn:Q.
    { destruct t; [congruence|discriminate]. }
    rewrite E. cbn [rbind]. rewrite <- Q.
    assert (Nat.eqb (length (r0 ++ lit "]" ++ r)) (length (t ++ y ++ r0 ++ lit "]" ++ r)) = false) as ->.
    { apply Nat.eqb_neq. rewrite (app_length t), (app_length y). destruct t; [congruence|]. cbn [length]. lia. }
    rewrite E2. reflexivity.
  - split.
    2:{ cbn [efaults]. rewrite app_assoc. eapply notes_app; eauto. }
    rewrite <- N.add_assoc, <- nlen_cons with (x := v) in *. constructor.
    + eapply frame0_trans; eauto.
    + auto.
    + auto.
    + apply rmap_eq; auto.
    + intros av' p x [<-|I]; eauto.
    + auto.
    + intros [|j] av' p x N TT.
      * cbn [nth_error] in N. inversion N; subst av'. rewrite N.add_0_r. rewrite GM.
        -- apply EH; auto.
        -- apply path_ne. discriminate.
        -- intros j J X. assert (Q : PIdx i = PIdx j).
           { eapply (step_disjoint (pre ++ chain kc)); [exact I|exact I| |exact X]. rewrite step_path. apply under_path. }
           inversion Q. lia.
      * cbn [nth_error] in N. rewrite N_succ_of, N.add_assoc. eapply GH; eauto.
    + intros x hv H. apply GO in H as [H|[H|(j & av' & p & z & N & TT & ->)]]; auto.
      * apply EO in H as [H|[H|(p & z & TT & ->)]]; auto. right. right. exists 0%nat, av, p, z.
        rewrite N.add_0_r. auto.
      * right. right. exists (S j), av', p, z. split; auto. split; auto. rewrite N_succ_of, N.add_assoc. auto.
    + intros x N1 N2. rewrite GM; auto.
      * apply EM; auto. apply N2. lia.
      * intros j J. apply N2. lia.
Qed.

(** ** The array *)
Lemma array_read : forall pval vs g t, reads_elems pval vs t -> gap g ->
  (forall r, solid (t ++ lit "]" ++ r)) -> reads_value (val_ pval) (VArray vs) (lit "[" ++ g ++ t ++ lit "]").
Proof.
  intros pval vs g t RE G SO s r fx pre par R C K F CF. set (kc := p_keychain s) in *. set (A := pre ++ chain kc) in *.
  set (s0 := push_key (KIndex 0) (set_atypes (vpush s.(p_atypes) ANone) s)).
  destruct (gap_ok g (t ++ lit "]" ++ r) s0 G (SO r)) as (n1 & E1 & _).
  destruct (RE (S (length (t ++ lit "]" ++ r))) s0 r fx pre par kc s.(p_atypes) None 0) as (s1 & avs & E2 & EL & NT); auto.
  { eapply vctx_keep; eauto. }
  { cbn. rewrite F; auto. left; auto. }
  { intros j _ x X. apply F. right. eapply under_step_below; eauto. }
  { destruct CF as [CF|CF]; [left; auto|right; eapply fullctx_keep; eauto]. }
  destruct (gap_ok [] (lit "]" ++ r) s1 (G_ws [] BL_nil)) as (n2 & E3 & _).
  { simpl. lia. }
  cbn [app] in E3.
  pose proof EL as [F0 EC [ty ET] EV EG EN EH EO EM]. fold A in EN, EH, EO, EM.
  exists (let s2 := set_atypes (vpop (pop_key s1).(p_atypes)) (pop_key s1) in set_next (s2.(p_next) + 1) s2). eexists. split.
  - unfold val_. apply alt_ok. erewrite pcell_ok; [reflexivity|]. unfold array_. fold s0.
    unfold array_internal_. rewrite <- !app_assoc. erewrite bind_ok by apply tag_ok. erewrite bind_ok by exact E1.
    unfold array_values_, many0. erewrite bind_ok by exact E2. erewrite bind_ok by exact E3.
    erewrite bind_ok by apply tag_ok. cbn [ret rbind]. reflexivity.
  - cbv zeta. split; [|exact NT]. constructor.
    + constructor.
      * destruct F0. constructor; auto.
      * cbn. rewrite EC. unfold vpush. rewrite vpop_app. auto.
      * cbn. rewrite ET. unfold vpush. rewrite vpop_app. auto.
    + cbn [c_val to_val]. rewrite EV. reflexivity.
    + intros [|[i|k] p] x TT; [constructor| |discriminate]. cbn [tat c_val] in TT.
      destruct (nth_error avs (N.to_nat i)) as [av|] eqn:N; [|discriminate]. constructor; [exact I|].
      eapply EG; eauto. eapply nth_error_In; eauto.
    + change (hget A (p_map s1) = pending (TArray avs n1 n2)). rewrite EN.
      apply rmap_nth in EV as [LEN _]. unfold nlen. rewrite LEN. destruct avs as [|av avs]; [reflexivity|].
      unfold counted. cbn [length pending tkids]. unfold nlen. cbn [length].
      assert (0 + N.of_nat (S (length avs)) =? 0 = false) as -> by lia. do 3 f_equal. 
    + intros [|[i|k] p] x N TT; [congruence| |discriminate]. cbn [tat c_val] in TT.
      destruct (nth_error avs (N.to_nat i)) as [av|] eqn:NE; [|discriminate].
      change (hget (A ++ path_text (PIdx i :: p)) (p_map s1) = held x).
      specialize (EH _ _ _ _ NE TT). rewrite N.add_0_l, N2Nat.id in EH. auto.
    + intros x hv H. change (hget x (p_map s1) = Some hv) in H.
      apply EO in H as [H|[H|(j & av & p & z & N & TT & ->)]]; auto. right. right.
      rewrite N.add_0_l. exists (PIdx (N.of_nat j) :: p), z. split; [discriminate|]. split; auto.
      cbn [tat c_val]. rewrite Nat2N.id, N. auto.
    + intros x N. change (hget x (p_map s1) = hget x (p_map s)). rewrite EM; auto.
      * intros ->. apply N. left; auto.
      * intros j _ X. apply N. right. eapply under_step_below; eauto.
Qed.

(** ** Key and value *)
Lemma keyval_read_ : forall pval k w1 w2 t r s s1 c s2,
  key_name k -> blanks w1 -> blanks w2 -> no_blank (t ++ r) ->
  pval (push_key (KStr k) s) (t ++ r) = Ok (s1, Done r c) ->
  s1.(p_array_error) = false -> insert_keyval_into_map s1 c = Ok s2 ->
  keyval_p_ pval s (k ++ w1 ++ lit "=" ++ w2 ++ t ++ r) =
  Ok (pop_key s2, Done r (KeyVal k {| ws1 := w1; ws2 := w2 |} c)).
Proof.
  intros pval k w1 w2 t r s s1 c s2 K W1 W2 NB V AE I. unfold keyval_p_.
  erewrite bind_ok.
  2:{ apply key_p_bare; auto.
      apply (blanks_app_head (fun c => ~ bare_char c)); auto; unfold bare_char; simpl; lia. }
  erewrite bind_ok by (apply keyval_sep_ok; auto).
  erewrite bind_ok by exact V. unfold act, keyval_act. rewrite AE, I. reflexivity.
Qed.

(** ** One field of an inline table *)
Definition keyed (ks : list str) : option hash_value :=
  match ks with [] => None | _ => Some (HashValue None (Keys ks)) end.

Record field_read (s s' : pst) (A : str) (kc : list key) (ks : list str) (k : str) (v : value) (c : cell) : Prop := {
  fd_0 : frame0 s s';
  fd_chain : s'.(p_keychain) = kc;
  fd_types : s'.(p_atypes) = s.(p_atypes);
  fd_val : to_val c.(c_val) = Ok v;
  fd_good : forall p x, tat c p = Some x -> good_path p;
  fd_keys : hget A s'.(p_map) = keyed (ks ++ [k]);
  fd_hit : forall p x, tat c p = Some x -> hget (A ++ path_text (PKey k :: p)) s'.(p_map) = held x;
  fd_only : forall x hv, hget x s'.(p_map) = Some hv ->
      x = A \/ hget x s.(p_map) = Some hv \/ exists p y, tat c p = Some y /\ x = A ++ path_text (PKey k :: p);
  fd_miss : forall x, x <> A -> ~ under (A ++ step_text (PKey k)) x -> hget x s'.(p_map) = hget x s.(p_map) }.

Lemma vinsert_new : forall l (k : str), ~ In k l -> vinsert l k = (l ++ [k], true).
Proof.
  intros l k N. unfold vinsert. destruct (vcontains l k) eqn:E; [|reflexivity]. apply vcontains_in in E. tauto.
Qed.

Lemma field_elem : forall pval v t k w1 w2 y r s fx pre par kc ks,
  reads_value pval v t -> key_name k -> blanks w1 -> blanks w2 -> (forall r, no_blank (t ++ r)) ->
  tail_text y -> solid r -> head_not 44 r -> ends_value (y ++ r) ->
  vctx s fx pre par -> s.(p_keychain) = kc -> good_chain kc -> ~ In k ks ->
  hget (pre ++ chain kc) s.(p_map) = keyed ks ->
  fresh s.(p_map) ((pre ++ chain kc) ++ step_text (PKey k)) -> vfaults v = [] \/ fullctx s fx pre ->
  exists s' tk, table_keyval_p_ pval s ((k ++ w1 ++ lit "=" ++ w2 ++ t) ++ y ++ r) = Ok (s', Done r tk) /\
    tk.(tk_kv).(kv_key) = k /\ field_read s s' (pre ++ chain kc) kc ks k v tk.(tk_kv).(kv_val) /\
    notes (pre ++ chain kc) (map (inside (PKey k)) (vfaults v)) s.(p_line) s'.(p_line) s.(p_errors) s'.(p_errors).
Proof.
  intros pval v t k w1 w2 y r s fx pre par kc ks RV BK W1 W2 NB Y R R2 RE C K G NI CNT F CF.
  set (A := pre ++ chain kc) in *. set (sp := push_key (KStr k) s).
  assert (AE : pre ++ chain sp.(p_keychain) = A ++ step_text (PKey k)).
  { change (p_keychain sp) with (vpush (p_keychain s) (KStr k)). rewrite K. unfold vpush. rewrite chain_str by auto.
    unfold A. rewrite <- app_assoc. auto. }
  assert (KP : p_keychain sp = kc ++ [KStr k]).
  { change (p_keychain sp) with (vpush (p_keychain s) (KStr k)). rewrite K. auto. }
  destruct (RV sp (y ++ r) fx pre par) as (s1 & c & E & [[F0 FC FT] V GD PE HI ON MI] & NT).
  { auto. } { eapply vctx_keep; eauto. } { rewrite KP. apply good_chain_app; auto. } { rewrite AE. auto. }
  { destruct CF as [CF|CF]; [left; auto|right; eapply fullctx_keep; eauto]. }
  rewrite AE in *. change (p_map sp) with (p_map s) in *. change (p_atypes sp) with (p_atypes s) in FT.
  assert (C2 : keyval_keys s1 = Ok (A ++ step_text (PKey k), A)).
  { rewrite (vx_keys _ _ _ _ C s1).
    - rewrite FC, AE. rewrite KP, parent_snoc; auto. apply good_chain_ne; auto.
    - destruct F0. constructor; auto.
    - intros x I. apply MI. intros U. destruct (vx_fx _ _ _ _ C x I) as [_ N].
      apply under_stop in U as (z & _ & ->). unfold A in N. rewrite <- !app_assoc in N. eapply N. reflexivity.
    - rewrite FC, KP. apply good_chain_app; auto. }
  assert (HA : hget A (p_map s1) = keyed ks).
  { rewrite MI; auto. apply not_under_step. }
  set (hv := HashValue (Some c) (tkids (c_val c))).
  set (m := hput A (HashValue None (Keys (ks ++ [k]))) (hput (A ++ step_text (PKey k)) hv (p_map s1))).
  assert (I : insert_keyval_into_map s1 c = Ok (set_map m s1)).
  { rewrite (insert_at _ _ _ _ C2 PE). fold hv. unfold update_parent.
    rewrite hget_hput_other by (apply not_eq_sym, step_ne). rewrite HA, FC, KP. unfold m, keyed.
    destruct ks as [|k0 ks]; rewrite vlast_app; [reflexivity|].
    cbn [hv_subkeys hv_value]. rewrite vinsert_new by auto. reflexivity. }
  set (s2 := pop_key (set_map m s1)).
  destruct (tail_ok y r s2 Y R R2) as (sep & nls & y2 & E2 & E3 & _).
  exists s2. eexists. split; [|split; [|split; [|apply notes_inside; exact NT]]].
  - rewrite <- !app_assoc. unfold table_keyval_p_. erewrite bind_ok.
    2:{ eapply keyval_read_; eauto. destruct F0. cbn in *. rewrite f0_aerr0. apply (vx_err _ _ _ _ C). }
    erewrite bind_ok by exact E2. erewrite bind_ok by exact E3. reflexivity.
  - reflexivity.
  - cbn [tk_kv kv_val].
  assert (GM : forall x, hget x (p_map s2) = if list_eq_dec N.eq_dec x A then keyed (ks ++ [k])
     else if list_eq_dec N.eq_dec x (A ++ step_text (PKey k)) then Some hv else hget x (p_map s1)).
  { intros x. change (p_map s2) with m. unfold m. destruct (list_eq_dec N.eq_dec x A) as [->|N1].
    - rewrite hget_hput_same. unfold keyed. destruct ks; auto.
    - rewrite hget_hput_other by auto. destruct (list_eq_dec N.eq_dec x (A ++ step_text (PKey k))) as [->|N2].
      + apply hget_hput_same.
      + apply hget_hput_other; auto. }
  constructor.
  + destruct F0. constructor; auto.
  + change (p_keychain s2) with (vpop (p_keychain s1)). rewrite FC, KP. apply vpop_app.
  + change (p_atypes s2) with (p_atypes s1). auto.
  + auto.
  + auto.
  + rewrite GM. destruct (list_eq_dec N.eq_dec A A); [auto|congruence].
  + intros p x TT. rewrite GM. destruct (list_eq_dec N.eq_dec (A ++ path_text (PKey k :: p)) A) as [Q|_].
    { exfalso. apply path_ne in Q; auto. discriminate. }
    destruct p as [|z p].
    * cbn [tat] in TT. inversion TT; subst x. destruct (list_eq_dec N.eq_dec _ _) as [_|N]; [reflexivity|].
      exfalso. apply N. rewrite step_path. apply app_nil_r.
    * rewrite step_path. destruct (list_eq_dec N.eq_dec _ _) as [Q|_].
      { exfalso. apply path_ne in Q; auto. discriminate. }
      apply HI; auto. discriminate.
  + intros x h H. rewrite GM in H. destruct (list_eq_dec N.eq_dec x A) as [->|N1]; auto.
    destruct (list_eq_dec N.eq_dec x (A ++ step_text (PKey k))) as [->|N2].
    * right. right. exists [], c. split; auto. rewrite step_path. symmetry. apply app_nil_r.
    * apply ON in H as [H|[H|(p & z & N & TT & ->)]]; [congruence|auto|]. right. right. exists p, z.
      split; auto. rewrite step_path. auto.
  + intros x N1 N2. rewrite GM. destruct (list_eq_dec N.eq_dec x A); [congruence|].
    destruct (list_eq_dec N.eq_dec x (A ++ step_text (PKey k))) as [->|_]; [|apply MI; auto].
    exfalso. apply N2. left; auto.
Qed.

(** ** The fields of an inline table *)
Definition fkey (tk : table_keyval) : str := tk.(tk_kv).(kv_key).
Definition fval (tk : table_keyval) : cell := tk.(tk_kv).(kv_val).

Record fields_read (s s' : pst) (A : str) (kc : list key) (ks : list str) (kvs : list (str * value))
    (tks : list table_keyval) : Prop := {
  fs_0 : frame0 s s';
  fs_chain : s'.(p_keychain) = kc;
  fs_types : s'.(p_atypes) = s.(p_atypes);
  fs_names : map fkey tks = map fst kvs;
  fs_val : Forall2 (fun tk kv => to_val (fval tk).(c_val) = Ok (snd kv)) tks kvs;
  fs_good : forall tk p x, In tk tks -> tat (fval tk) p = Some x -> good_path p;
  fs_keys : hget A s'.(p_map) = keyed (ks ++ map fst kvs);
  fs_hit : forall tk p x, In tk tks -> tat (fval tk) p = Some x ->
      hget (A ++ path_text (PKey (fkey tk) :: p)) s'.(p_map) = held x;
  fs_only : forall x hv, hget x s'.(p_map) = Some hv ->
      x = A \/ hget x s.(p_map) = Some hv \/
      exists tk p y, In tk tks /\ tat (fval tk) p = Some y /\ x = A ++ path_text (PKey (fkey tk) :: p);
  fs_miss : forall x, x <> A -> (forall k, In k (map fst kvs) -> ~ under (A ++ step_text (PKey k)) x) ->
      hget x s'.(p_map) = hget x s.(p_map) }.

Definition reads_fields (pval : P cell) (kvs : list (str * value)) (t : str) : Prop :=
  forall n s r fx pre par kc ks, (length (t ++ lit "}" ++ r) < n)%nat ->
  vctx s fx pre par -> s.(p_keychain) = kc -> good_chain kc -> NoDup (ks ++ map fst kvs) ->
  Forall key_name (map fst kvs) ->
  hget (pre ++ chain kc) s.(p_map) = keyed ks ->
  (forall k, In k (map fst kvs) -> fresh s.(p_map) ((pre ++ chain kc) ++ step_text (PKey k))) ->
  ffaults kvs = [] \/ fullctx s fx pre ->
  exists s' tks, many_loop n (table_keyval_p_ pval) s (t ++ lit "}" ++ r) = Ok (s', Done (lit "}" ++ r) tks) /\
    fields_read s s' (pre ++ chain kc) kc ks kvs tks /\
    notes (pre ++ chain kc) (ffaults kvs) s.(p_line) s'.(p_line) s.(p_errors) s'.(p_errors).

Lemma fields_nil : forall pval, reads_fields pval [] [].
Proof.
  intros pval n s r fx pre par kc ks L C K G D B CNT F CF. exists s, []. split; [|split; [|apply notes_refl]].
  - destruct n; [simpl in L; lia|]. cbn [many_loop app]. change (lit "}" ++ r) with (125 :: r). cbv iota.
    unfold table_keyval_p_, keyval_p_. erewrite bind_err; [reflexivity|]. apply bind_err, key_p_err. unfold bare_char. lia.
  - cbn [map]. constructor; rewrite ?app_nil_r; auto using frame0_refl.
    + intros tk p x [].
    + intros tk p x [].
Qed.

Lemma field_vctx : forall s s' A kc ks k v c fx pre par, field_read s s' A kc ks k v c -> A = pre ++ chain kc ->
  vctx s fx pre par -> vctx s' fx pre par.
Proof.
  intros s s' A kc ks k v c fx pre par E EA C. pose proof (fd_0 _ _ _ _ _ _ _ _ E) as []. eapply vctx_keep; eauto.
  intros x N1 N2. apply (fd_miss _ _ _ _ _ _ _ _ E).
  - subst A. apply N1.
  - intros U. apply under_stop in U as (z & _ & ->). subst A. rewrite <- !app_assoc in N1. eapply N1. reflexivity.
Qed.

Lemma field_fullctx : forall s s' A kc ks k v c fx pre par, field_read s s' A kc ks k v c -> A = pre ++ chain kc ->
  vctx s fx pre par -> fullctx s fx pre -> fullctx s' fx pre.
Proof.
  intros s s' A kc ks k v c fx pre par E EA C FC. pose proof (fd_0 _ _ _ _ _ _ _ _ E) as []. eapply fullctx_keep; eauto.
  intros x N1 N2. apply (fd_miss _ _ _ _ _ _ _ _ E).
  - subst A. apply N1.
  - intros U. apply under_stop in U as (z & _ & ->). subst A. rewrite <- !app_assoc in N1. eapply N1. reflexivity.
Qed.

Lemma fields_more : forall pval k w1 w2 v t y kvs r0, reads_value pval v t -> key_name k -> blanks w1 -> blanks w2 ->
  (forall r, no_blank (t ++ r)) -> tail_text y ->
  (forall r, solid (r0 ++ lit "}" ++ r) /\ head_not 44 (r0 ++ lit "}" ++ r) /\ ends_value (y ++ r0 ++ lit "}" ++ r)) ->
  reads_fields pval kvs r0 -> reads_fields pval ((k, v) :: kvs) ((k ++ w1 ++ lit "=" ++ w2 ++ t) ++ y ++ r0).
Proof.
  intros pval k w1 w2 v t y kvs r0 RV BK W1 W2 NB Y RR RE n s r fx pre par kc ks L C K G D B CNT F CF.
  cbn [map fst] in *. inversion B as [|? ? _ B2]; subst. set (kc := p_keychain s) in *.
  destruct (RR r) as (R1 & R2 & R3).
  assert (NI : ~ In k ks /\ ~ In k (map fst kvs)).
  { apply NoDup_remove_2 in D. rewrite in_app_iff in D. tauto. }
  destruct (field_elem pval v t k w1 w2 y (r0 ++ lit "}" ++ r) s fx pre par kc ks) as (s1 & tk & E & EK & EL & NT); auto.
  { tauto. }
  { apply F. left; auto. }
  { destruct CF as [CF|CF]; auto. left. cbn [ffaults] in CF. apply app_eq_nil in CF as [CF _]. apply map_eq_nil in CF. auto. }
  pose proof EL as [F0 EC ET EV EG EN EH EO EM]. fold (fkey tk) in EK. fold (fval tk) in EL, EV, EG, EH, EO.
  set (q := k ++ w1 ++ lit "=" ++ w2 ++ t) in *.
  assert (QN : q <> []). { unfold q. apply key_head in BK as (c0 & t0 & -> & _). discriminate. }
  rewrite <- !app_assoc in L |- *. destruct n; [lia|].
  destruct (RE n s1 r fx pre par kc (ks ++ [k])) as (s2 & tks & E2 & EL2 & NT2); auto.
  { rewrite (app_length q), (app_length y) in L. destruct q; [congruence|]. cbn [length] in L. lia. }
  { eapply field_vctx; eauto. }
  { rewrite <- app_assoc. auto. }
  { intros j J x X. rewrite EM.
    - apply (F j); auto. right; auto.
    - intros ->. apply not_under_step in X. auto.
    - intros X2. assert (Q : PKey k = PKey j).
      { eapply step_disjoint; eauto. rewrite Forall_forall in B2. apply B2; auto. }
      inversion Q; subst. tauto. }
  { destruct CF as [CF|CF]; [|right; eapply field_fullctx; eauto]. left. cbn [ffaults] in CF. apply app_eq_nil in CF as [_ CF]. auto. }
  pose proof EL2 as [G0 GC GT GN GV GG GK GH GO GM].
  exists s2, (tk :: tks). split.
  - cbn [many_loop]. destruct (q ++ y ++ r0 ++ lit "}" ++ r) as [|a b] eqn:Q.
    { destruct q; [congruence|discriminate]. }
    rewrite E. cbn [rbind]. rewrite <- Q.
    assert (Nat.eqb (length (r0 ++ lit "}" ++ r)) (length (q ++ y ++ r0 ++ lit "}" ++ r)) = false) as ->.
    { apply Nat.eqb_neq. rewrite (app_length q), (app_length y). destruct q; [congruence|]. cbn [length]. lia. }
    rewrite E2. reflexivity.
  - split.
    2:{ cbn [ffaults]. eapply notes_app; eauto. }
    constructor.
    + eapply frame0_trans; eauto.
    + auto.
    + congruence.
    + cbn [map]. rewrite EK, GN. auto.
    + constructor; auto.
    + intros tk' p x [<-|I]; eauto.
    + rewrite GK, <- app_assoc. auto.
    + intros tk' p x [<-|I] TT; [|eapply GH; eauto]. rewrite EK. rewrite GM.
      * apply EH; auto.
      * apply path_ne. discriminate.
      * intros j J X. assert (Q : PKey k = PKey j).
        { eapply (step_disjoint (pre ++ chain kc)); [exact BK| | |exact X].
          - rewrite Forall_forall in B2. apply B2; auto.
          - rewrite step_path. apply under_path. }
        inversion Q; subst. tauto.
    + intros x hv H. apply GO in H as [H|[H|(tk' & p & z & N & TT & ->)]]; auto.
      * apply EO in H as [H|[H|(p & z & TT & ->)]]; auto. right. right. exists tk, p, z.
        rewrite EK. split; [left; auto|]. auto.
      * right. right. exists tk', p, z. split; [right; auto|]. auto.
    + intros x N1 N2. rewrite GM; auto.
      * apply EM; auto. apply N2. left; auto.
      * intros j J. apply N2. right; auto.
Qed.

Lemma fields_to_val : forall tks kvs w, map fkey tks = map fst kvs ->
  Forall2 (fun tk kv => to_val (fval tk).(c_val) = Ok (snd kv)) tks kvs ->
  to_val (TInlineTable tks w) = Ok (VInlineTable kvs).
Proof.
  intros tks kvs w N F.
  assert (H : rmap (fun tk => let? x := to_val tk.(tk_kv).(kv_val).(c_val) in Ok (tk.(tk_kv).(kv_key), x)) tks = Ok kvs).
  { induction F as [|tk [k v] tks kvs E F IH]; [reflexivity|]. cbn [map] in N. inversion N as [[N1 N2]].
    apply rmap_eq; auto. unfold fval in E. rewrite E. cbn [rbind snd fst]. reflexivity. }
  change (to_val (TInlineTable tks w)) with (let? l := rmap (fun tk => let? x := to_val tk.(tk_kv).(kv_val).(c_val) in
     Ok (tk.(tk_kv).(kv_key), x)) tks in Ok (VInlineTable l)). rewrite H. reflexivity.
Qed.

Lemma inline_read : forall pval kvs w t, reads_fields pval kvs t -> blanks w -> NoDup (map fst kvs) ->
  Forall key_name (map fst kvs) -> (forall r, no_blank (t ++ lit "}" ++ r)) ->
  reads_value (val_ pval) (VInlineTable kvs) (lit "{" ++ w ++ t ++ lit "}").
Proof.
  intros pval kvs w t RE W D B SO s r fx pre par R C K F CF. set (kc := p_keychain s) in *. set (A := pre ++ chain kc) in *.
  destruct (RE (S (length (t ++ lit "}" ++ r))) s r fx pre par kc []) as (s1 & tks & E2 & EL & NT); auto.
  { apply F. left; auto. }
  { intros k _ x X. apply F. right. eapply under_step_below; eauto. }
  pose proof EL as [F0 EC ET EN EV EG EK EH EO EM]. fold A in EK, EH, EO, EM.
  assert (FN : forall k tk, find (fun tk => same_key k tk.(tk_kv).(kv_key)) tks = Some tk -> In tk tks /\ k = fkey tk).
  { intros k tk N. apply find_some in N as [I N]. apply same_key_eq in N. auto. }
  exists (set_next (s1.(p_next) + 1) s1). eexists. split.
  - unfold val_. rewrite alt_err with (s1 := s).
    2:{ apply arr_err. simpl. lia. }
    apply alt_ok. erewrite pcell_ok; [reflexivity|].
    unfold inline_table_. rewrite <- !app_assoc. erewrite bind_ok by apply tag_ok.
    erewrite bind_ok by (apply ws_ok; auto).
    erewrite bind_ok.
    2:{ apply opt_ok, complete_ok. unfold inline_table_keyvals_, many0. exact E2. }
    erewrite bind_ok. 2:{ apply (ws_ok [] (lit "}" ++ r)); [constructor|simpl; lia]. }
    erewrite bind_ok by apply tag_ok. cbv iota. reflexivity.
  - split; [|exact NT]. constructor.
    + constructor; auto. destruct F0. constructor; auto.
    + cbn [c_val]. apply fields_to_val; auto.
    + intros [|[i|k] p] x TT; [constructor|discriminate|]. cbn [tat c_val] in TT.
      destruct (find _ tks) as [tk|] eqn:N; [|discriminate]. apply FN in N as [I ->]. constructor.
      * cbn [good_step]. rewrite Forall_forall in B. apply B. rewrite <- EN. apply in_map; auto.
      * eapply EG; eauto.
    + change (hget A (p_map s1) = pending (TInlineTable tks {| ws1 := w; ws2 := [] |})). rewrite EK.
      rewrite <- EN. cbn [app]. destruct tks as [|tk tks]; reflexivity.
    + intros [|[i|k] p] x N TT; [congruence|discriminate|]. cbn [tat c_val] in TT.
      destruct (find _ tks) as [tk|] eqn:NE; [|discriminate]. apply FN in NE as [I ->].
      change (hget (A ++ path_text (PKey (fkey tk) :: p)) (p_map s1) = held x). eapply EH; eauto.
    + intros x hv H. change (hget x (p_map s1) = Some hv) in H.
      apply EO in H as [H|[H|(tk & p & z & N & TT & ->)]]; auto. right. right.
      exists (PKey (fkey tk) :: p), z. split; [discriminate|]. split; auto. cbn [tat c_val].
      assert (find (fun tk' => same_key (fkey tk) tk'.(tk_kv).(kv_key)) tks = Some tk) as ->; [|auto].
      rewrite <- EN in D. clear - N D. induction tks as [|x tks IH]; [destruct N|]. cbn [find]. fold (fkey x).
      cbn [map] in D. inversion D as [|? ? D1 D2]; subst. destruct N as [->|N].
      * rewrite same_key_refl. auto.
      * destruct (same_key (fkey tk) (fkey x)) eqn:Q; [|auto]. apply same_key_eq in Q. exfalso. apply D1.
        rewrite <- Q. apply in_map; auto.
    + intros x N. change (hget x (p_map s1) = hget x (p_map s)). rewrite EM; auto.
      * intros ->. apply N. left; auto.
      * intros k _ X. apply N. right. eapply under_step_below; eauto.
Qed.

(** ** Heads *)
Definition vhead (t : str) : Prop := match t with [] => False | c :: _ => ~ In c [9; 10; 13; 32; 35; 44; 93; 125] end.
Lemma scalar_head : forall v t, scalar v t -> vhead t.
Proof.
  intros v t H. destruct H; try (cbn [vhead app In]; lia).
  - destruct H as (sg & b & -> & S & B).
    pose proof (sign_head sg b [] S B) as X. rewrite app_nil_r in X. destruct (sg ++ b); [auto|]. unfold digit in X. cbn [vhead In]. lia.
  - destruct H as (sg & b & f & e & -> & S & B & _).
    pose proof (sign_head sg b (f ++ e) S B) as X. destruct (sg ++ b ++ f ++ e); [auto|]. unfold digit in X. cbn [vhead In]. lia.
  - simpl. lia.
  - simpl. lia.
  - destruct H as ([([Y L] & _) _] & _). unfold datetime_src. destruct (d_year (dt_date d)); [discriminate|].
    inversion Y; subst. cbn [app vhead In]. unfold digit in *. lia.
Qed.
Lemma writes_head : forall v t, writes v t -> vhead t.
Proof.
  intros v t H. destruct H as [v t S|d D| |]; [eapply scalar_head; eauto| | |]; try (simpl; lia).
  destruct D as [([Y L] & _) _]. unfold datetime_src. destruct (d_year (dt_date d)); [discriminate|].
  inversion Y; subst. cbn [app vhead In]. unfold digit in *. lia.
Qed.
Lemma vhead_app : forall t r, vhead t -> vhead (t ++ r).
Proof. intros [|c t] r H; [destruct H|exact H]. Qed.
Lemma vhead_solid : forall t, vhead t -> solid t /\ head_not 44 t /\ no_blank t /\ t <> [].
Proof. intros [|c t] H; [destruct H|]. cbn [vhead In] in H. simpl. intuition congruence. Qed.
Lemma welems_head : forall vs t r, welems vs t -> solid (t ++ lit "]" ++ r) /\ head_not 44 (t ++ lit "]" ++ r).
Proof.
  intros vs t r H. destruct H as [|v t g S G|v t w g vs r0 S W G E]; [simpl; lia| |]; apply writes_head in S;
  rewrite <- app_assoc; destruct (vhead_solid _ (vhead_app _ (g ++ lit "]" ++ r) S)) as (A & B & _ & _); auto.
  destruct (vhead_solid _ (vhead_app _ ((w ++ lit "," ++ g ++ r0) ++ lit "]" ++ r) S)) as (A2 & B2 & _ & _); auto.
Qed.
Lemma wfields_head : forall vs t r, wfields vs t ->
  solid (t ++ lit "}" ++ r) /\ head_not 44 (t ++ lit "}" ++ r) /\ no_blank (t ++ lit "}" ++ r).
Proof.
  assert (Q : forall k x, key_name k -> solid (k ++ x) /\ head_not 44 (k ++ x) /\ no_blank (k ++ x)).
  { intros k x B. apply key_head in B as (c & u & -> & C). unfold bare_char in C. simpl. lia. }
  intros vs t r H. destruct H; [simpl; lia| |]; rewrite <- app_assoc; apply Q; auto.
Qed.
Lemma wfields_bare : forall vs t, wfields vs t -> Forall key_name (map fst vs).
Proof. intros vs t H. induction H; cbn [map fst]; auto. Qed.

Lemma val_close : forall pv s r, val_ pv s (lit "]" ++ r) = Ok (s, Error).
Proof.
  intros. change (lit "]" ++ r) with (93 :: r). unfold val_.
  rewrite alt_err with (s1 := s) by (apply arr_err; simpl; lia).
  rewrite alt_err with (s1 := s) by (apply inl_err; simpl; lia).
  rewrite alt_err with (s1 := s) by (apply date_err, no_date_head; unfold digit; lia).
  rewrite alt_err with (s1 := s) by (apply float_err, float_none; cbn; lia).
  rewrite alt_err with (s1 := s) by (apply int_err, int_none; cbn; lia).
  rewrite alt_err with (s1 := s) by (apply bool_err; simpl; lia).
  unfold pcell. apply bind_err, complete_err. left. rewrite string_p_unfold.
  rewrite alt_err with (s1 := s) by (apply mll_err, starts3_false1; lia).
  rewrite alt_err with (s1 := s) by (apply mlb_err, starts3_false1; lia).
  rewrite alt_err with (s1 := s) by (apply bas_err, starts1_false; lia).
  apply lit_err, starts1_false; lia.
Qed.

(** ** All values *)
Scheme writes_mut := Minimality for writes Sort Prop
  with welems_mut := Minimality for welems Sort Prop
  with wfields_mut := Minimality for wfields Sort Prop.

Lemma writes_read : forall v t, writes v t -> forall n, (length t < n)%nat -> reads_value (val n) v t.
Proof.
  apply (writes_mut
    (fun v t => forall n, (length t < n)%nat -> reads_value (val n) v t)
    (fun vs t => forall n, (length t < n)%nat -> reads_elems (val n) vs t)
    (fun kvs t => forall n, (length t < n)%nat -> reads_fields (val n) kvs t)).
  - intros v t S n L. destruct n; [lia|]. apply reads_scalar; auto.
  - intros d D n L. destruct n; [lia|]. apply reads_date; auto.
  - intros vs g t G E IH n L. destruct n; [lia|]. change (val (S n)) with (val_ (val n)).
    apply array_read; auto.
    + apply IH. rewrite !app_length in L. simpl in L. lia.
    + intros r. eapply welems_head; eauto.
  - intros kvs w t W F IH D n L. destruct n; [lia|]. change (val (S n)) with (val_ (val n)).
    apply inline_read; auto.
    + apply IH. rewrite !app_length in L. simpl in L. lia.
    + eapply wfields_bare; eauto.
    + intros r. eapply wfields_head; eauto.
  - intros n L. destruct n; [lia|]. apply elems_nil. intros. apply val_close.
  - intros v t g S IH G n L. rewrite app_length in L. rewrite <- (app_nil_r g). apply elems_more; auto.
    + apply IH. lia.
    + left; auto.
    + apply writes_head, vhead_solid in S. tauto.
    + intros r. split; [simpl; lia|]. split; [simpl; lia|]. apply gap_ends; auto. simpl; tauto.
    + destruct n; [lia|]. apply elems_nil. intros. apply val_close.
  - intros v t w g vs r0 S IH W G E IHE n L. repeat rewrite app_length in L.
    replace (t ++ w ++ lit "," ++ g ++ r0) with (t ++ (w ++ lit "," ++ g) ++ r0) by (rewrite <- !app_assoc; auto).
    apply elems_more.
    + apply IH. lia.
    + right. eauto.
    + apply writes_head, vhead_solid in S. tauto.
    + intros r. destruct (welems_head vs r0 r E). split; [auto|]. split; [auto|]. rewrite <- !app_assoc.
      apply (blanks_app_head (fun c => In c [9; 10; 13; 32; 35; 44; 93; 125])); auto; simpl; tauto.
    + apply IHE. lia.
  - intros n L. apply fields_nil.
  - intros k w1 w2 v t g B W1 W2 S IH G n L. repeat rewrite app_length in L. rewrite <- (app_nil_r g).
    replace (k ++ w1 ++ lit "=" ++ w2 ++ t ++ g ++ []) with ((k ++ w1 ++ lit "=" ++ w2 ++ t) ++ g ++ []) by (rewrite <- !app_assoc; auto).
    apply fields_more; auto.
    + apply IH. lia.
    + intros r. apply writes_head in S. destruct (vhead_solid _ (vhead_app _ r S)) as (_ & _ & A & _). auto.
    + left; auto.
    + intros r. split; [simpl; lia|]. split; [simpl; lia|]. apply gap_ends; auto. simpl; tauto.
    + apply fields_nil.
  - intros k w1 w2 v t w g l r0 B W1 W2 S IH W G F IHF n L. repeat rewrite app_length in L.
    replace (k ++ w1 ++ lit "=" ++ w2 ++ t ++ w ++ lit "," ++ g ++ r0)
      with ((k ++ w1 ++ lit "=" ++ w2 ++ t) ++ (w ++ lit "," ++ g) ++ r0) by (rewrite <- !app_assoc; auto).
    apply fields_more; auto.
    + apply IH. lia.
    + intros r. apply writes_head in S. destruct (vhead_solid _ (vhead_app _ r S)) as (_ & _ & A & _). auto.
    + right. eauto.
    + intros r. destruct (wfields_head l r0 r F) as (A1 & A2 & _). split; [auto|]. split; [auto|]. rewrite <- !app_assoc.
      apply (blanks_app_head (fun c => In c [9; 10; 13; 32; 35; 44; 93; 125])); auto; simpl; tauto.
    + apply IHF. lia.
Qed.

Lemma writes_val : forall v t, writes v t -> reads_value val_p v t.
Proof.
  intros v t S s r fx pre par R C K F CF. unfold val_p. eapply (writes_read v t S); eauto. rewrite app_length. lia.
Qed.

(** ** Values without faults *)
Scheme spells_mut := Minimality for spells Sort Prop
  with elems_mut := Minimality for elems Sort Prop
  with fields_mut := Minimality for fields Sort Prop.
Lemma efaults_none : forall l i prev, Forall (fun v => vfaults v = []) l -> uniform l ->
  (forall u, prev = Some u -> forall v, In v l -> kind u = kind v) -> efaults i prev l = [].
Proof.
  induction l as [|x l IH]; intros i prev F U P; [reflexivity|]. inversion F as [|? ? F1 F2]; subst. cbn [efaults]. rewrite F1. cbn [map app].
  assert (other_type prev x = false) as ->.
  { destruct prev as [u|]; [|reflexivity]. cbn [other_type]. rewrite (P u eq_refl x) by (left; auto). rewrite N.eqb_refl. reflexivity. }
  cbn [app]. apply IH; auto.
  - intros a b A B. apply U; right; auto.
  - intros u E v V. inversion E; subst. apply U; [left|right]; auto.
Qed.
Lemma spells_writes : forall v t, spells v t -> writes v t /\ vfaults v = [].
Proof.
  apply (spells_mut (fun v t => writes v t /\ vfaults v = []) (fun vs t => welems vs t /\ Forall (fun v => vfaults v = []) vs)
    (fun kvs t => wfields kvs t /\ ffaults kvs = [])).
  - intros v t S. split; [apply Wr_scalar; auto|eapply scalar_faults; eauto].
  - intros vs g t G E [W F] U. split; [apply Wr_array; auto|]. change (efaults 0 None vs = []). apply efaults_none; auto. discriminate.
  - intros kvs w t W F [W2 F2] D. split; [apply Wr_inline; auto|]. exact F2.
  - split; constructor.
  - intros v t g S [W F] G. split; constructor; auto.
  - intros v t w g vs r S [W F] B G E [W2 F2]. split; constructor; auto.
  - split; [constructor|reflexivity].
  - intros k w1 w2 v t g K B1 B2 S [W F] G. split; [constructor; auto|]. cbn [ffaults]. rewrite F. reflexivity.
  - intros k w1 w2 v t w g l r K B1 B2 S [W F] B G FS [W2 F2]. split; [constructor; auto|]. cbn [ffaults]. rewrite F, F2. reflexivity.
Qed.
Lemma spells_head : forall v t, spells v t -> vhead t.
Proof. intros v t S. apply spells_writes in S as [S _]. eapply writes_head; eauto. Qed.
Lemma spells_val : forall v t, spells v t -> forall s r fx pre par, ends_value r -> vctx s fx pre par -> good_chain s.(p_keychain) ->
  fresh s.(p_map) (pre ++ chain s.(p_keychain)) ->
  exists s' c, val_p s (t ++ r) = Ok (s', Done r c) /\ read s s' (pre ++ chain s.(p_keychain)) v c /\ s'.(p_errors) = s.(p_errors).
Proof.
  intros v t S s r fx pre par R C K F. apply spells_writes in S as [S E].
  destruct (writes_val v t S s r fx pre par R C K F (or_introl E)) as (s' & c & X & RD & NT). exists s', c. split; [auto|]. split; [auto|].
  rewrite E in NT. eapply notes_none; eauto.
Qed.
