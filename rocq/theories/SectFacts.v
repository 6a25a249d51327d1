(** Documents of lines with nested values and of sections. *)
From Coq Require Import Lia ZifyBool ZifyNat ZifyN.
From Verif Require Import Str Regex Types Ast State Nom Keys Grammar Api Facts Spec.
From Verif Require Import RegexFacts NomFacts TypesFacts DateFacts NumFacts StringFacts ScalarFacts.
From Verif Require Import LineFacts FlatFacts RoundTrip WalkFacts IdFacts WriteFacts ApiSpec ApiFacts DocSpec PathFacts NestFacts.

(** ** The specification functions on a document with one more line *)
Lemma table_names_app : forall a b, table_names (a ++ b) = table_names a ++ table_names b.
Proof. induction a as [|[] a IH]; intros b; cbn [app table_names]; rewrite ?IH; auto. Qed.
Lemma array_names_app : forall a b, array_names (a ++ b) = array_names a ++ array_names b.
Proof. induction a as [|[] a IH]; intros b; cbn [app array_names]; rewrite ?IH; auto. Qed.
Lemma times_app : forall n a b, times n (a ++ b) = times n a + times n b.
Proof. intros. unfold times. rewrite filter_app, app_length. lia. Qed.
Lemma times_rev : forall n l, times n (rev l) = times n l.
Proof.
  induction l as [|x l IH]; [auto|]. cbn [rev]. rewrite times_app, IH. change (x :: l) with ([x] ++ l). rewrite times_app. lia.
Qed.
Lemma times_one : forall n, times n [n] = 1.
Proof. intros. unfold times. cbn [filter]. rewrite same_key_refl. reflexivity. Qed.
Lemma times_other : forall n m, n <> m -> times n [m] = 0.
Proof.
  intros. unfold times. cbn [filter]. destruct (same_key n m) eqn:E; [apply same_key_eq in E; congruence|reflexivity].
Qed.
Lemma times_in : forall n l, In n l <-> 0 < times n l.
Proof.
  intros n l. unfold times. split.
  - intros H. assert (X : In n (filter (same_key n) l)) by (apply filter_In; split; auto; apply same_key_refl).
    destruct (filter (same_key n) l); [destruct X|cbn [length]; lia].
  - intros H. destruct (filter (same_key n) l) as [|x y] eqn:E; [cbn [length] in H; lia|].
    assert (X : In x (filter (same_key n) l)) by (rewrite E; left; auto). apply filter_In in X as [I X].
    apply same_key_eq in X. subst; auto.
Qed.

Lemma after_app : forall a b t seen, table_after t seen (a ++ b) = table_after (table_after t seen a) (rev (array_names a) ++ seen) b.
Proof.
  induction a as [|d a IH]; intros b t seen; [|destruct d]; cbn [app table_after array_names rev]; rewrite ?IH; auto.
  rewrite <- app_assoc. auto.
Qed.
Lemma placed_app : forall a b t seen, placed t seen (a ++ b) = placed t seen a ++ placed (table_after t seen a) (rev (array_names a) ++ seen) b.
Proof.
  induction a as [|d a IH]; intros b t seen; [|destruct d]; cbn [app table_after array_names placed rev]; rewrite ?IH; auto.
  rewrite <- app_assoc. auto.
Qed.
Definition at_root (t : taddr) : bool := match t with TRoot => true | _ => false end.
Lemma top_root : forall l t t', at_root t = at_root t' -> top_names t l = top_names t' l.
Proof.
  induction l as [|d l IH]; intros t t' H; [|destruct d]; cbn [top_names]; auto. rewrite (IH t t' H). destruct t, t'; try discriminate H; auto.
Qed.
Lemma top_app : forall a b t seen, top_names t (a ++ b) = top_names t a ++ top_names (table_after t seen a) b.
Proof.
  induction a as [|d a IH]; intros b t seen; [|destruct d]; cbn [app table_after top_names]; auto.
  - rewrite (IH b t seen), app_assoc. auto.
  - rewrite (IH b (TName name) seen); auto.
  - rewrite (IH b (TElem name 0) (name :: seen)). cbn [app]. do 2 f_equal. apply top_root.
    clear. generalize (name :: seen). generalize (times name seen). intros i l. revert i l.
    assert (H : forall (a : list dline) t t' l, at_root t = at_root t' -> at_root (table_after t l a) = at_root (table_after t' l a)).
    { clear. induction a as [|d a IH]; intros t t' l H; [|destruct d]; cbn [table_after]; auto. }
    intros. apply H. reflexivity.
Qed.

Definition now (l : list dline) : taddr := table_after TRoot [] l.
Definition tops (l : list dline) : list str := top_names TRoot l.
Definition pair_at (t : taddr) (d : dline) : list (taddr * str * value) :=
  match d with DLine _ k _ _ v _ _ _ => [(t, k, v)] | _ => [] end.
Lemma pairs_snoc : forall l d, pairs (l ++ [d]) = pairs l ++ pair_at (now l) d.
Proof. intros. unfold pairs. rewrite placed_app. destruct d; reflexivity. Qed.
Lemma now_snoc : forall l d, now (l ++ [d]) =
  match d with
  | DTable _ _ n _ _ _ => TName n
  | DArray _ _ n _ _ _ => TElem n (times n (array_names l))
  | _ => now l
  end.
Proof.
  intros. unfold now. rewrite after_app. destruct d; cbn [table_after]; auto. rewrite app_nil_r, times_rev. auto.
Qed.
Lemma tops_snoc : forall l d, tops (l ++ [d]) = tops l ++
  match d with
  | DTable _ _ n _ _ _ | DArray _ _ n _ _ _ => [n]
  | DLine _ k _ _ _ _ _ _ => if at_root (now l) then [k] else []
  | DBlank _ _ => []
  end.
Proof.
  intros. unfold tops, now. rewrite (top_app l [d] TRoot []). f_equal. destruct d; cbn [top_names]; auto.
  rewrite app_nil_r. destruct (table_after TRoot [] l); reflexivity.
Qed.
Lemma tnames_snoc : forall l d, table_names (l ++ [d]) = table_names l ++ match d with DTable _ _ n _ _ _ => [n] | _ => [] end.
Proof. intros. rewrite table_names_app. destruct d; reflexivity. Qed.
Lemma anames_snoc : forall l d, array_names (l ++ [d]) = array_names l ++ match d with DArray _ _ n _ _ _ => [n] | _ => [] end.
Proof. intros. rewrite array_names_app. destruct d; reflexivity. Qed.

(** a table that has a header *)
Definition declared (l : list dline) (t : taddr) : Prop :=
  match t with TRoot => True | TName n => In n (table_names l) | TElem n i => i < times n (array_names l) end.
Lemma declared_snoc : forall l d t, declared l t -> declared (l ++ [d]) t.
Proof.
  intros l d [|n|n i] H; cbn [declared] in *; auto.
  - rewrite tnames_snoc. apply in_or_app; auto.
  - rewrite anames_snoc, times_app. lia.
Qed.
Lemma now_declared : forall l, declared l (now l) /\ match now l with TElem n i => i + 1 = times n (array_names l) | _ => True end.
Proof.
  induction l as [|d l IH] using rev_ind; [cbn; auto|]. rewrite now_snoc. destruct IH as [A B]. destruct d; auto.
  - split; [apply declared_snoc; auto|]. destruct (now l); auto. rewrite anames_snoc, app_nil_r. auto.
  - split; [apply declared_snoc; auto|]. destruct (now l); auto. rewrite anames_snoc, app_nil_r. auto.
  - cbn [declared]. rewrite tnames_snoc. split; auto. apply in_or_app. right. left; auto.
  - cbn [declared]. rewrite anames_snoc, times_app, times_one. lia.
Qed.
Lemma pairs_declared : forall l t k v, In (t, k, v) (pairs l) -> declared l t.
Proof.
  induction l as [|d l IH] using rev_ind; intros t k v H; [destruct H|]. rewrite pairs_snoc in H. apply in_app_or in H as [H|H].
  - apply declared_snoc. eauto.
  - destruct d; cbn [pair_at In] in H; try tauto. destruct H as [H|[]]. inversion H; subst. apply declared_snoc, now_declared.
Qed.

Lemma arrays_tops : forall l n, In n (array_names l) -> In n (tops l).
Proof.
  induction l as [|d l IH] using rev_ind; intros n H; [destruct H|]. rewrite anames_snoc in H. rewrite tops_snoc. apply in_or_app.
  apply in_app_or in H as [H|H]; auto. right. destruct d; cbn [In] in *; tauto.
Qed.

Lemma nodup_front : forall A (a b : list A), NoDup (a ++ b) -> NoDup a.
Proof.
  intros A. induction a as [|x a IH]; intros b H; [constructor|]. inversion H; subst. constructor; eauto.
  intros I. apply H2. apply in_or_app; auto.
Qed.
Lemma distinct_prefix : forall a b, distinct (a ++ b) -> distinct a.
Proof.
  intros a b [A B C D]. unfold pairs in *. rewrite placed_app in A. rewrite map_app in A.
  rewrite table_names_app in B, C, D. rewrite array_names_app in C, D.
  constructor.
  - apply nodup_front in A; auto.
  - apply nodup_front in B; auto.
  - intros n I J. apply (C n); apply in_or_app; auto.
  - intros k v I. specialize (D k v). rewrite placed_app in D. destruct D as [D1 D2]; [apply in_or_app; auto|].
    split; intros X; [apply D1|apply D2]; apply in_or_app; auto.
Qed.
Lemma plain_prefix : forall a b, plain_headers (a ++ b) -> plain_headers a.
Proof.
  intros a b H l1 l2 w0 w1 n w2 w3 c E. eapply (H l1 (l2 ++ b)). rewrite E, <- app_assoc. reflexivity.
Qed.

Lemma keys_in_app : forall t a b, keys_in t (a ++ b) = keys_in t a ++ keys_in t b.
Proof. intros. unfold keys_in. rewrite filter_app, map_app. auto. Qed.
Lemma keys_in_in : forall t l k, In k (keys_in t l) <-> exists v, In (t, k, v) l.
Proof.
  intros. unfold keys_in. rewrite in_map_iff. split.
  - intros ([[t' k'] v] & E & I). apply filter_In in I as [I X]. cbn [fst snd] in *. destruct (taddr_dec t' t); [|discriminate].
    subst. eauto.
  - intros [v I]. exists (t, k, v). split; auto. apply filter_In. split; auto. cbn [fst]. destruct (taddr_dec t t); congruence.
Qed.
Lemma keys_in_one : forall t t' k v, keys_in t [(t', k, v)] = if taddr_dec t' t then [k] else [].
Proof. intros. unfold keys_in. cbn [filter fst]. destruct (taddr_dec t' t); reflexivity. Qed.
Lemma keys_undeclared : forall l t, ~ declared l t -> keys_in t (pairs l) = [].
Proof.
  intros l t N. destruct (keys_in t (pairs l)) as [|k r] eqn:E; auto. exfalso. apply N.
  assert (X : In k (keys_in t (pairs l))) by (rewrite E; left; auto). apply keys_in_in in X as [v X]. eapply pairs_declared; eauto.
Qed.

(** ** Addresses *)
Definition table_path (t : taddr) : option addr :=
  match t with TRoot => None | TName n => Some (n, []) | TElem n i => Some (n, [PIdx i]) end.
Definition aof (t : taddr) (k : str) : addr :=
  match t with TRoot => (k, []) | TName n => (n, [PKey k]) | TElem n i => (n, [PIdx i; PKey k]) end.
Lemma aof_text : forall t k, atext (aof t k) = address t k.
Proof.
  intros [|n|n i] k; unfold atext; cbn [aof fst snd path_text map concat address tname step_text]; rewrite ?app_nil_r; auto.
  rewrite <- !app_assoc. auto.
Qed.
Definition good_table (t : taddr) : Prop := match t with TRoot => True | TName n | TElem n _ => key_name n end.
Lemma aof_good : forall t k, good_table t -> key_name k -> good_addr (aof t k).
Proof.
  intros [|n|n i] k H B; split; cbn [aof fst snd]; auto; unfold good_path;
    repeat (apply Forall_cons; [exact I || exact B|]); apply Forall_nil.
Qed.

Definition pre_of (t : taddr) : str := match t with TRoot => [] | _ => tname t ++ lit "." end.
Definition par_of (t : taddr) : str := match t with TRoot => root_key | _ => tname t end.
Lemma address_pre : forall t k, address t k = pre_of t ++ k.
Proof. intros [|n|n i] k; cbn [address pre_of]; auto; rewrite <- !app_assoc; auto. Qed.
Lemma elem_text : forall n i, tname (TElem n i) = atext (n, [PIdx i]).
Proof. intros. unfold atext. cbn [fst snd path_text map concat step_text tname]. rewrite app_nil_r. auto. Qed.
Lemma name_text : forall n : str, n = atext (n, []).
Proof. intros. unfold atext. cbn [fst snd path_text map concat]. rewrite app_nil_r. auto. Qed.

(** ** The state after the lines [l] *)
Definition tables_are (t : taddr) (s : pst) : Prop :=
  match t with
  | TRoot => s.(p_last_table) = None /\ s.(p_tables) = [] /\ s.(p_tindex) = []
  | TName n => exists w, s.(p_last_table) = Some (TStandard [w]) /\ s.(p_tables) = [TStandard [w]] /\
      s.(p_tindex) = [0] /\ w.(wk_key) = n
  | TElem n _ => exists w j, (exists w', s.(p_last_table) = Some (TArrayOf [w'])) /\ s.(p_tables) = [TArrayOf [w]] /\
      s.(p_tindex) = [j] /\ w.(wk_key) = n
  end.

Definition root_entry (l : list dline) : option hash_value := Some (HashValue None (Keys (first_keys [] (tops l)))).
Definition elem_entry (l : list dline) (n : str) (i : N) : option hash_value :=
  Some (HashValue None (Keys (keys_in (TElem n i) (pairs l)))).
Definition array_entry (l : list dline) (n : str) : option hash_value :=
  Some (HashValue None (Count (times n (array_names l)))).
Definition table_entry (l : list dline) (n : str) (h : option hash_value) : Prop :=
  exists id, h = Some (HashValue (Some (Cell id TTable)) (Keys (keys_in (TName n) (pairs l)))).

(** the addresses of a document *)
Inductive known (l : list dline) : addr -> Prop :=
| Kn_table : forall n, In n (table_names l) -> known l (n, [])
| Kn_array : forall n, In n (array_names l) -> known l (n, [])
| Kn_elem : forall n i, i < times n (array_names l) -> known l (n, [PIdx i])
| Kn_val : forall t k v p w, In (t, k, v) (pairs l) -> good_path p -> at_path v p = Some w -> known l (ext (aof t k) p).

Record mapinv (l : list dline) (cs : list cell) (m : vmap) : Prop := {
  mi_root : hget root_key m = root_entry l;
  mi_table : forall n, In n (table_names l) -> table_entry l n (hget n m);
  mi_array : forall n, In n (array_names l) -> hget n m = array_entry l n;
  mi_elem : forall n i, i < times n (array_names l) -> hget (tname (TElem n i)) m = elem_entry l n i;
  mi_cells : Forall2 (fun c (x : taddr * str * value) => to_val c.(c_val) = Ok (snd x) /\
      forall p y, tat c p = Some y ->
        good_path p /\ hget (address (fst (fst x)) (snd (fst x)) ++ path_text p) m = held y) cs (pairs l);
  mi_only : forall x hv, hget x m = Some hv -> x = root_key \/ exists a, known l a /\ x = atext a }.

Record dinv (l : list dline) (cs : list cell) (s : pst) : Prop := {
  dn_keys : s.(p_keychain) = [];
  dn_types : s.(p_atypes) = [];
  dn_errors : s.(p_errors) = [];
  dn_aerr : s.(p_array_error) = false;
  dn_tables : tables_are (now l) s;
  dn_map : mapinv l cs s.(p_map) }.

(** names are keys, bare or quoted *)
Record bare_doc (l : list dline) : Prop := {
  bd_tables : Forall key_name (table_names l);
  bd_arrays : Forall key_name (array_names l);
  bd_keys : Forall (fun x : taddr * str * value => key_name (snd (fst x))) (pairs l) }.
Lemma ok_bare : forall l, Forall dline_ok l -> bare_doc l.
Proof.
  induction l as [|d l IH] using rev_ind; intros H; [repeat constructor|].
  apply Forall_app in H as [H D]. inversion D as [|? ? OK _]; subst. destruct (IH H) as [A B C].
  constructor; [rewrite tnames_snoc|rewrite anames_snoc|rewrite pairs_snoc]; apply Forall_app; split; auto;
    destruct d; cbn [pair_at dline_ok] in *; try apply Forall_nil; apply Forall_cons; try apply Forall_nil; cbn [fst snd]; tauto.
Qed.
Lemma bare_tables : forall l t, bare_doc l -> declared l t -> good_table t.
Proof.
  intros l [|n|n i] [A B C] D; cbn [declared good_table] in *; auto.
  - rewrite Forall_forall in A; auto.
  - assert (In n (array_names l)) by (apply times_in; lia). rewrite Forall_forall in B; auto.
Qed.

Lemma known_good : forall l a, bare_doc l -> known l a -> good_addr a.
Proof.
  intros l a B K. pose proof B as [B1 B2 B3]. rewrite Forall_forall in *. destruct K.
  - split; [apply B1; auto|apply Forall_nil].
  - split; [apply B2; auto|apply Forall_nil].
  - split; [apply B2, times_in; cbn [fst]; lia|]. apply Forall_cons; [exact I|apply Forall_nil].
  - apply good_ext; auto. apply aof_good; [|apply (B3 _ H)].
    eapply bare_tables; eauto. eapply pairs_declared; eauto.
Qed.
Lemma known_snoc : forall l d a, known l a -> known (l ++ [d]) a.
Proof.
  intros l d a K. destruct K.
  - apply Kn_table. rewrite tnames_snoc. apply in_or_app; auto.
  - apply Kn_array. rewrite anames_snoc. apply in_or_app; auto.
  - apply Kn_elem. rewrite anames_snoc, times_app. lia.
  - eapply Kn_val; eauto. rewrite pairs_snoc. apply in_or_app; auto.
Qed.
Lemma under_root : forall a, good_addr a -> ~ under (atext a) root_key.
Proof.
  intros [k p] [A _] U. apply under_stop in U as (z & _ & E). unfold atext in E. cbn [fst snd] in *. apply key_head in A as (c & t & -> & C).
  change root_key with (36 :: lit "Root$") in E. cbn [app] in E. injection E as <- E. unfold bare_char in *. lia.
Qed.

(** a key of a table that is new there is bound nowhere *)
Lemma fresh_key : forall l cs m t k v, mapinv l cs m -> bare_doc l -> declared l t -> key_name k ->
  (forall d, (forall x, pair_at x d = [(x, k, v)]) -> now l = t -> distinct (l ++ [d])) ->
  now l = t -> (exists d, forall x, pair_at x d = [(x, k, v)]) -> fresh m (address t k).
Proof.
  intros l cs m t k v MI B DT BK DI NW [d PD] x U. destruct (hget x m) as [hv|] eqn:H; auto. exfalso.
  assert (GT : good_table t) by (eapply bare_tables; eauto).
  assert (GA : good_addr (aof t k)) by (apply aof_good; auto). rewrite <- aof_text in U.
  apply (mi_only _ _ _ MI) in H as [H|(a & K & ->)].
  - subst x. apply under_root in U; auto.
  - apply under_ext in U as [q E]; auto. 2:{ eapply known_good; eauto. }
    destruct (DI d PD NW) as [D1 D2 D3 D4]. rewrite pairs_snoc, PD, NW in D1, D4. rewrite map_app in D1. cbn [map fst] in D1.
    apply NoDup_remove_2 in D1. rewrite app_nil_r in D1.
    rewrite tnames_snoc, anames_snoc in D3, D4. rewrite tnames_snoc in D2.
    assert (DN : match d with DLine _ _ _ _ _ _ _ _ => True | _ => False end).
    { specialize (PD TRoot). destruct d; try discriminate PD. exact I. }
    destruct d; try destruct DN. rewrite !app_nil_r in *.
    assert (L : In (t, k, v) (pairs l ++ [(t, k, v)])) by (apply in_or_app; right; left; auto).
    assert (DA : forall n, In n (table_names l) -> In n (array_names l) -> False) by (intros n A1 A2; apply (D3 n); auto).
    assert (AT : forall n i, i < times n (array_names l) -> In n (array_names l)) by (intros n i A1; apply times_in; lia).
    destruct K as [n I|n I|n i I|t' k' v' p w I G W].
    + destruct t; cbn [aof ext fst snd app] in E; inversion E; subst. apply D4 in L. tauto.
    + destruct t; cbn [aof ext fst snd app] in E; inversion E; subst. apply D4 in L. tauto.
    + destruct t; cbn [aof ext fst snd app] in E; inversion E; subst. apply D4 in L. apply L. eauto.
    + assert (L' : In (t', k', v') (pairs l ++ [(t, k, v)])) by (apply in_or_app; auto).
      assert (DT' : declared l t') by (eapply pairs_declared; eauto).
      destruct t, t'; cbn [aof ext fst snd app declared] in *; inversion E; subst;
        try (apply D1; apply (in_map fst) in I; exact I);
        try (apply D4 in L; destruct L; eauto); try (apply D4 in L'; destruct L'; eauto).
Qed.

(** ** Keys of the values of the current table *)
Lemma fresh_line : forall l cs m w0 k w1 w2 v t w3 c, mapinv l cs m -> bare_doc l -> key_name k ->
  distinct (l ++ [DLine w0 k w1 w2 v t w3 c]) -> fresh m (address (now l) k).
Proof.
  intros l cs m w0 k w1 w2 v t w3 c MI B BK D. apply fresh_key with (l := l) (cs := cs) (v := v); auto.
  - apply now_declared.
  - intros d PD _. assert (forall x, pair_at x d = pair_at x (DLine w0 k w1 w2 v t w3 c)) as E by (intros; rewrite PD; reflexivity).
    destruct D as [D1 D2 D3 D4].
    assert (DN : match d with DLine _ _ _ _ _ _ _ _ => True | _ => False end).
    { specialize (PD TRoot). destruct d; try discriminate PD. exact I. }
    destruct d; try destruct DN. constructor; intros *; try rewrite pairs_snoc, E, <- pairs_snoc; auto.
    + rewrite tnames_snoc in *. exact D2.
    + specialize (D3 n). rewrite tnames_snoc, anames_snoc in *. exact D3.
    + specialize (D4 k0 v1). rewrite tnames_snoc, anames_snoc in *. exact D4.
  - exists (DLine w0 k w1 w2 v t w3 c). reflexivity.
Qed.

Lemma gatk_table : forall ovf m w r, get_array_table_key ovf m (TStandard [w] :: r) [0] =
  Ok (negb (key_has_value m w.(wk_key)), w.(wk_key), root_key).
Proof. reflexivity. Qed.

Lemma gatk_array : forall ovf m w j hv l, hget root_key m = Some hv -> hv.(hv_subkeys) = Keys l ->
  match hget w.(wk_key) m with
  | None => get_array_table_key ovf m [TArrayOf [w]] [j] = Ok (true, w.(wk_key) ++ idx_str j, w.(wk_key))
  | Some (HashValue None (Count c)) => 0 < c ->
      get_array_table_key ovf m [TArrayOf [w]] [j] = Ok (true, w.(wk_key) ++ idx_str (c - 1), w.(wk_key))
  | _ => True
  end.
Proof.
  intros ovf m w j hv l R K. unfold get_array_table_key. cbn [length gatk_loop vindex nth_error get_last_keys map skipn gatk_arr rbind].
  change ([] ++ root_key) with root_key. rewrite R. destruct hv as [hv sub]. cbn [hv_subkeys] in *. subst sub. rewrite orb_true_r, str_eqb_refl.
  cbn [rbind gatk_arr skipn last app]. cbv zeta.
  change (last (get_last_keys [w]) []) with (wk_key w).
  destruct (hget (wk_key w) m) as [[[c|] [c2|ks]]|]; auto.
  intros C. cbn [hv_value hv_subkeys]. unfold dec_usize. assert (c2 =? 0 = false) as -> by lia. cbn [rbind]. reflexivity.
Qed.

Lemma chain_parent : forall kc, good_chain kc -> snd (get_keychain_key kc) = match removelast kc with [] => [] | l => chain l end /\
  (removelast kc <> [] -> chain (removelast kc) <> []).
Proof.
  intros kc (k & r & -> & N). destruct r as [|x r]; [split; [reflexivity|cbn [removelast]; congruence]|]. split.
  - unfold get_keychain_key. cbn [snd]. change (removelast (KStr k :: x :: r)) with (KStr k :: removelast (x :: r)). reflexivity.
  - intros _. change (removelast (KStr k :: x :: r)) with (KStr k :: removelast (x :: r)). apply chain_ne. exists k. eauto.
Qed.

Definition watch (t : taddr) : list str := match t with TElem n _ => [root_key; n] | _ => [] end.

Lemma tname_ne : forall t, good_table t -> t = TRoot \/ tname t <> [].
Proof.
  intros [|n|n i] G; auto; right; apply (key_ne n) in G; cbn [tname]; destruct n; congruence || discriminate.
Qed.

Lemma full_key_in : forall ovf m ts ti kc v tk pk, good_chain kc -> tk <> [] ->
  get_array_table_key ovf m ts ti = Ok (v, tk, pk) ->
  get_full_key ovf m ts ti kc = Ok (v, (tk ++ lit ".") ++ chain kc, parent_of (tk ++ lit ".") tk kc).
Proof.
  intros ovf m ts ti kc v tk pk G N E. unfold get_full_key. rewrite E. cbn [rbind].
  destruct (chain_parent kc G) as [P Q]. destruct (get_keychain_key kc) as [a b] eqn:X. cbn [snd] in P.
  assert (a = chain kc) as -> by (injection X as <- _; reflexivity). subst b.
  unfold parent_of. destruct tk as [|c tk]; [congruence|]. rewrite <- app_assoc.
  destruct (removelast kc) as [|x y]; [cbn [app]; rewrite app_nil_r; auto|].
  destruct (chain (x :: y)) eqn:Z; [exfalso; apply Q; auto; discriminate|]. rewrite <- app_assoc. auto.
Qed.

Lemma now_vctx : forall l cs s, dinv l cs s -> bare_doc l -> vctx s (watch (now l)) (pre_of (now l)) (par_of (now l)).
Proof.
  intros l cs s [K T E AE TA MI] B. destruct (now_declared l) as [DT CT].
  assert (GT : good_table (now l)) by (eapply bare_tables; eauto).
  constructor; auto.
  - intros x I. destruct (now l) as [|n|n i] eqn:NW; cbn [watch In] in I; try tauto. cbn [declared] in DT.
    assert (GA : good_addr (n, [PIdx i])).
    { split; auto. apply Forall_cons; [exact Logic.I|apply Forall_nil]. }
    split.
    + cbn [par_of]. rewrite elem_text. destruct I as [<-|[<-|[]]].
      * intros Q. symmetry in Q. apply atext_root in Q; auto.
      * intros Q. rewrite (name_text n) in Q at 1. apply atext_inj in Q; auto; [discriminate|].
        split; auto. apply Forall_nil.
    + intros y Q. cbn [pre_of] in Q. rewrite elem_text, <- app_assoc in Q.
      assert (U : under (atext (n, [PIdx i])) x).
      { rewrite Q. apply under_stop. eexists. split; [|reflexivity]. left; auto. }
      destruct I as [<-|[<-|[]]].
      * apply under_root in U; auto.
      * rewrite (name_text n) in U at 2. apply under_ext in U as [p U]; auto.
        -- discriminate.
        -- split; auto. apply Forall_nil.
  - intros s2 F W G. pose proof F as [F2 F3 F4 F5 F6]. destruct (now l) as [|n|n i] eqn:NW; cbn [tables_are] in TA.
    + destruct TA as (TA & TB & TC). unfold keyval_keys. rewrite F4, TA. destruct (chain_parent _ G) as [P Q].
      destruct (get_keychain_key (p_keychain s2)) as [a b] eqn:X. cbn [snd] in P. cbn [pre_of par_of app].
      assert (a = chain (p_keychain s2)) as -> by (injection X as <- _; reflexivity). subst b.
      unfold parent_of. destruct (removelast (p_keychain s2)) as [|x y]; [auto|].
      destruct (chain (x :: y)) eqn:Z; [exfalso; apply Q; auto; discriminate|]. reflexivity.
    + destruct TA as (w & TA & TB & TC & TD). unfold keyval_keys. rewrite F4, TA, F2, TB, F3, TC. cbn [pre_of par_of tname].
      rewrite <- TD in *. apply key_ne in GT.
      unfold vpush. cbn [app]. erewrite full_key_in; eauto; [|apply gatk_table]. reflexivity.
    + destruct TA as (w & j & (w' & TA) & TB & TC & TD). unfold keyval_keys. rewrite F4, TA, F2, TB, F3, TC. cbn [pre_of par_of].
      assert (RW : hget root_key (p_map s2) = root_entry l).
      { rewrite W by (left; auto). apply (mi_root _ _ _ MI). }
      assert (NWm : hget n (p_map s2) = array_entry l n).
      { rewrite W by (right; left; auto). apply (mi_array _ _ _ MI). apply times_in. lia. }
      pose proof (gatk_array (p_ovf s2) (p_map s2) w j _ _ RW eq_refl) as Y. rewrite TD, NWm in Y. unfold array_entry in Y.
      replace (times n (array_names l) - 1) with i in Y by lia.
      erewrite full_key_in; eauto.
      * reflexivity.
      * apply (key_ne n) in GT. destruct n; [congruence|discriminate].
      * apply Y. lia.
Qed.

Lemma forall2_impl : forall A B (P Q : A -> B -> Prop) a b, (forall x y, P x y -> Q x y) -> Forall2 P a b -> Forall2 Q a b.
Proof. intros A B P Q a b H F. induction F; constructor; auto. Qed.

(** ** A key/value line *)
Lemma line_read1 : forall w0 k w1 w2 t w3 c r s s1 cl s2,
  blanks w0 -> key_name k -> blanks w1 -> blanks w2 -> blanks w3 -> com_ok c -> line_start r ->
  no_blank (t ++ w3 ++ com_text c ++ r) ->
  val_p (push_key (KStr k) s) (t ++ w3 ++ com_text c ++ r) = Ok (s1, Done (w3 ++ com_text c ++ r) cl) ->
  s1.(p_array_error) = false -> insert_keyval_into_map s1 cl = Ok s2 ->
  expression_p s ((w0 ++ k ++ w1 ++ lit "=" ++ w2 ++ t ++ w3 ++ com_text c) ++ r) =
  Ok (pop_key s2, Done r {| e_ws := {| ws1 := w0; ws2 := w3 |};
         e_keyval := Some (KeyVal k {| ws1 := w1; ws2 := w2 |} cl); e_table := None; e_comment := c |}).
Proof.
  intros w0 k w1 w2 t w3 c r s s1 cl s2 W0 K W1 W2 W3 C R NB V AE I.
  rewrite <- !app_assoc. pose proof (key_head k K) as (a & b & E & A).
  assert (NB0 : forall x, no_blank (k ++ x)).
  { intros. subst. simpl. unfold bare_char in A. lia. }
  unfold expression_p. erewrite alt_err.
  2:{ apply table_comment_err; auto. subst. simpl. unfold bare_char in A. lia. }
  apply alt_ok, complete_ok. unfold keyval_comment. erewrite bind_ok by (apply ws_ok; auto).
  erewrite bind_ok.
  2:{ eapply keyval_read; eauto. }
  erewrite bind_ok by (apply ws_ok; auto; apply com_no_blank; auto).
  erewrite bind_ok by (apply opt_comment; auto). reflexivity.
Qed.

Definition par_value (t : taddr) (pv : option cell) : Prop :=
  match t with TName _ => exists id, pv = Some (Cell id TTable) | _ => pv = None end.
Definition par_keys (l : list dline) (t : taddr) : list str :=
  match t with TRoot => first_keys [] (tops l) | _ => keys_in t (pairs l) end.
Lemma par_entry : forall l cs m t, mapinv l cs m -> declared l t ->
  exists pv, hget (par_of t) m = Some (HashValue pv (Keys (par_keys l t))) /\ par_value t pv.
Proof.
  intros l cs m [|n|n i] MI D; cbn [declared par_of par_keys par_value tname] in *.
  - exists None. split; auto. apply (mi_root _ _ _ MI).
  - destruct (mi_table _ _ _ MI n D) as [id H]. exists (Some (Cell id TTable)). split; eauto.
  - exists None. split; auto. apply (mi_elem _ _ _ MI n i D).
Qed.

Lemma to_val_sub : forall p c v y, to_val c.(c_val) = Ok v -> tat c p = Some y -> exists w, to_val y.(c_val) = Ok w /\ at_path v p = Some w.
Proof.
  intros p c v y H T. pose proof (tat_at p c v H) as X. destruct (at_path v p) as [w|]; [|congruence].
  destruct X as (z & E & Z). rewrite T in E. inversion E; subst. eauto.
Qed.

Lemma step_line : forall l cs s w0 k w1 w2 v t w3 c r,
  dinv l cs s -> Forall dline_ok (l ++ [DLine w0 k w1 w2 v t w3 c]) -> distinct (l ++ [DLine w0 k w1 w2 v t w3 c]) ->
  line_start r ->
  exists s' cl, expression_p s (dline_text (DLine w0 k w1 w2 v t w3 c) ++ r) =
    Ok (s', Done r {| e_ws := {| ws1 := w0; ws2 := w3 |};
         e_keyval := Some (KeyVal k {| ws1 := w1; ws2 := w2 |} cl); e_table := None; e_comment := c |}) /\
    dinv (l ++ [DLine w0 k w1 w2 v t w3 c]) (cs ++ [cl]) s'.
Proof.
  intros l cs s w0 k w1 w2 v t w3 c r DI OK DS R.
  assert (B : bare_doc l) by (apply Forall_app in OK; apply ok_bare; tauto).
  assert (OKd : dline_ok (DLine w0 k w1 w2 v t w3 c)).
  { apply Forall_app in OK as [_ OK]. inversion OK; auto. }
  destruct OKd as (W0 & BK & W1 & W2 & SP & W3 & CO).
  pose proof (now_vctx l cs s DI B) as VC. destruct (now_declared l) as [DT CT].
  assert (GT : good_table (now l)) by (eapply bare_tables; eauto).
  pose proof DI as [KC TY ER AE TA MI].
  pose proof (fresh_line _ _ _ _ _ _ _ _ _ _ _ MI B BK DS) as FR.
  set (d := DLine w0 k w1 w2 v t w3 c) in *. remember (now l) as tt eqn:NW. set (sp := push_key (KStr k) s).
  assert (KP : p_keychain sp = [KStr k]). { unfold sp, push_key, vpush. cbn. rewrite KC. auto. }
  assert (CH : pre_of tt ++ chain (p_keychain sp) = address tt k). { rewrite KP, chain_one, address_pre. auto. }
  assert (GC : good_chain [KStr k]). { exists k, []. split; auto. apply key_ne; auto. }
  destruct (spells_val v t SP sp (w3 ++ com_text c ++ r) (watch tt) (pre_of tt) (par_of tt)) as (s1 & cl & E & RD & NE).
  { apply ends_after; auto. } { eapply vctx_keep; eauto. } { rewrite KP. auto. } { rewrite CH. exact FR. }
  rewrite CH in RD. pose proof RD as [[F0 FC FT] V GD PE HI ON MS]. change (p_map sp) with (p_map s) in *.
  set (A := address tt k) in *.
  assert (GA : good_addr (aof tt k)) by (apply aof_good; auto).
  assert (PNU : ~ under A (par_of tt)).
  { intros U. apply FR in U. destruct (par_entry l cs _ tt MI DT) as (pv & X & _). congruence. }
  assert (K1 : keyval_keys s1 = Ok (A, par_of tt)).
  { rewrite (vx_keys _ _ _ _ VC s1).
    - rewrite FC, CH, KP. reflexivity.
    - destruct F0. constructor; auto.
    - intros x I. apply MS. intros U. unfold A in U. rewrite address_pre in U. apply under_stop in U as (z & _ & ->).
      destruct (vx_fx _ _ _ _ VC _ I) as [_ N]. rewrite <- app_assoc in N. eapply N. reflexivity.
    - rewrite FC, KP. auto. }
  destruct (par_entry l cs _ tt MI DT) as (pv & PX & PV).
  assert (PS : hget (par_of tt) (p_map s1) = Some (HashValue pv (Keys (par_keys l tt)))) by (rewrite MS; auto).
  set (hvA := HashValue (Some cl) (tkids (c_val cl))).
  set (hvP := HashValue pv (Keys (fst (vinsert (par_keys l tt) k)))).
  set (m := hput (par_of tt) hvP (hput A hvA (p_map s1))).
  assert (PA : par_of tt <> A) by (intros Q; apply PNU; rewrite Q; left; auto).
  assert (INS : insert_keyval_into_map s1 cl = Ok (set_map m s1)).
  { rewrite (insert_at _ _ _ _ K1 PE). fold hvA. unfold update_parent. rewrite hget_hput_other by auto.
    rewrite PS. cbn [hv_subkeys hv_value]. rewrite FC, KP. reflexivity. }
  exists (pop_key (set_map m s1)), cl. split.
  { cbn [dline_text]. apply line_read1 with (s1 := s1); auto.
    - destruct (vhead_solid _ (vhead_app _ (w3 ++ com_text c ++ r) (spells_head _ _ SP))) as (_ & _ & NB & _). auto.
    - destruct F0. cbn in *. congruence. }
  assert (GM : forall x, hget x m = if list_eq_dec N.eq_dec x (par_of tt) then Some hvP
     else if list_eq_dec N.eq_dec x A then Some hvA else hget x (p_map s1)).
  { intros x. unfold m. destruct (list_eq_dec N.eq_dec x (par_of tt)) as [->|N1]; [apply hget_hput_same|].
    rewrite hget_hput_other by auto. destruct (list_eq_dec N.eq_dec x A) as [->|N2]; [apply hget_hput_same|].
    apply hget_hput_other; auto. }
  assert (KEEP : forall x hv, hget x (p_map s) = Some hv -> x <> par_of tt -> hget x m = Some hv).
  { intros x hv H N. rewrite GM. destruct (list_eq_dec N.eq_dec x (par_of tt)); [congruence|].
    assert (NU : ~ under A x). { intros U. apply FR in U. congruence. }
    destruct (list_eq_dec N.eq_dec x A) as [->|_]; [exfalso; apply NU; left; auto|]. rewrite MS; auto. }
  assert (PRS : pairs (l ++ [d]) = pairs l ++ [(tt, k, v)]) by (rewrite pairs_snoc, <- NW; reflexivity).
  assert (TNS : table_names (l ++ [d]) = table_names l) by (rewrite tnames_snoc; apply app_nil_r).
  assert (ANS : array_names (l ++ [d]) = array_names l) by (rewrite anames_snoc; apply app_nil_r).
  assert (KNEW : tt <> TRoot -> fst (vinsert (keys_in tt (pairs l)) k) = keys_in tt (pairs (l ++ [d]))).
  { intros _. rewrite PRS, keys_in_app, keys_in_one. destruct (taddr_dec tt tt); [|congruence].
    rewrite vinsert_new; [reflexivity|]. intros I. apply keys_in_in in I as [v' I].
    destruct DS as [D1 _ _ _]. rewrite PRS, map_app in D1. cbn [map fst] in D1. apply NoDup_remove_2 in D1.
    rewrite app_nil_r in D1. apply D1. apply (in_map fst) in I. exact I. }
  assert (KOLD : forall t', t' <> tt -> keys_in t' (pairs (l ++ [d])) = keys_in t' (pairs l)).
  { intros t' N. rewrite PRS, keys_in_app, keys_in_one. destruct (taddr_dec tt t'); [congruence|]. apply app_nil_r. }
  constructor.
  - cbn. rewrite FC, KP. reflexivity.
  - cbn. rewrite FT. auto.
  - cbn. rewrite NE. cbn. congruence.
  - cbn. destruct F0. cbn in *. congruence.
  - rewrite now_snoc. unfold d. rewrite <- NW. destruct F0 as [X2 X3 X4 X5 X6]. change (p_tables sp) with (p_tables s) in X2.
    change (p_tindex sp) with (p_tindex s) in X3. change (p_last_table sp) with (p_last_table s) in X4.
    destruct tt as [|n|n i]; cbn [tables_are pop_key set_keychain set_map p_last_table p_tables p_tindex] in *.
    + rewrite X2, X3, X4. auto.
    + rewrite X2, X3, X4. auto.
    + rewrite X2, X3, X4. auto.
  - change (p_map (pop_key (set_map m s1))) with m. constructor.
    + (* root *) unfold root_entry. rewrite tops_snoc. unfold d. rewrite <- NW. destruct (at_root tt) eqn:AR.
      * rewrite GM. destruct tt; try discriminate AR. cbn [par_of]. destruct (list_eq_dec N.eq_dec root_key root_key); [|congruence].
        unfold hvP. cbn [par_value par_keys] in *. rewrite PV, vinsert_first. auto.
      * rewrite app_nil_r. apply KEEP; [apply (mi_root _ _ _ MI)|]. destruct tt as [|n|n i]; [discriminate AR| |].
        -- cbn [par_of tname]. intros Q. assert (GN : good_addr (n, [])) by (split; auto; apply Forall_nil).
           apply (atext_root _ GN). rewrite <- name_text. auto.
        -- cbn [par_of]. rewrite elem_text. intros Q.
           assert (GN : good_addr (n, [PIdx i])) by (split; auto; apply Forall_cons; [exact I|apply Forall_nil]).
           apply (atext_root _ GN). auto.
    + (* tables *) intros n I. rewrite TNS in I. unfold table_entry. destruct (taddr_dec tt (TName n)) as [Q|Q].
      * assert (TN : par_value (TName n) pv) by (rewrite <- Q; auto). destruct TN as [id ->]. exists id.
        rewrite GM. assert (PN : n = par_of tt) by (rewrite Q; reflexivity).
        destruct (list_eq_dec N.eq_dec n (par_of tt)); [|congruence]. unfold hvP. rewrite <- Q. rewrite <- KNEW by (rewrite Q; discriminate). rewrite Q. reflexivity.
      * destruct (mi_table _ _ _ MI n I) as [id H]. exists id. rewrite KOLD by auto. apply KEEP; auto.
        intros X. rewrite X, PX in H. injection H as -> _. destruct tt as [|n'|n' i]; cbn [par_value] in PV; try discriminate PV.
        cbn [par_of tname] in X. congruence.
    + (* arrays *) intros n I. rewrite ANS in I. unfold array_entry. rewrite ANS. pose proof (mi_array _ _ _ MI n I) as H.
      apply KEEP; auto. intros X. rewrite X, PX in H. unfold array_entry in H. congruence.
    + (* elements *) intros n i I. rewrite ANS in I. unfold elem_entry. pose proof (mi_elem _ _ _ MI n i I) as H.
      destruct (taddr_dec tt (TElem n i)) as [Q|Q].
      * rewrite GM. assert (PN : tname (TElem n i) = par_of tt) by (rewrite Q; reflexivity).
        destruct (list_eq_dec N.eq_dec (tname (TElem n i)) (par_of tt)); [|congruence].
        assert (TN : par_value (TElem n i) pv) by (rewrite <- Q; auto). cbn [par_value] in TN. subst pv. unfold hvP.
        rewrite <- Q. rewrite <- KNEW by (rewrite Q; discriminate). rewrite Q. reflexivity.
      * rewrite KOLD by auto. apply KEEP; auto. intros X.
        assert (GN : good_addr (n, [PIdx i])).
        { split; [|apply Forall_cons; [exact Logic.I|apply Forall_nil]]. apply (bare_tables l (TElem n i)); auto. }
        rewrite elem_text in X. destruct tt as [|n'|n' i']; cbn [par_of tname] in X.
        -- apply (atext_root _ GN); auto.
        -- rewrite (name_text n') in X. apply atext_inj in X; [discriminate|auto|split; auto; apply Forall_nil].
        -- fold (tname (TElem n' i')) in X. rewrite elem_text in X. apply atext_inj in X; [|auto|].
           ++ inversion X; subst. congruence.
           ++ split; auto. apply Forall_cons; [exact Logic.I|apply Forall_nil].
    + (* values *) rewrite PRS. apply Forall2_app.
      * eapply forall2_impl; [|exact (mi_cells _ _ _ MI)]. intros c0 [[t' k'] v'] [X1 X2]. cbn [fst snd] in *. split; auto.
        intros p y TT. destruct (X2 p y TT) as [X3 X4]. split; auto. unfold held in *. apply KEEP; auto.
        intros X. rewrite X, PX in X4. injection X4 as X4 _. destruct (to_val_sub _ _ _ _ X1 TT) as (w & X5 & _).
        destruct tt as [|n'|n' i']; cbn [par_value] in PV; try congruence.
        destruct PV as [id ->]. injection X4 as X4. subst y. discriminate X5.
      * constructor; [|constructor]. cbn [fst snd]. split; auto. intros p y TT. split; [eapply GD; eauto|]. fold A.
        rewrite GM. destruct p as [|z p].
        -- cbn [tat] in TT. injection TT as <-. change (path_text []) with (@nil N). rewrite app_nil_r.
           destruct (list_eq_dec N.eq_dec A (par_of tt)); [congruence|]. destruct (list_eq_dec N.eq_dec A A); [reflexivity|congruence].
        -- destruct (list_eq_dec N.eq_dec (A ++ path_text (z :: p)) (par_of tt)) as [Q|_].
           { exfalso. apply PNU. rewrite <- Q. apply under_path. }
           destruct (list_eq_dec N.eq_dec (A ++ path_text (z :: p)) A) as [Q|_].
           { exfalso. apply path_ne in Q; auto. discriminate. }
           apply HI; auto. discriminate.
    + (* nothing else *) intros x hv H. rewrite GM in H. destruct (list_eq_dec N.eq_dec x (par_of tt)) as [->|N1].
      { apply (mi_only _ _ _ MI) in PX as [PX|(a & Ka & PX)]; auto. right. exists a. split; auto. apply known_snoc; auto. }
      assert (NEW : forall p y, tat cl p = Some y -> known (l ++ [d]) (ext (aof tt k) p)).
      { intros p y TT. destruct (to_val_sub _ _ _ _ V TT) as (w & _ & X). eapply Kn_val; eauto. rewrite PRS. apply in_or_app. right. left; auto. }
      destruct (list_eq_dec N.eq_dec x A) as [->|N2].
      { right. exists (ext (aof tt k) []). split; [eapply NEW; reflexivity|]. rewrite atext_ext, aof_text. symmetry. apply app_nil_r. }
      apply ON in H as [H|[H|(p & y & N & TT & ->)]]; [congruence| |].
      * apply (mi_only _ _ _ MI) in H as [H|(a & Ka & H)]; auto. right. exists a. split; auto. apply known_snoc; auto.
      * right. exists (ext (aof tt k) p). split; [eapply NEW; eauto|]. rewrite atext_ext, aof_text. auto.
Qed.

(** ** Table headers *)
Lemma tag1_no : forall a c r s, c <> a -> a < 128 -> tag [a] s (c :: r) = Ok (s, Error).
Proof.
  intros a c r s N A. unfold tag. assert (Nat.ltb (blen (c :: r)) (blen [a]) = false) as ->.
  { apply Nat.ltb_ge. cbn [blen]. assert (utf8_width a = 1%nat) as ->.
    { unfold utf8_width. assert (a <? 128 = true) as -> by lia. reflexivity. }
    assert (1 <= utf8_width c)%nat; [|lia]. unfold utf8_width.
    destruct (c <? 128); [lia|]. destruct (c <? 2048); [lia|]. destruct (c <? 65536); lia. }
  assert (starts_with [a] (c :: r) = false) as ->; [apply starts1_false; auto|auto].
Qed.
Lemma subkeys_none : forall s w c r, blanks w -> no_blank (c :: r) -> c <> 46 ->
  table_subkeys s (w ++ c :: r) = Ok (s, Done (w ++ c :: r) []).
Proof.
  intros s w c r W NB N. unfold table_subkeys, many0. cbn [many_loop].
  destruct (w ++ c :: r) as [|a b] eqn:Q; [destruct w; discriminate|]. rewrite <- Q.
  unfold table_subkey. rewrite (bind_ok _ _ _ _ _ _ _ (ws_ok w (c :: r) s W NB)).
  change (lit ".") with [46]. rewrite (bind_err _ _ _ _ _ (tag1_no 46 c r s N ltac:(lia))). reflexivity.
Qed.

Lemma header_tail : forall w0 t w3 c r s s' tt, blanks w0 -> (forall x, no_blank (t ++ x)) -> blanks w3 -> com_ok c -> line_start r ->
  table_p s (t ++ w3 ++ com_text c ++ r) = Ok (s', Done (w3 ++ com_text c ++ r) tt) ->
  expression_p s ((w0 ++ t ++ w3 ++ com_text c) ++ r) =
  Ok (s', Done r {| e_ws := {| ws1 := w0; ws2 := w3 |}; e_keyval := None; e_table := Some tt; e_comment := c |}).
Proof.
  intros w0 t w3 c r s s' tt W0 NB W3 C R E. rewrite <- !app_assoc. unfold expression_p. apply alt_ok, complete_ok. unfold table_comment.
  erewrite bind_ok by (apply ws_ok; auto). erewrite bind_ok by exact E.
  erewrite bind_ok by (apply ws_ok; auto; apply com_no_blank; auto).
  erewrite bind_ok by (apply opt_comment; auto). reflexivity.
Qed.

Lemma bare_blank_head : forall w n x (P : N -> Prop), blanks w -> key_name n -> P 9 -> P 32 -> (forall c, c = 34 \/ bare_char c -> P c) ->
  match w ++ n ++ x with [] => False | c :: _ => P c end.
Proof.
  intros w n x P W B P1 P2 P3. destruct w as [|c w].
  - apply key_head in B as (c & u & -> & C). cbn [app]. auto.
  - inversion W as [|? ? W1 W2]; subst. cbn [app]. destruct W1; subst; auto.
Qed.

Lemma std_read : forall w1 n w2 r s s' tt, blanks w1 -> key_name n -> blanks w2 ->
  std_table_act w1 w2 n [] (push_key (KStr n) s) = Ok (s', tt) ->
  table_p s ((lit "[" ++ w1 ++ n ++ w2 ++ lit "]") ++ r) = Ok (s', Done r tt).
Proof.
  intros w1 n w2 r s s' tt W1 B W2 E. rewrite <- !app_assoc. unfold table_p. rewrite alt_err with (s1 := s).
  - apply complete_ok. unfold std_table. erewrite bind_ok by apply tag_ok.
    erewrite bind_ok.
    2:{ apply ws_ok; auto. apply key_head in B as (c & u & -> & C). simpl. unfold bare_char in C. lia. }
    erewrite bind_ok.
    2:{ apply key_p_bare; auto. apply (blanks_app_head (fun c => ~ bare_char c)); auto; unfold bare_char; simpl; lia. }
    erewrite bind_ok.
    2:{ apply (subkeys_none _ w2 93 r); auto; simpl; lia. }
    erewrite bind_ok. 2:{ apply (ws_ok w2 (lit "]" ++ r)); auto. simpl; lia. }
    erewrite bind_ok by apply tag_ok. unfold act. rewrite E. reflexivity.
  - unfold array_table. assert (S : starts_with (lit "[[") (lit "[" ++ w1 ++ n ++ w2 ++ lit "]" ++ r) = false).
    { pose proof (bare_blank_head w1 n (w2 ++ lit "]" ++ r) (fun c => c <> 91) W1 B) as Q.
      destruct (w1 ++ n ++ w2 ++ lit "]" ++ r) as [|c x]; [exfalso; apply Q; try lia; unfold bare_char; intros; lia|].
      change (lit "[" ++ c :: x) with (91 :: c :: x). change (starts_with (lit "[[") (91 :: c :: x)) with ((91 =? 91) && ((91 =? c) && starts_with [] x)).
      destruct (N.eqb_spec 91 c); [|reflexivity]. exfalso. assert (c <> 91); [|congruence]. apply Q; try lia. unfold bare_char. intros; lia. }
    apply complete_err. destruct (tag_fail _ s _ S) as [X|X].
    + left. apply bind_err; exact X.
    + right. apply bind_inc; exact X.
Qed.

Lemma arr_read : forall w1 n w2 r s s' tt, blanks w1 -> key_name n -> blanks w2 ->
  array_table_act w1 w2 n [] (push_key (KStr n) s) = Ok (s', tt) ->
  table_p s ((lit "[[" ++ w1 ++ n ++ w2 ++ lit "]]") ++ r) = Ok (s', Done r tt).
Proof.
  intros w1 n w2 r s s' tt W1 B W2 E. rewrite <- !app_assoc. unfold table_p. apply alt_ok.
  apply complete_ok. unfold array_table. erewrite bind_ok by apply tag_ok.
  erewrite bind_ok.
  2:{ apply ws_ok; auto. apply key_head in B as (c & u & -> & C). simpl. unfold bare_char in C. lia. }
  erewrite bind_ok.
  2:{ apply key_p_bare; auto. apply (blanks_app_head (fun c => ~ bare_char c)); auto; unfold bare_char; simpl; lia. }
  erewrite bind_ok.
  2:{ apply (subkeys_none _ w2 93 (lit "]" ++ r)); auto; simpl; lia. }
  erewrite bind_ok. 2:{ apply (ws_ok w2 (lit "]]" ++ r)); auto. simpl; lia. }
  erewrite bind_ok by apply tag_ok. unfold act. rewrite E. reflexivity.
Qed.

(** the tables left on the stack when a header with one name is read *)
Definition left_over (t : taddr) (s : pst) : list table_type * list N :=
  match t with TElem _ _ => (s.(p_tables), s.(p_tindex)) | _ => ([], []) end.

Lemma vinsert_twice : forall l (k : str), fst (vinsert (fst (vinsert l k)) k) = fst (vinsert l k).
Proof.
  intros l k. unfold vinsert. destruct (vcontains l k) eqn:E; cbn [fst]; [rewrite E; auto|].
  assert (vcontains (vpush l k) k = true) as ->; [|auto]. apply vcontains_in. unfold vpush. apply in_or_app. right. left; auto.
Qed.
Lemma implicit_root : forall ovf m w t pv ks, hget root_key m = Some (HashValue pv (Keys ks)) -> tt_table t = [w] ->
  add_implicit_tables ovf m [] [] t = Ok (hput root_key (HashValue pv (Keys (fst (vinsert ks w.(wk_key))))) m).
Proof.
  intros ovf m w t pv ks R T. unfold add_implicit_tables. cbn [get_array_table_key length gatk_loop rbind negb].
  change (vlast (@nil table_type)) with (@None table_type). cbv iota beta. change ([] ++ root_key) with root_key.
  rewrite str_eqb_refl, T. cbn [Nat.sub skipn ait_loop]. rewrite R. cbn [hv_subkeys hv_value].
  destruct (vinsert ks (wk_key w)) as [l' ins]. reflexivity.
Qed.

Lemma drop_key : forall n s, s.(p_keychain) = [] -> keychain_drop 1 (push_key (KStr n) s) = Ok (set_keychain [] s).
Proof.
  intros n s K. unfold keychain_drop. change (p_keychain (push_key (KStr n) s)) with (vpush (p_keychain s) (KStr n)).
  rewrite K. reflexivity.
Qed.

Lemma std_act : forall w1 w2 n s t ks, s.(p_keychain) = [] -> tables_are t s ->
  hget root_key s.(p_map) = Some (HashValue None (Keys ks)) -> hget n s.(p_map) = None -> hget [] s.(p_map) = None ->
  n <> root_key ->
  exists s' w, std_table_act w1 w2 n [] (push_key (KStr n) s) = Ok (s', TStandard [w]) /\
    s'.(p_keychain) = [] /\ s'.(p_atypes) = s.(p_atypes) /\ s'.(p_errors) = s.(p_errors) /\ s'.(p_array_error) = false /\
    tables_are (TName n) s' /\
    exists id, forall x, hget x s'.(p_map) =
      if list_eq_dec N.eq_dec x root_key then Some (HashValue None (Keys (fst (vinsert ks n))))
      else if list_eq_dec N.eq_dec x n then Some (HashValue (Some (Cell id TTable)) (Keys [])) else hget x s.(p_map).
Proof.
  intros w1 w2 n s t ks K TA R H1 H0 NR. set (w := {| wk_ws := {| ws1 := w1; ws2 := w2 |}; wk_key := n |}).
  set (res := TStandard [w]).
  unfold std_table_act. change (table_new {| ws1 := w1; ws2 := w2 |} n []) with [w]. fold res. cbn [length].
  rewrite drop_key by auto. cbn [rbind]. cbv zeta.
  change (p_map (set_keychain [] s)) with (p_map s). change (p_ovf (set_keychain [] s)) with (p_ovf s).
  change (p_tables (set_keychain [] s)) with (p_tables s). change (p_tindex (set_keychain [] s)) with (p_tindex s).
  assert (LT : (if is_top_std_table (p_tables s) || equal_key_length res (p_tables s) then (vpop (p_tables s), vpop (p_tindex s))
     else (p_tables s, p_tindex s)) = ([], [])).
  { destruct t as [|m|m i]; cbn [tables_are] in TA.
    - destruct TA as (_ & -> & ->). reflexivity.
    - destruct TA as (w' & _ & -> & -> & _). reflexivity.
    - destruct TA as (w' & j & _ & -> & -> & _). reflexivity. }
  rewrite LT. change (vlast (@nil table_type)) with (@None table_type). cbv iota beta.
  change (vpush [] res) with [res]. change (vpush [] 0) with [0]. change (vlast (@nil table_type)) with (@None table_type). cbv iota beta.
  replace (get_array_table_key (p_ovf s) (p_map s) [res] [0]) with (@Ok (bool * str * str) (negb (key_has_value (p_map s) n), n, root_key)) by reflexivity.
  cbn [rbind].
  change (wk_key w) with n. assert (key_has_value (p_map s) n = false) as -> by (unfold key_has_value; rewrite H1; auto).
  cbn [negb]. unfold key_has_children_with_values. rewrite str_eqb_refl. cbn [rbind]. rewrite H1. cbn [rbind].
  rewrite implicit_root with (w := w) (pv := None) (ks := ks) by auto. cbn [rbind]. change (wk_key w) with n.
  change (last (map wk_key [w]) []) with n.
  unfold add_to_table_set, get_key_parent. cbn [length gkp_loop rbind].
  rewrite hget_hput_other by discriminate. rewrite H0. cbn [rbind].
  cbv [new_cell]. rewrite hget_hput_other by auto. rewrite H1. rewrite hget_hput_other by auto. rewrite hget_hput_same.
  cbn [hv_subkeys hv_value rbind]. rewrite vinsert_twice.
  eexists. exists w. split; [reflexivity|]. cbn [p_keychain p_atypes p_errors p_array_error set_last_table set_array_error set_map set_tables set_next set_keychain].
  split; auto. split; auto. split; auto. split; auto. split.
  - exists w. cbn. auto.
  - exists s.(p_next). intros x. cbn [p_map c_id set_last_table set_array_error set_map set_tables set_next set_keychain p_next hv_table_keys]. destruct (list_eq_dec N.eq_dec x root_key) as [->|N1]; [apply hget_hput_same|].
    rewrite hget_hput_other by auto. destruct (list_eq_dec N.eq_dec x n) as [->|N2]; [apply hget_hput_same|].
    rewrite hget_hput_other by auto. apply hget_hput_other; auto.
Qed.

Lemma idx_step : forall n i, n ++ idx_str i = tname (TElem n i).
Proof. reflexivity. Qed.

Definition elem_map (n : str) (c : N) (ks : list str) (m : vmap) (x : str) : option hash_value :=
  if list_eq_dec N.eq_dec x root_key then Some (HashValue None (Keys (fst (vinsert ks n))))
  else if list_eq_dec N.eq_dec x n then Some (HashValue None (Count (c + 1)))
  else if list_eq_dec N.eq_dec x (tname (TElem n c)) then Some (HashValue None (Keys []))
  else hget x m.

Lemma str_eqb_spec : forall a b, Bool.reflect (a = b) (str_eqb a b).
Proof. intros a b. apply Bool.iff_reflect. symmetry. apply str_eqb_eq. Qed.

Lemma gkp_one : forall w j, w.(wk_key) <> root_key -> get_key_parent [TArrayOf [w]] [j] = Ok w.(wk_key).
Proof.
  intros w j N. unfold get_key_parent. cbn [length gkp_loop vindex nth_error rbind get_last_keys map skipn gkp_keys].
  rewrite str_eqb_refl. destruct (str_eqb_spec (wk_key w) root_key); [congruence|].
  cbn [length Nat.sub Nat.ltb Nat.leb app rbind]. rewrite app_nil_r. reflexivity.
Qed.

Definition count_entry (c : N) : option hash_value := if c =? 0 then None else Some (HashValue None (Count c)).

Lemma incr_one : forall m w j c, w.(wk_key) <> root_key -> hget w.(wk_key) m = count_entry c -> 0 < c ->
  increment_array_table_index m [TArrayOf [w]] [j] = Ok (hput w.(wk_key) (HashValue None (Count (c + 1))) m, [j + 1]).
Proof.
  intros m w j c N H C. unfold increment_array_table_index. rewrite gkp_one by auto. cbn [rbind]. rewrite H. unfold count_entry.
  assert (c =? 0 = false) as -> by lia. reflexivity.
Qed.

Lemma arr_end : forall ovf m m0 w j n cc c ks, w.(wk_key) = n -> key_name n ->
  (forall x, hget x m = if list_eq_dec N.eq_dec x root_key then Some (HashValue None (Keys (fst (vinsert ks n))))
     else if list_eq_dec N.eq_dec x n then count_entry cc else hget x m0) ->
  ((cc = 0 /\ j = 0 /\ c = 0) \/ cc = c + 1) ->
  get_array_table_key ovf m [TArrayOf [w]] [j] = Ok (true, tname (TElem n c), n) /\
  forall x, hget x (hput (tname (TElem n c)) hv_none_keys (if hmem n m then m else hput n hv_one_count m)) = elem_map n c ks m0 x.
Proof.
  intros ovf m m0 w j n cc c ks W B HM CC.
  assert (NR : n <> root_key) by (apply root_not_bare; auto).
  assert (NE : n <> tname (TElem n c)).
  { cbn [tname]. intros Q. rewrite <- app_nil_r in Q at 1. apply app_inv_head in Q. discriminate. }
  assert (NR2 : root_key <> tname (TElem n c)).
  { rewrite elem_text. intros Q. symmetry in Q. apply atext_root in Q; auto. split; auto. apply Forall_cons; [exact I|apply Forall_nil]. }
  assert (HR : hget root_key m = Some (HashValue None (Keys (fst (vinsert ks n))))).
  { rewrite HM. destruct (list_eq_dec N.eq_dec root_key root_key); [auto|congruence]. }
  assert (HN : hget n m = count_entry cc).
  { rewrite HM. destruct (list_eq_dec N.eq_dec n root_key); [congruence|]. destruct (list_eq_dec N.eq_dec n n); [auto|congruence]. }
  split.
  - pose proof (gatk_array ovf m w j _ _ HR eq_refl) as Y. rewrite W, HN in Y. unfold count_entry in Y.
    destruct (N.eqb_spec cc 0) as [Z|Z].
    + destruct CC as [(_ & -> & ->)|CC]; [exact Y|lia].
    + destruct CC as [(CC & _)|CC]; [lia|]. rewrite Y by lia. replace (cc - 1) with c by lia. reflexivity.
  - intros x. unfold elem_map. destruct (list_eq_dec N.eq_dec x root_key) as [->|N1].
    { rewrite hget_hput_other by auto. destruct (hmem n m); auto. rewrite hget_hput_other; auto. }
    destruct (list_eq_dec N.eq_dec x n) as [->|N2].
    { rewrite hget_hput_other by auto. unfold hmem. rewrite HN. unfold count_entry. destruct (N.eqb_spec cc 0) as [Z|Z].
      - cbn [is_some]. rewrite hget_hput_same. unfold hv_one_count. do 3 f_equal. lia.
      - cbn [is_some]. rewrite HN. unfold count_entry. destruct (N.eqb_spec cc 0); [lia|]. do 3 f_equal. lia. }
    destruct (list_eq_dec N.eq_dec x (tname (TElem n c))) as [->|N3]; [apply hget_hput_same|].
    rewrite hget_hput_other by auto.
    assert (X : hget x m = hget x m0).
    { rewrite HM. destruct (list_eq_dec N.eq_dec x root_key); [congruence|]. destruct (list_eq_dec N.eq_dec x n); [congruence|auto]. }
    destruct (hmem n m); auto. rewrite hget_hput_other; auto.
Qed.

Lemma vinsert_old : forall l (k : str), In k l -> fst (vinsert l k) = l.
Proof. intros l k I. unfold vinsert. apply vcontains_in in I. rewrite I. auto. Qed.

Lemma arr_act : forall w1 w2 n s t ks c, s.(p_keychain) = [] -> tables_are t s ->
  hget root_key s.(p_map) = Some (HashValue None (Keys ks)) ->
  hget n s.(p_map) = count_entry c ->
  (0 < c -> In n ks) -> key_name n ->
  match t with TRoot | TName _ => c = 0 | TElem m _ => (m = n -> 0 < c) /\ (m = n \/ forall r, n <> m ++ r) end ->
  exists s' w, array_table_act w1 w2 n [] (push_key (KStr n) s) = Ok (s', TArrayOf [w]) /\
    s'.(p_keychain) = [] /\ s'.(p_atypes) = s.(p_atypes) /\ s'.(p_errors) = s.(p_errors) /\ s'.(p_array_error) = false /\
    tables_are (TElem n c) s' /\ forall x, hget x s'.(p_map) = elem_map n c ks s.(p_map) x.
Proof.
  intros w1 w2 n s t ks c K TA R HN CI B PL. set (w := {| wk_ws := {| ws1 := w1; ws2 := w2 |}; wk_key := n |}).
  assert (NR : n <> root_key) by (apply root_not_bare; auto).
  set (res := TArrayOf [w]). set (rt := HashValue None (Keys (fst (vinsert ks n)))).
  unfold array_table_act. change (table_new {| ws1 := w1; ws2 := w2 |} n []) with [w]. fold res. cbn [length].
  rewrite drop_key by auto. cbn [rbind]. cbv zeta.
  change (p_map (set_array_error false (set_keychain [] s))) with (p_map s). change (p_ovf (set_keychain [] s)) with (p_ovf s).
  change (p_tables (set_keychain [] s)) with (p_tables s). change (p_tindex (set_keychain [] s)) with (p_tindex s).
  change (format_tt_keys res) with n.
  assert (M1 : forall x, hget x (hput root_key rt (p_map s)) = if list_eq_dec N.eq_dec x root_key then Some rt
     else if list_eq_dec N.eq_dec x n then count_entry c else hget x (p_map s)).
  { intros x. destruct (list_eq_dec N.eq_dec x root_key) as [->|N1]; [apply hget_hput_same|]. rewrite hget_hput_other by auto.
    destruct (list_eq_dec N.eq_dec x n) as [->|N2]; auto. }
  (* when the stack is empty and the name is new *)
  assert (NEW : c = 0 -> exists s' w0,
    (let? (m, ts, ti) := (let? m := add_implicit_tables (p_ovf s) (p_map s) [] [] res in Ok (m, [res], [0])) in
     let? (valid, full_key, parent_key) := get_array_table_key (p_ovf s) m ts ti in
     (if negb valid then Ok (push_error (EInvalidTable full_key (p_line (set_tables ts ti (set_array_error false (set_keychain [] s)))) [])
         (set_map m (set_tables ts ti (set_array_error false (set_keychain [] s)))), res)
      else Ok (set_last_table (Some res) (set_map (hput full_key hv_none_keys (if hmem parent_key m then m else hput parent_key hv_one_count m))
         (set_tables ts ti (set_array_error false (set_keychain [] s)))), res))) = Ok (s', TArrayOf [w0]) /\
    s'.(p_keychain) = [] /\ s'.(p_atypes) = s.(p_atypes) /\ s'.(p_errors) = s.(p_errors) /\ s'.(p_array_error) = false /\
    tables_are (TElem n c) s' /\ forall x, hget x s'.(p_map) = elem_map n c ks s.(p_map) x).
  { intros C0. rewrite implicit_root with (w := w) (pv := None) (ks := ks) by auto. cbn [rbind]. change (wk_key w) with n. fold rt.
    destruct (arr_end (p_ovf s) (hput root_key rt (p_map s)) (p_map s) w 0 n c c ks eq_refl B M1) as [E1 E2].
    { left. auto. }
    unfold res at 1. rewrite E1. cbn [rbind negb]. eexists. exists w. split; [reflexivity|].
    repeat (split; [reflexivity|]). split; [|exact E2]. exists w, 0. split; [exists w; reflexivity|]. repeat split; auto. }
  destruct t as [|m|m i]; cbn [tables_are] in TA.
  - destruct TA as (_ & -> & ->). exact (NEW PL).
  - destruct TA as (w' & _ & -> & -> & _). exact (NEW PL).
  - destruct TA as (w' & j & TL & -> & -> & WK). destruct PL as [PC PL]. clear NEW.
    change (is_top_std_table [TArrayOf [w']]) with false. cbv iota beta. change (vlast [TArrayOf [w']]) with (Some (TArrayOf [w'])).
    cbv iota beta. change (format_tt_keys (TArrayOf [w'])) with (wk_key w'). rewrite WK.
    destruct (str_eqb_spec n m) as [EQ|NE].
    + specialize (PC (eq_sym EQ)). destruct EQ. rewrite (incr_one (p_map s) w' j c) by (rewrite ?WK; auto). cbn [rbind]. rewrite WK.
      destruct (arr_end (p_ovf s) (hput n (HashValue None (Count (c + 1))) (p_map s)) (p_map s) w' (j + 1) n (c + 1) c ks) as [E1 E2]; auto.
      { intros x. destruct (list_eq_dec N.eq_dec x root_key) as [->|N1].
        - rewrite hget_hput_other by auto. rewrite R, vinsert_old; auto.
        - destruct (list_eq_dec N.eq_dec x n) as [->|N2]; [|apply hget_hput_other; auto].
          rewrite hget_hput_same. unfold count_entry. assert (c + 1 =? 0 = false) as -> by lia. auto. }
      rewrite E1. cbn [rbind negb]. eexists. exists w. split; [reflexivity|].
      repeat (split; [reflexivity|]). split; [|exact E2]. exists w', (j + 1). split; [exists w; reflexivity|]. repeat split; auto.
    + destruct PL as [PL|PL]; [congruence|].
      assert (is_subtable_of res (TArrayOf [w']) = false) as ->.
      { change (is_subtable_of res (TArrayOf [w'])) with (starts_with (wk_key w') n). rewrite WK.
        destruct (starts_with m n) eqn:SW; auto. apply starts_with_app in SW as [r SW]. exfalso. exact (PL r SW). }
      cbn [rev app pop_until_key tl]. change (format_tt_keys (TArrayOf [w'])) with (wk_key w'). rewrite WK.
      destruct (str_eqb_spec n m); [congruence|].
      rewrite implicit_root with (w := w) (pv := None) (ks := ks) by auto. cbn [rbind]. change (wk_key w) with n. fold rt.
      unfold vpush. cbn [app]. unfold res. cbn [rev app]. rewrite gkp_one by auto. cbn [rbind]. change (wk_key w) with n.
      unfold hmem at 1. rewrite hget_hput_other by auto. rewrite HN. unfold count_entry at 1. destruct (N.eqb_spec c 0) as [Z|Z].
      * cbn [rbind]. destruct (arr_end (p_ovf s) (hput root_key rt (p_map s)) (p_map s) w 0 n c c ks eq_refl B M1) as [E1 E2].
        { left. auto. }
        unfold res. cbn [is_some rbind]. rewrite E1. cbn [rbind negb]. eexists. exists w. split; [reflexivity|].
        repeat (split; [reflexivity|]). split; [|exact E2]. exists w, 0. split; [exists w; reflexivity|]. repeat split; auto.
      * unfold res. cbn [is_some]. rewrite incr_one with (c := c); [|auto| |lia].
        2:{ change (wk_key w) with n. rewrite hget_hput_other by auto. auto. }
        cbn [rbind]. change (wk_key w) with n.
        destruct (arr_end (p_ovf s) (hput n (HashValue None (Count (c + 1))) (hput root_key rt (p_map s))) (p_map s) w (0 + 1) n (c + 1) c ks) as [E1 E2]; auto.
        { intros x. destruct (list_eq_dec N.eq_dec x root_key) as [->|N1].
          - rewrite hget_hput_other by auto. apply hget_hput_same.
          - destruct (list_eq_dec N.eq_dec x n) as [->|N2]; [|rewrite !hget_hput_other; auto].
            rewrite hget_hput_same. unfold count_entry. assert (c + 1 =? 0 = false) as -> by lia. auto. }
        unfold res. rewrite E1. cbn [rbind negb]. eexists. exists w. split; [reflexivity|].
        repeat (split; [reflexivity|]). split; [|exact E2]. exists w, (0 + 1). split; [exists w; reflexivity|]. repeat split; auto.
Qed.

Lemma now_root : forall l, now l = TRoot -> array_names l = [].
Proof.
  induction l as [|d l IH] using rev_ind; intros H; [reflexivity|]. rewrite now_snoc in H. rewrite anames_snoc.
  destruct d; try discriminate H; rewrite IH by auto; reflexivity.
Qed.

Lemma good_name : forall n, key_name n -> good_addr (n, []).
Proof. intros n B. split; auto. apply Forall_nil. Qed.
Lemma good_elem : forall n i, key_name n -> good_addr (n, [PIdx i]).
Proof. intros n i B. split; auto. apply Forall_cons; [exact I|apply Forall_nil]. Qed.

(** a name is bound as itself *)
Lemma name_bound : forall l cs m n hv, mapinv l cs m -> bare_doc l -> key_name n -> hget n m = Some hv ->
  In n (table_names l) \/ In n (array_names l) \/ exists v, In (TRoot, n, v) (pairs l).
Proof.
  intros l cs m n hv MI B BN H. apply (mi_only _ _ _ MI) in H as [H|(a & K & H)].
  - apply root_not_bare in BN. congruence.
  - rewrite (name_text n) in H. apply atext_inj in H; [|apply good_name; auto|eapply known_good; eauto]. subst a.
    remember (n, []) as a eqn:A. destruct K as [x I|x I|x i I|t k v p w I G W]; try (inversion A; subst; auto; fail).
    destruct t; cbn [aof ext fst snd] in A; inversion A; subst. right; right. eauto.
Qed.

Lemma header_keep : forall l cs m x hv n, mapinv l cs m -> bare_doc l -> key_name n -> hget x m = Some hv ->
  x = tname (TElem n (times n (array_names l))) -> (forall v, ~ In (TRoot, n, v) (pairs l)) -> False.
Proof.
  intros l cs m x hv n MI B BN H X NR. rewrite elem_text in X. apply (mi_only _ _ _ MI) in H as [H|(a & K & H)].
  - rewrite H in X. apply (atext_root (n, [PIdx (times n (array_names l))])); auto. apply good_elem; auto.
  - rewrite H in X. apply atext_inj in X; [|eapply known_good; eauto|apply good_elem; auto].
    remember (n, [PIdx (times n (array_names l))]) as b eqn:A.
    destruct K as [y I|y I|y i I|t k v p w I G W]; subst; try discriminate.
    + inversion X; subst. lia.
    + destruct t; cbn [aof ext fst snd app] in X; inversion X; subst. eapply NR; eauto.
Qed.

Lemma step_table : forall l cs s w0 w1 n w2 w3 c r,
  dinv l cs s -> Forall dline_ok (l ++ [DTable w0 w1 n w2 w3 c]) -> distinct (l ++ [DTable w0 w1 n w2 w3 c]) ->
  line_start r ->
  exists s' tt, expression_p s (dline_text (DTable w0 w1 n w2 w3 c) ++ r) =
    Ok (s', Done r {| e_ws := {| ws1 := w0; ws2 := w3 |}; e_keyval := None; e_table := Some tt; e_comment := c |}) /\
    dinv (l ++ [DTable w0 w1 n w2 w3 c]) cs s'.
Proof.
  intros l cs s w0 w1 n w2 w3 c r DI OK DS R.
  assert (B : bare_doc l) by (apply Forall_app in OK; apply ok_bare; tauto).
  assert (OKd : dline_ok (DTable w0 w1 n w2 w3 c)).
  { apply Forall_app in OK as [_ OK]. inversion OK; auto. }
  destruct OKd as (W0 & W1 & BN & W2 & W3 & CO). pose proof DI as [KC TY ER AE TA MI]. set (d := DTable w0 w1 n w2 w3 c) in *.
  assert (NR : n <> root_key) by (apply root_not_bare; auto).
  assert (PRS : pairs (l ++ [d]) = pairs l) by (rewrite pairs_snoc; apply app_nil_r).
  assert (TNS : table_names (l ++ [d]) = table_names l ++ [n]) by (rewrite tnames_snoc; auto).
  assert (ANS : array_names (l ++ [d]) = array_names l) by (rewrite anames_snoc; apply app_nil_r).
  destruct DS as [D1 D2 D3 D4]. rewrite PRS, TNS, ANS in *.
  assert (NT : ~ In n (table_names l)). { apply NoDup_remove_2 in D2. rewrite app_nil_r in D2. auto. }
  assert (IN : In n (table_names l ++ [n])) by (apply in_or_app; right; left; auto).
  assert (H1 : hget n (p_map s) = None).
  { destruct (hget n (p_map s)) as [hv|] eqn:H; auto. exfalso. eapply name_bound in H as [H|[H|[v H]]]; eauto.
    - apply (D3 n); auto.
    - apply D4 in H. tauto. }
  assert (H0 : hget [] (p_map s) = None).
  { destruct (hget [] (p_map s)) as [hv|] eqn:H; auto. exfalso. apply (mi_only _ _ _ MI) in H as [H|(a & K & H)]; [discriminate|].
    apply (atext_ne a); auto. eapply known_good; eauto. }
  destruct (std_act w1 w2 n s (now l) (first_keys [] (tops l)) KC TA (mi_root _ _ _ MI) H1 H0 NR)
    as (s' & w & E & E1 & E2 & E3 & E4 & E5 & id & M).
  exists s', (TStandard [w]). split.
  { replace (dline_text d) with (w0 ++ (lit "[" ++ w1 ++ n ++ w2 ++ lit "]") ++ w3 ++ com_text c)
      by (unfold d; cbn [dline_text]; rewrite <- !app_assoc; reflexivity).
    apply header_tail; auto.
    - intros x. simpl. lia.
    - apply std_read; auto. }
  assert (KEEP : forall x hv, hget x (p_map s) = Some hv -> x <> root_key -> hget x (p_map s') = Some hv).
  { intros x hv H N. rewrite M. destruct (list_eq_dec N.eq_dec x root_key); [congruence|].
    destruct (list_eq_dec N.eq_dec x n); [congruence|auto]. }
  assert (NROOT : forall a hv, good_addr a -> hget (atext a) (p_map s) = Some hv -> hget (atext a) (p_map s') = Some hv).
  { intros a hv G H. apply KEEP; auto. apply atext_root; auto. }
  constructor; try congruence.
  - rewrite now_snoc. exact E5.
  - constructor.
    + unfold root_entry. rewrite M. destruct (list_eq_dec N.eq_dec root_key root_key); [|congruence].
      rewrite vinsert_first, tops_snoc. reflexivity.
    + rewrite TNS. intros x I. unfold table_entry. rewrite PRS. apply in_app_or in I as [I|[<-|[]]].
      * destruct (mi_table _ _ _ MI x I) as [id' H]. exists id'. rewrite (name_text x) at 1. apply NROOT.
        -- apply good_name. apply (bare_tables l (TName x)); auto.
        -- rewrite <- name_text. auto.
      * exists id. rewrite M. destruct (list_eq_dec N.eq_dec n root_key); [congruence|].
        destruct (list_eq_dec N.eq_dec n n); [|congruence]. rewrite keys_undeclared; auto.
    + rewrite ANS. intros x I. unfold array_entry. rewrite ANS. rewrite (name_text x) at 1. apply NROOT.
      * apply good_name. destruct B as [_ B _]. rewrite Forall_forall in B. auto.
      * rewrite <- name_text. apply (mi_array _ _ _ MI x I).
    + rewrite ANS. intros x i I. unfold elem_entry. rewrite PRS, elem_text. apply NROOT.
      * apply good_elem. apply (bare_tables l (TElem x i)); auto.
      * rewrite <- elem_text. apply (mi_elem _ _ _ MI x i I).
    + rewrite PRS. eapply forall2_impl; [|exact (mi_cells _ _ _ MI)]. intros c0 [[t' k'] v'] [X1 X2]. cbn [fst snd] in *. split; auto.
      intros p y TT. destruct (X2 p y TT) as [X3 X4]. split; auto. unfold held in *. apply KEEP; auto.
      intros Q. rewrite Q in X4. rewrite (mi_root _ _ _ MI) in X4. discriminate X4.
    + intros x hv H. rewrite M in H. destruct (list_eq_dec N.eq_dec x root_key); auto. right.
      destruct (list_eq_dec N.eq_dec x n) as [->|N].
      * exists (n, []). split; [apply Kn_table; rewrite TNS; auto|apply name_text].
      * apply (mi_only _ _ _ MI) in H as [H|(a & Ka & H)]; [congruence|]. exists a. split; auto. apply known_snoc; auto.
Qed.

Lemma step_array : forall l cs s w0 w1 n w2 w3 c r,
  dinv l cs s -> Forall dline_ok (l ++ [DArray w0 w1 n w2 w3 c]) -> distinct (l ++ [DArray w0 w1 n w2 w3 c]) ->
  plain_headers (l ++ [DArray w0 w1 n w2 w3 c]) -> line_start r ->
  exists s' tt, expression_p s (dline_text (DArray w0 w1 n w2 w3 c) ++ r) =
    Ok (s', Done r {| e_ws := {| ws1 := w0; ws2 := w3 |}; e_keyval := None; e_table := Some tt; e_comment := c |}) /\
    dinv (l ++ [DArray w0 w1 n w2 w3 c]) cs s'.
Proof.
  intros l cs s w0 w1 n w2 w3 c r DI OK DS PH R.
  assert (B : bare_doc l) by (apply Forall_app in OK; apply ok_bare; tauto).
  assert (OKd : dline_ok (DArray w0 w1 n w2 w3 c)).
  { apply Forall_app in OK as [_ OK]. inversion OK; auto. }
  destruct OKd as (W0 & W1 & BN & W2 & W3 & CO). pose proof DI as [KC TY ER AE TA MI]. specialize (PH l [] w0 w1 n w2 w3 c eq_refl).
  fold (now l) in PH.
  set (d := DArray w0 w1 n w2 w3 c) in *.
  assert (NR : n <> root_key) by (apply root_not_bare; auto).
  assert (PRS : pairs (l ++ [d]) = pairs l) by (rewrite pairs_snoc; apply app_nil_r).
  assert (TNS : table_names (l ++ [d]) = table_names l) by (rewrite tnames_snoc; apply app_nil_r).
  assert (ANS : array_names (l ++ [d]) = array_names l ++ [n]) by (rewrite anames_snoc; auto).
  destruct DS as [D1 D2 D3 D4]. rewrite PRS, TNS, ANS in *.
  assert (IN : In n (array_names l ++ [n])) by (apply in_or_app; right; left; auto).
  assert (NT : ~ In n (table_names l)) by (intros X; apply (D3 n); auto).
  assert (NV : forall v, ~ In (TRoot, n, v) (pairs l)) by (intros v X; apply D4 in X; tauto).
  set (cc := times n (array_names l)) in *.
  assert (H1 : hget n (p_map s) = count_entry cc).
  { unfold count_entry. destruct (N.eqb_spec cc 0) as [Z|Z].
    - destruct (hget n (p_map s)) as [hv|] eqn:H; auto. exfalso. eapply name_bound in H as [H|[H|[v H]]]; eauto.
      + apply times_in in H. unfold cc in Z. lia.
      + eapply NV; eauto.
    - apply (mi_array _ _ _ MI). apply times_in. unfold cc in Z. lia. }
  destruct (arr_act w1 w2 n s (now l) (first_keys [] (tops l)) cc KC TA (mi_root _ _ _ MI) H1) as (s' & w & E & E1 & E2 & E3 & E4 & E5 & M); auto.
  { intros C. apply first_keys_in. split; [|intros []]. apply arrays_tops, times_in. auto. }
  { destruct (now_declared l) as [ND NC]. destruct (now l) as [|m|m i] eqn:NW.
    - unfold cc. rewrite now_root; auto.
    - destruct (N.eq_dec cc 0) as [|Z]; auto. exfalso. apply PH, times_in. unfold cc in Z. lia.
    - split; auto. intros ->. unfold cc. lia. }
  exists s', (TArrayOf [w]). split.
  { replace (dline_text d) with (w0 ++ (lit "[[" ++ w1 ++ n ++ w2 ++ lit "]]") ++ w3 ++ com_text c)
      by (unfold d; cbn [dline_text]; rewrite <- !app_assoc; reflexivity).
    apply header_tail; auto.
    - intros x. simpl. lia.
    - apply arr_read; auto. }
  unfold elem_map in M.
  assert (NEL : forall x hv, hget x (p_map s) = Some hv -> x <> tname (TElem n cc)).
  { intros x hv H X. eapply header_keep; eauto. }
  assert (KEEP : forall x hv, hget x (p_map s) = Some hv -> x <> root_key -> x <> n -> hget x (p_map s') = Some hv).
  { intros x hv H N1 N2. rewrite M. destruct (list_eq_dec N.eq_dec x root_key); [congruence|].
    destruct (list_eq_dec N.eq_dec x n); [congruence|]. destruct (list_eq_dec N.eq_dec x (tname (TElem n cc))); [|auto].
    exfalso. eapply NEL; eauto. }
  assert (NROOT : forall a hv, good_addr a -> hget (atext a) (p_map s) = Some hv -> a <> (n, []) -> hget (atext a) (p_map s') = Some hv).
  { intros a hv G H N. apply KEEP; auto; [apply atext_root; auto|]. intros Q. rewrite (name_text n) in Q.
    apply atext_inj in Q; auto. apply good_name; auto. }
  assert (GNE : tname (TElem n cc) <> root_key) by (rewrite elem_text; apply atext_root, good_elem; auto).
  assert (GNN : tname (TElem n cc) <> n).
  { rewrite elem_text. rewrite (name_text n) at 2. intros Q. apply atext_inj in Q; [discriminate|apply good_elem; auto|apply good_name; auto]. }
  constructor; try congruence.
  - rewrite now_snoc. exact E5.
  - constructor.
    + unfold root_entry. rewrite M. destruct (list_eq_dec N.eq_dec root_key root_key); [|congruence].
      rewrite vinsert_first, tops_snoc. reflexivity.
    + rewrite TNS. intros x I. unfold table_entry. rewrite PRS.
      destruct (mi_table _ _ _ MI x I) as [id' H]. exists id'. rewrite (name_text x) at 1. apply NROOT.
      * apply good_name. apply (bare_tables l (TName x)); auto.
      * rewrite <- name_text. auto.
      * intros Q. inversion Q; subst. auto.
    + rewrite ANS. intros x I. unfold array_entry. rewrite ANS, times_app. destruct (list_eq_dec N.eq_dec x n) as [->|N].
      * rewrite M. destruct (list_eq_dec N.eq_dec n root_key); [congruence|]. destruct (list_eq_dec N.eq_dec n n); [|congruence].
        rewrite times_one. auto.
      * rewrite times_other, N.add_0_r by auto. apply in_app_or in I as [I|[<-|[]]]; [|congruence].
        rewrite (name_text x) at 1. apply NROOT.
        -- apply good_name. destruct B as [_ B _]. rewrite Forall_forall in B. auto.
        -- rewrite <- name_text. apply (mi_array _ _ _ MI x I).
        -- intros Q. inversion Q; subst. auto.
    + rewrite ANS. intros x i I. unfold elem_entry. rewrite PRS. rewrite times_app in I.
      destruct (taddr_dec (TElem x i) (TElem n cc)) as [Q|Q].
      * rewrite Q. rewrite M. destruct (list_eq_dec N.eq_dec (tname (TElem n cc)) root_key); [congruence|].
        destruct (list_eq_dec N.eq_dec (tname (TElem n cc)) n); [congruence|].
        destruct (list_eq_dec N.eq_dec (tname (TElem n cc)) (tname (TElem n cc))); [|congruence].
        rewrite keys_undeclared; auto. cbn [declared]. unfold cc. lia.
      * assert (I' : i < times x (array_names l)).
        { destruct (list_eq_dec N.eq_dec x n) as [->|N].
          - rewrite times_one in I. assert (i <> cc) by congruence. unfold cc in *. lia.
          - rewrite times_other in I by auto. lia. }
        rewrite elem_text. apply NROOT.
        -- apply good_elem. apply (bare_tables l (TElem x i)); auto.
        -- rewrite <- elem_text. apply (mi_elem _ _ _ MI x i I').
        -- discriminate.
    + rewrite PRS. eapply forall2_impl; [|exact (mi_cells _ _ _ MI)]. intros c0 [[t' k'] v'] [X1 X2]. cbn [fst snd] in *. split; auto.
      intros p y TT. destruct (X2 p y TT) as [X3 X4]. split; auto. unfold held in *. apply KEEP; auto.
      * intros Q. rewrite Q in X4. rewrite (mi_root _ _ _ MI) in X4. discriminate X4.
      * intros Q. rewrite Q in X4. rewrite H1 in X4. unfold count_entry in X4. destruct (cc =? 0); discriminate X4.
    + intros x hv H. rewrite M in H. destruct (list_eq_dec N.eq_dec x root_key); auto. right.
      destruct (list_eq_dec N.eq_dec x n) as [->|N].
      * exists (n, []). split; [apply Kn_array; rewrite ANS; auto|apply name_text].
      * destruct (list_eq_dec N.eq_dec x (tname (TElem n cc))) as [->|N2].
        -- exists (n, [PIdx cc]). split; [|apply elem_text]. apply Kn_elem. rewrite ANS, times_app, times_one. unfold cc. lia.
        -- apply (mi_only _ _ _ MI) in H as [H|(a & Ka & H)]; [congruence|]. exists a. split; auto. apply known_snoc; auto.
Qed.

Lemma step_blank : forall l cs s w c r, dinv l cs s -> dline_ok (DBlank w c) -> line_start r ->
  expression_p s (dline_text (DBlank w c) ++ r) =
    Ok (s, Done r {| e_ws := {| ws1 := w; ws2 := [] |}; e_keyval := None; e_table := None; e_comment := c |}) /\
  dinv (l ++ [DBlank w c]) cs s.
Proof.
  intros l cs s w c r [KC TY ER AE TA MI] OK R. split; [apply (istep_blank s w c OK r R)|].
  constructor; auto.
  - rewrite now_snoc. auto.
  - destruct MI as [M1 M2 M3 M4 M5 M6].
    assert (PRS : pairs (l ++ [DBlank w c]) = pairs l) by (rewrite pairs_snoc; apply app_nil_r).
    assert (TNS : table_names (l ++ [DBlank w c]) = table_names l) by (rewrite tnames_snoc; apply app_nil_r).
    assert (ANS : array_names (l ++ [DBlank w c]) = array_names l) by (rewrite anames_snoc; apply app_nil_r).
    constructor; unfold root_entry, table_entry, array_entry, elem_entry; rewrite ?PRS, ?TNS, ?ANS; auto.
    + rewrite tops_snoc, app_nil_r. auto.
    + intros x hv H. apply M6 in H as [H|(a & K & H)]; auto. right. exists a. split; auto. apply known_snoc; auto.
Qed.
