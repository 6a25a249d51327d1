(** Documents with nested arrays of tables: the places of a document. *)
From Coq Require Import Lia ZifyBool ZifyNat ZifyN.
From Verif Require Import Str Regex Types Ast State Nom Keys Grammar Api Facts Spec.
From Verif Require Import FlatFacts DocSpec PathFacts SectFacts DotSpec DotFacts TreeSpec.

(** ** One more line *)
Lemma says_snoc : forall l d, says (l ++ [d]) = add_lines_view (says l) d.
Proof. intros. unfold says. rewrite fold_left_app. reflexivity. Qed.
Lemma says_front : forall a b v, says (a ++ b) = Some v -> exists u, says a = Some u.
Proof.
  intros a b. induction b as [|d b IH] using rev_ind; intros v H; [rewrite app_nil_r in H; eauto|].
  rewrite app_assoc, says_snoc in H. destruct (says (a ++ b)) as [u|] eqn:E; [eauto|discriminate].
Qed.
Definition topen (l : list tline) : list str := opened_arrays [] l.
Lemma open_app : forall a b o, opened_arrays o (a ++ b) = opened_arrays (opened_arrays o a) b.
Proof. induction a as [|[[]|] a IH]; intros b o; cbn [app opened_arrays]; auto. Qed.
Lemma open_snoc : forall l d, topen (l ++ [d]) =
  match d with
  | TArr _ _ n m _ _ _ => head_path n m
  | TPlain (HHead _ _ n m _ _ _) => removelast (head_path n m)
  | _ => topen l
  end.
Proof. intros. unfold topen. rewrite open_app. destruct d as [[]|]; reflexivity. Qed.
(** the header step of [strayed] *)
Definition stray_step (seen o : list str) (r : bool) (d : tline) : bool :=
  match d with
  | TArr _ _ n [] _ _ _ => if str_eqb (hd [] o) n then r else 2 <=? times n seen
  | TPlain (HHead _ _ n [] _ _ _) => false
  | _ => r
  end.
Lemma stray_app : forall l seen o r d, strayed seen o r (l ++ [d]) =
  stray_step (seen ++ top_arrays l) (opened_arrays o l) (strayed seen o r l) d.
Proof.
  induction l as [|x l IH]; intros seen o r d.
  - change (top_arrays []) with (@nil str). rewrite app_nil_r. cbn [app strayed opened_arrays]. destruct d as [[| |w0 w1 n [|y m] w2 w3 c]|w0 w1 n [|y m] w2 w3 c]; reflexivity.
  - cbn [app]. destruct x as [[| |w0 w1 n m w2 w3 c]|w0 w1 n [|y m] w2 w3 c]; cbn [strayed opened_arrays]; rewrite IH; try reflexivity.
    change (top_arrays (TArr w0 w1 n [] w2 w3 c :: l)) with (n :: top_arrays l). rewrite <- app_assoc. reflexivity.
Qed.
Definition tstray (l : list tline) : bool := strayed [] [] false l.
Lemma stray_snoc : forall l d, tstray (l ++ [d]) = stray_step (top_arrays l) (topen l) (tstray l) d.
Proof. intros. apply stray_app. Qed.
Fixpoint at_top (l : list tline) : bool :=
  match l with
  | [] => true
  | TPlain (HHead _ _ _ _ _ _ _) :: _ | TArr _ _ _ _ _ _ _ :: _ => false
  | _ :: l' => at_top l'
  end.
Definition heading (d : tline) : bool :=
  match d with TPlain (HHead _ _ _ _ _ _ _) | TArr _ _ _ _ _ _ _ => true | _ => false end.
Lemma top_snoc : forall l d, at_top (l ++ [d]) = at_top l && negb (heading d).
Proof.
  induction l as [|[[]|] l IH]; intros d; cbn [app at_top]; auto. destruct d as [[]|]; reflexivity.
Qed.
Lemma listed_app : forall a b t, listed t (a ++ b) = listed t a ++ listed (t && at_top a) b.
Proof.
  induction a as [|[[]|] a IH]; intros b b0; cbn [app at_top listed]; rewrite ?andb_true_r, ?IH, ?app_assoc, ?andb_false_r; auto.
Qed.
Definition tlist (l : list tline) : list str := listed true l.
Lemma tlist_snoc : forall l d, tlist (l ++ [d]) = tlist l ++
  match d with
  | TPlain (HPair _ k _ _ _ _ _ _) => if at_top l then [k] else []
  | TPlain (HHead _ _ n m _ _ _) => [last (head_path n m) []]
  | TArr _ _ n m _ _ _ => match m with [] => [n] | _ => [] end
  | TPlain (HBlank _ _) => []
  end.
Proof.
  intros. unfold tlist. rewrite listed_app. cbn [andb]. f_equal. destruct d as [[]|]; cbn [listed]; rewrite ?app_nil_r; reflexivity.
Qed.

(** ** Places *)
Notation pt := place_text.
Definition pdot (p : place) : str := match p with [] => [] | _ => pt p ++ lit "." end.
Definition ppar (p : place) : str := match p with [] => root_key | _ => pt p end.
(** the top, or a key with a path after it *)
Definition gplace (p : place) : Prop := good_path p /\ match p with PIdx _ :: _ => False | _ => True end.
Definition aplace (p : place) : addr := match p with PKey n :: r => (n, r) | _ => ([], []) end.

Lemma aplace_text : forall p, atext (aplace p) = pt p.
Proof. intros [|[i|n] r]; reflexivity. Qed.
Lemma aplace_good : forall p, p <> [] -> gplace p -> good_addr (aplace p).
Proof.
  intros [|[i|n] r] N [G F]; try contradiction. inversion G; subst. split; auto.
Qed.
Lemma gplace_key : forall p k, gplace p -> key_name k -> gplace (p ++ [PKey k]).
Proof.
  intros p k [G F] B. split; [apply Forall_app; split; auto; constructor; auto; constructor|]. destruct p as [|[i|n] r]; auto.
Qed.
Lemma gplace_idx : forall p i, gplace p -> p <> [] -> gplace (p ++ [PIdx i]).
Proof.
  intros p i [G F] N. split; [apply Forall_app; split; auto; constructor; [exact I|constructor]|]. destruct p as [|[j|n] r]; auto; congruence.
Qed.
Lemma gplace_path : forall p r, gplace p -> p <> [] -> good_path r -> gplace (p ++ r).
Proof.
  intros p r [G F] N R. split; [apply Forall_app; auto|]. destruct p as [|[j|n] p]; auto; congruence.
Qed.
Lemma snoc_place : forall (p : place) x, p ++ [x] <> [].
Proof. intros [|y p] x; discriminate. Qed.

Lemma pt_path : forall p r, p <> [] -> gplace p -> pt (p ++ r) = pt p ++ path_text r.
Proof.
  intros [|[i|n] p] r N [_ F]; try contradiction. cbn [app place_text]. rewrite path_app, app_assoc. auto.
Qed.
Lemma pt_key : forall p k, gplace p -> pt (p ++ [PKey k]) = pdot p ++ k.
Proof.
  intros p k G. destruct p as [|x p]; [cbn [app place_text pdot]; unfold path_text; cbn [map concat]; apply app_nil_r|].
  rewrite pt_path by (auto; discriminate). unfold pdot. rewrite <- app_assoc. f_equal. unfold path_text. cbn [map concat step_text].
  rewrite app_nil_r. auto.
Qed.
Lemma pt_idx : forall p i, p <> [] -> gplace p -> pt (p ++ [PIdx i]) = pt p ++ idx_str i.
Proof.
  intros p i N G. rewrite pt_path by auto. f_equal. unfold path_text. cbn [map concat step_text]. apply app_nil_r.
Qed.
Lemma pt_ne : forall p, p <> [] -> gplace p -> pt p <> [].
Proof. intros p N G. rewrite <- aplace_text. apply atext_ne, aplace_good; auto. Qed.
Lemma pt_root : forall p, p <> [] -> gplace p -> pt p <> root_key.
Proof. intros p N G. rewrite <- aplace_text. apply atext_root, aplace_good; auto. Qed.
Lemma pt_inj : forall p q, p <> [] -> q <> [] -> gplace p -> gplace q -> pt p = pt q -> p = q.
Proof.
  intros p q N M P Q E. rewrite <- !aplace_text in E. apply atext_inj in E; auto using aplace_good.
  destruct p as [|[i|n] p], q as [|[j|m] q]; try congruence; destruct P, Q; try contradiction. cbn [aplace] in E. congruence.
Qed.
Lemma ppar_pt : forall p, p <> [] -> ppar p = pt p.
Proof. intros [|x p] N; [congruence|reflexivity]. Qed.
Lemma ppar_inj : forall p q, gplace p -> gplace q -> ppar p = ppar q -> p = q.
Proof.
  intros p q P Q E. destruct p as [|x p], q as [|y q]; auto.
  - exfalso. apply (pt_root (y :: q)); auto; discriminate.
  - exfalso. apply (pt_root (x :: p)); auto; discriminate.
  - apply pt_inj; auto; discriminate.
Qed.
Lemma under_pt : forall p q, p <> [] -> q <> [] -> gplace p -> gplace q -> under (pt p) (pt q) -> exists r, q = p ++ r.
Proof.
  intros p q N M P Q U. rewrite <- !aplace_text in U. apply under_ext in U as [r E]; auto using aplace_good.
  exists r. destruct p as [|[i|n] p], q as [|[j|m] q]; try congruence; destruct P, Q; try contradiction.
  cbn [aplace] in E. unfold ext in E. cbn [fst snd] in E. inversion E; subst. reflexivity.
Qed.

(** ** Counting *)
Lemma count_snoc : forall a es x i, elem_count a (es ++ [(x, i)]) = elem_count a es + (if place_dec x a then 1 else 0).
Proof.
  intros. unfold elem_count. rewrite filter_app, app_length. cbn [filter fst]. destruct (place_dec x a); cbn [length]; lia.
Qed.
Lemma count_in : forall a es, 0 < elem_count a es <-> exists i, In (a, i) es.
Proof.
  intros a es. induction es as [|[x j] es IH] using rev_ind.
  - split; [intros H; exfalso; revert H; vm_compute; discriminate|intros [i []]].
  - rewrite count_snoc. split.
    + intros H. destruct (place_dec x a) as [->|N]; [exists j; apply in_or_app; right; left; auto|].
      destruct IH as [IH _]. destruct IH as [i I]; [lia|]. exists i. apply in_or_app; auto.
    + intros [i I]. apply in_app_or in I as [I|[I|[]]].
      * assert (0 < elem_count a es) by (apply IH; eauto). lia.
      * inversion I; subst. destruct (place_dec a a); [lia|congruence].
Qed.
Lemma names_snoc : forall p ns q n, names_at p (ns ++ [(q, n)]) = names_at p ns ++ (if place_dec q p then [n] else []).
Proof.
  intros. unfold names_at. rewrite filter_app, map_app. cbn [filter fst]. destruct (place_dec q p); reflexivity.
Qed.
Lemma names_in : forall p ns n, In n (names_at p ns) <-> In (p, n) ns.
Proof.
  intros. unfold names_at. rewrite in_map_iff. split.
  - intros ([q k] & E & I). apply filter_In in I as [I X]. cbn [fst snd] in *. destruct (place_dec q p); [|discriminate]. subst. auto.
  - intros I. exists (p, n). split; auto. apply filter_In. split; auto. cbn [fst]. destruct (place_dec p p); congruence.
Qed.

(** ** What holds of every document *)
(** the top, a table or an element of an array of tables *)
Inductive spot (v : view) : place -> Prop :=
| Sp_top : spot v []
| Sp_tab : forall x, In x v.(w_tables) -> spot v x
| Sp_elem : forall a i, In (a, i) v.(w_elems) -> spot v (a ++ [PIdx i]).

Record vok (v : view) : Prop := {
  vo_names : NoDup v.(w_names);
  vo_keys : NoDup (map fst v.(w_entries));
  vo_named : forall q k x, In (q, k, x) v.(w_entries) -> In (q, k) v.(w_names);
  vo_spot : forall q n, In (q, n) v.(w_names) -> spot v q /\ key_name n;
  vo_good : forall q, spot v q -> gplace q;
  vo_tables : forall x, In x v.(w_tables) -> exists y t, x = y ++ [PKey t] /\ spot v y /\ In (y, t) v.(w_names) /\ ~ In (y, t) (map fst v.(w_entries));
  vo_elems : forall a i, In (a, i) v.(w_elems) -> i < elem_count a v.(w_elems) /\ ~ In a v.(w_tables) /\
     exists y n, a = y ++ [PKey n] /\ spot v y /\ In (y, n) v.(w_names) /\ ~ In (y, n) (map fst v.(w_entries));
  vo_cur : spot v v.(w_cur) }.

Lemma entry_name : forall v q k x, vok v -> In (q, k, x) v.(w_entries) -> In (q, k) (map fst v.(w_entries)).
Proof. intros v q k x _ I. apply (in_map fst) in I. exact I. Qed.

(** how a place other than the top is made *)
Lemma spot_parts : forall v x, vok v -> spot v x -> x = [] \/ exists y n t, x = y ++ PKey n :: t /\
  (t = [] \/ exists i, t = [PIdx i] /\ In (y ++ [PKey n], i) v.(w_elems)) /\
  spot v y /\ In (y, n) v.(w_names) /\ ~ In (y, n) (map fst v.(w_entries)).
Proof.
  intros v x OK [|x' I|a i I]; auto; right.
  - destruct (vo_tables _ OK _ I) as (y & t & -> & S & A & B). exists y, t, []. auto.
  - destruct (vo_elems _ OK _ _ I) as (_ & _ & y & n & -> & S & A & B). exists y, n, [PIdx i]. rewrite <- app_assoc.
    split; [reflexivity|]. split; eauto.
Qed.

Lemma spot_name : forall v, vok v -> forall k x p n r, (length x <= k)%nat -> spot v x -> x = p ++ PKey n :: r ->
  In (p, n) v.(w_names) /\ ~ In (p, n) (map fst v.(w_entries)).
Proof.
  intros v OK. induction k as [|k IH]; intros x p n r L S E.
  - destruct x; [|cbn in L; lia]. destruct p; discriminate E.
  - destruct (spot_parts v x OK S) as [->|(y & m & t & EX & T & SY & I & J)]; [destruct p; discriminate E|].
    rewrite EX in E. destruct (app_eq_app _ _ _ _ E) as (z & [[Z1 Z2]|[Z1 Z2]]).
    + destruct z as [|a z].
      * rewrite app_nil_r in Z1. subst p. cbn [app] in Z2. inversion Z2; subst. auto.
      * cbn [app] in Z2. inversion Z2; subst. eapply IH; [|exact SY|reflexivity].
        rewrite !app_length in L. cbn [length] in L. rewrite app_length. cbn [length]. lia.
    + destruct z as [|a z].
      * rewrite app_nil_r in Z1. subst p. cbn [app] in Z2. inversion Z2; subst. auto.
      * exfalso. cbn [app] in Z2. inversion Z2; subst. destruct T as [T|(i & T & _)]; destruct z as [|b z]; try discriminate T.
        destruct z; discriminate T.
Qed.
Lemma spot_named : forall v p n r, vok v -> spot v (p ++ PKey n :: r) -> In (p, n) v.(w_names) /\ ~ In (p, n) (map fst v.(w_entries)).
Proof. intros v p n r OK S. eapply spot_name; eauto. Qed.
Lemma spot_counted : forall v, vok v -> forall k x a j r, (length x <= k)%nat -> spot v x -> x = a ++ PIdx j :: r -> j < elem_count a v.(w_elems).
Proof.
  intros v OK. induction k as [|k IH]; intros x a j r L S E.
  - destruct x; [|cbn in L; lia]. destruct a; discriminate E.
  - destruct (spot_parts v x OK S) as [->|(y & m & t & EX & T & SY & I & J)]; [destruct a; discriminate E|].
    rewrite EX in E. destruct (app_eq_app _ _ _ _ E) as (z & [[Z1 Z2]|[Z1 Z2]]).
    + destruct z as [|b z]; [discriminate Z2|]. cbn [app] in Z2. inversion Z2; subst. eapply IH; [|exact SY|reflexivity].
      rewrite !app_length in L. cbn [length] in L. rewrite app_length. cbn [length]. lia.
    + destruct z as [|b z]; [discriminate Z2|]. cbn [app] in Z2. inversion Z2; subst. destruct T as [T|(i & T & TI)].
      { destruct z; discriminate T. }
      destruct z as [|b z]; [|destruct z; discriminate T]. cbn [app] in T. inversion T; subst.
      apply (vo_elems _ OK _ _ TI).
Qed.
Lemma spot_index : forall v a j r, vok v -> spot v (a ++ PIdx j :: r) -> j < elem_count a v.(w_elems).
Proof. intros v a j r OK S. eapply spot_counted; eauto. Qed.

(** what is found in a document *)
Inductive tknown (v : view) : place -> Prop :=
| TK_tab : forall x, In x v.(w_tables) -> tknown v x
| TK_elem : forall a i, In (a, i) v.(w_elems) -> tknown v (a ++ [PIdx i])
| TK_arr : forall a i, In (a, i) v.(w_elems) -> tknown v a
| TK_val : forall q k x r w, In (q, k, x) v.(w_entries) -> good_path r -> at_path x r = Some w -> tknown v (q ++ PKey k :: r).

Lemma tknown_good : forall v y, vok v -> tknown v y -> gplace y /\ y <> [].
Proof.
  intros v y OK [x I|a i I|a i I|q k x r w I G W].
  - split; [apply (vo_good _ OK), Sp_tab; auto|]. destruct (vo_tables _ OK _ I) as (z & t & -> & _). apply snoc_place.
  - split; [apply (vo_good _ OK), Sp_elem; auto|]. apply snoc_place.
  - destruct (vo_elems _ OK _ _ I) as (_ & _ & z & n & -> & S & M & _). split; [|apply snoc_place].
    apply gplace_key; [apply (vo_good _ OK); auto|]. apply (vo_spot _ OK _ _ M).
  - split; [|destruct q; discriminate]. destruct (vo_spot _ OK _ _ (vo_named _ OK _ _ _ I)) as [S B].
    replace (q ++ PKey k :: r) with ((q ++ [PKey k]) ++ r) by (rewrite <- app_assoc; auto).
    apply gplace_path; auto using snoc_place. apply gplace_key; auto. apply (vo_good _ OK); auto.
Qed.
Lemma tknown_named : forall v p n r, vok v -> spot v p -> tknown v (p ++ PKey n :: r) -> In (p, n) v.(w_names).
Proof.
  intros v p n r OK S K. remember (p ++ PKey n :: r) as y eqn:E. destruct K as [x I|a i I|a i I|q k x r' w I G W].
  - eapply spot_named; eauto. rewrite <- E. apply Sp_tab; auto.
  - eapply (spot_named v p n r); eauto. rewrite <- E. apply Sp_elem; auto.
  - apply (spot_named v p n (r ++ [PIdx i])); auto. replace (p ++ PKey n :: r ++ [PIdx i]) with (a ++ [PIdx i]).
    + apply Sp_elem; auto.
    + rewrite E, <- app_assoc. reflexivity.
  - destruct (vo_spot _ OK _ _ (vo_named _ OK _ _ _ I)) as [SQ B].
    destruct (app_eq_app _ _ _ _ E) as (z & [[Z1 Z2]|[Z1 Z2]]).
    + destruct z as [|b z]; cbn [app] in Z2; inversion Z2; subst.
      * rewrite app_nil_r in *. eapply vo_named; eauto.
      * eapply spot_named; eauto.
    + destruct z as [|b z]; cbn [app] in Z2; inversion Z2; subst.
      * rewrite app_nil_r in *. eapply vo_named; eauto.
      * exfalso. apply (spot_named _ _ _ _ OK S). apply (in_map fst) in I. exact I.
Qed.
Lemma tknown_counted : forall v a i j r, vok v -> In (a, i) v.(w_elems) -> tknown v (a ++ PIdx j :: r) -> j < elem_count a v.(w_elems).
Proof.
  intros v a i j r OK EI K. remember (a ++ PIdx j :: r) as y eqn:E. destruct K as [x I|b i' I|b i' I|q k x r' w I G W].
  - apply (spot_index v a j r OK). rewrite <- E. apply Sp_tab; auto.
  - apply (spot_index v a j r OK). rewrite <- E. apply Sp_elem; auto.
  - apply (spot_index v a j (r ++ [PIdx i']) OK). replace (a ++ PIdx j :: r ++ [PIdx i']) with (b ++ [PIdx i']).
    + apply Sp_elem; auto.
    + rewrite E, <- app_assoc. reflexivity.
  - destruct (vo_spot _ OK _ _ (vo_named _ OK _ _ _ I)) as [SQ B].
    destruct (app_eq_app _ _ _ _ E) as (z & [[Z1 Z2]|[Z1 Z2]]).
    + destruct z as [|b z]; cbn [app] in Z2; inversion Z2; subst. apply (spot_index v a j z OK). auto.
    + destruct z as [|b z]; cbn [app] in Z2; inversion Z2; subst. exfalso.
      assert (S : spot v ((q ++ PKey k :: z) ++ [PIdx i])) by (apply Sp_elem; auto).
      rewrite <- app_assoc in S. apply (spot_named _ _ _ _ OK S). apply (in_map fst) in I. exact I.
Qed.
(** a value is not at the place of a table, an element or an array of tables, or above it *)
Lemma val_apart : forall v q k x r y, vok v -> In (q, k, x) v.(w_entries) -> spot v y -> y <> q ++ PKey k :: r.
Proof.
  intros v q k x r y OK I S ->. apply (spot_named _ _ _ _ OK S). apply (in_map fst) in I. exact I.
Qed.
Lemma val_arr : forall v q k x r a i, vok v -> In (q, k, x) v.(w_entries) -> In (a, i) v.(w_elems) -> a <> q ++ PKey k :: r.
Proof.
  intros v q k x r a i OK I J ->. eapply (val_apart v q k x (r ++ [PIdx i])); eauto using Sp_elem. rewrite <- app_assoc. auto.
Qed.
Lemma val_same : forall v q k x r q' k' x' r', vok v -> In (q, k, x) v.(w_entries) -> In (q', k', x') v.(w_entries) ->
  q ++ PKey k :: r = q' ++ PKey k' :: r' -> q = q' /\ k = k' /\ r = r' /\ x = x'.
Proof.
  intros v q k x r q' k' x' r' OK I I' E.
  destruct (vo_spot _ OK _ _ (vo_named _ OK _ _ _ I)) as [SQ _]. destruct (vo_spot _ OK _ _ (vo_named _ OK _ _ _ I')) as [SQ' _].
  assert (X : q = q' /\ k = k' /\ r = r').
  { destruct (app_eq_app _ _ _ _ E) as (z & [[Z1 Z2]|[Z1 Z2]]).
    - destruct z as [|b z]; cbn [app] in Z2; inversion Z2; subst; [rewrite app_nil_r; auto|]. exfalso.
      exact (val_apart v q' k' x' z _ OK I' SQ eq_refl).
    - destruct z as [|b z]; cbn [app] in Z2; inversion Z2; subst; [rewrite app_nil_r; auto|]. exfalso.
      exact (val_apart v q k x z _ OK I SQ' eq_refl). }
  destruct X as (-> & -> & ->). split; auto. split; auto. split; auto.
  pose proof (vo_keys _ OK) as D. revert D I I'. generalize (w_entries v). induction l as [|[[t0 k0] v0] ps IH]; intros D A B; [destruct A|].
  cbn [map fst] in D. inversion D; subst. destruct A as [A|A], B as [B|B].
  - congruence.
  - exfalso. inversion A; subst. apply H1. apply (in_map fst) in B. exact B.
  - exfalso. inversion B; subst. apply H1. apply (in_map fst) in A. exact A.
  - auto.
Qed.

(** ** The open arrays of tables *)
Definition stack := list (str * N).
Definition sp (st : stack) : place := flat_map (fun x => [PKey (fst x); PIdx (snd x)]) st.
Lemma sp_app : forall a b, sp (a ++ b) = sp a ++ sp b.
Proof. intros. unfold sp. apply flat_map_app. Qed.
Lemma sp_snoc : forall st n i, sp (st ++ [(n, i)]) = (sp st ++ [PKey n]) ++ [PIdx i].
Proof. intros. rewrite sp_app, <- app_assoc. reflexivity. Qed.
Definition stk (v : view) (st : stack) : Prop := forall st1 n i st2, st = st1 ++ (n, i) :: st2 ->
  In (sp st1 ++ [PKey n], i) v.(w_elems) /\ elem_count (sp st1 ++ [PKey n]) v.(w_elems) = i + 1.
Lemma stk_front : forall v a b, stk v (a ++ b) -> stk v a.
Proof. intros v a b H st1 n i st2 ->. apply (H st1 n i (st2 ++ b)). rewrite <- app_assoc. reflexivity. Qed.
Lemma stk_spot : forall v st, stk v st -> spot v (sp st).
Proof.
  intros v st H. destruct st as [|[n i] st] using rev_ind; [apply Sp_top|]. rewrite sp_snoc. apply Sp_elem.
  apply (H st n i []). auto.
Qed.
Lemma stk_resolve : forall v b a, vok v -> stk v (a ++ b) -> resolve v (sp a) (map fst b) = Some (sp (a ++ b)).
Proof.
  intros v b. induction b as [|[n i] b IH]; intros a OK H; [rewrite app_nil_r; reflexivity|].
  cbn [map fst resolve]. destruct (H a n i b eq_refl) as [I C]. destruct (vo_elems _ OK _ _ I) as (_ & NT & _).
  destruct (in_dec place_dec (sp a ++ [PKey n]) (w_tables v)) as [X|_]; [contradiction|]. rewrite C.
  assert (i + 1 =? 0 = false) as -> by lia. replace (i + 1 - 1) with i by lia. rewrite <- sp_snoc.
  replace (a ++ (n, i) :: b) with ((a ++ [(n, i)]) ++ b) in * by (rewrite <- app_assoc; auto). apply IH; auto.
Qed.

(** ** One more line keeps all this *)
Lemma vok_none : vok no_lines.
Proof.
  constructor; cbn [no_lines w_names w_entries w_tables w_elems w_cur map]; try (intros; contradiction).
  - constructor.
  - constructor.
  - intros q [| |]; cbn in *; try contradiction. split; [apply Forall_nil|exact I].
  - apply Sp_top.
Qed.
Lemma spot_mono : forall v v' x, (forall t, In t v.(w_tables) -> In t v'.(w_tables)) -> (forall e, In e v.(w_elems) -> In e v'.(w_elems)) ->
  spot v x -> spot v' x.
Proof. intros v v' x A B [|y I|a i I]; [apply Sp_top|apply Sp_tab; auto|apply Sp_elem; auto]. Qed.
Lemma nodup_snoc : forall A (l : list A) x, NoDup l -> ~ In x l -> NoDup (l ++ [x]).
Proof.
  intros A l x. induction l as [|y l IH]; intros D N; cbn [app].
  - constructor; [intros []|constructor].
  - inversion D; subst. constructor.
    + intros I. apply in_app_or in I as [I|[I|[]]]; [auto|]. apply N. left; auto.
    + apply IH; auto. intros I. apply N. right; auto.
Qed.

Lemma vok_pair : forall v k x, vok v -> key_name k -> ~ In (v.(w_cur), k) v.(w_names) ->
  vok (View (v.(w_entries) ++ [(v.(w_cur), k, x)]) (v.(w_names) ++ [(v.(w_cur), k)]) v.(w_tables) v.(w_elems) v.(w_cur)).
Proof.
  intros v k x OK B N. set (v' := View _ _ _ _ _).
  assert (SM : forall y, spot v y <-> spot v' y) by (intros y; split; apply spot_mono; auto).
  assert (KEEP : forall y t, In (y, t) (w_names v) -> ~ In (y, t) (map fst (w_entries v)) -> ~ In (y, t) (map fst (w_entries v'))).
  { intros y t A C D. cbn [v' w_entries] in D. rewrite map_app in D. apply in_app_or in D as [D|[D|[]]]; auto. cbn [fst] in D. inversion D; subst. auto. }
  constructor; cbn [v' w_names w_entries w_tables w_elems w_cur].
  - apply nodup_snoc; auto. apply (vo_names _ OK).
  - rewrite map_app. apply nodup_snoc; [apply (vo_keys _ OK)|]. intros I. apply in_map_iff in I as ([[q j] y] & E & I). cbn [fst] in E. inversion E; subst.
    apply N. eapply vo_named; eauto.
  - intros q j y I. apply in_app_or in I as [I|[I|[]]]; apply in_or_app; [left; eapply vo_named; eauto|]. inversion I; subst. right. left; auto.
  - intros q j I. apply in_app_or in I as [I|[I|[]]].
    + destruct (vo_spot _ OK _ _ I). split; auto. apply SM; auto.
    + inversion I; subst. split; auto. apply SM, (vo_cur _ OK).
  - intros q S. apply (vo_good _ OK), SM; auto.
  - intros y I. destruct (vo_tables _ OK _ I) as (z & t & E & S & A & C). exists z, t. split; auto. split; [apply SM; auto|]. split; [apply in_or_app; auto|auto].
  - intros a i I. destruct (vo_elems _ OK _ _ I) as (L & NT & z & t & E & S & A & C). split; auto. split; auto.
    exists z, t. split; auto. split; [apply SM; auto|]. split; [apply in_or_app; auto|auto].
  - apply SM, (vo_cur _ OK).
Qed.
Lemma vok_table : forall v p t, vok v -> spot v p -> key_name t -> ~ In (p, t) v.(w_names) ->
  vok (View v.(w_entries) (v.(w_names) ++ [(p, t)]) (v.(w_tables) ++ [p ++ [PKey t]]) v.(w_elems) (p ++ [PKey t])).
Proof.
  intros v p t OK S B N. set (v' := View _ _ _ _ _).
  assert (SM : forall y, spot v y -> spot v' y) by (intros y; apply spot_mono; auto; intros z I; apply in_or_app; auto).
  assert (SI : forall y, spot v' y -> spot v y \/ y = p ++ [PKey t]).
  { intros y [|z I|a i I]; [left; apply Sp_top| |left; apply Sp_elem; auto]. cbn [v' w_tables] in I. apply in_app_or in I as [I|[I|[]]]; auto. left. apply Sp_tab; auto. }
  assert (NE : ~ In (p, t) (map fst (w_entries v))).
  { intros I. apply in_map_iff in I as ([[q j] y] & E & I). cbn [fst] in E. inversion E; subst. apply N. eapply vo_named; eauto. }
  constructor; cbn [v' w_names w_entries w_tables w_elems w_cur].
  - apply nodup_snoc; auto. apply (vo_names _ OK).
  - apply (vo_keys _ OK).
  - intros q j y I. apply in_or_app. left. eapply vo_named; eauto.
  - intros q j I. apply in_app_or in I as [I|[I|[]]].
    + destruct (vo_spot _ OK _ _ I). split; auto.
    + inversion I; subst. split; auto.
  - intros q X. apply SI in X as [X|X]; [apply (vo_good _ OK); auto|subst q]. apply gplace_key; auto. apply (vo_good _ OK); auto.
  - intros y I. apply in_app_or in I as [I|[J|[]]]; [|subst y].
    + destruct (vo_tables _ OK _ I) as (z & u & E & X & A & C). exists z, u. split; auto. split; auto. split; [apply in_or_app; auto|auto].
    + exists p, t. split; auto. split; auto. split; auto. apply in_or_app. right. left; auto.
  - intros a i I. destruct (vo_elems _ OK _ _ I) as (L & NT & z & u & E & X & A & C). split; auto. split.
    + intros J. apply in_app_or in J as [J|[J|[]]]; auto. subst a. apply app_inj_tail in J as [-> J]. inversion J; subst. auto.
    + exists z, u. split; auto. split; auto. split; [apply in_or_app; auto|auto].
  - apply Sp_tab. apply in_or_app. right. left; auto.
Qed.
Lemma vok_array : forall v p n, vok v -> spot v p -> key_name n -> ~ In (p, n) v.(w_names) ->
  vok (View v.(w_entries) (v.(w_names) ++ [(p, n)]) v.(w_tables) (v.(w_elems) ++ [(p ++ [PKey n], 0)]) ((p ++ [PKey n]) ++ [PIdx 0])).
Proof.
  intros v p n OK S B N. set (a := p ++ [PKey n]). set (v' := View _ _ _ _ _).
  assert (SM : forall y, spot v y -> spot v' y) by (intros y; apply spot_mono; auto; intros z I; apply in_or_app; auto).
  assert (SI : forall y, spot v' y -> spot v y \/ y = a ++ [PIdx 0]).
  { intros y [|z I|b i I]; [left; apply Sp_top|left; apply Sp_tab; auto|]. cbn [v' w_elems] in I. apply in_app_or in I as [I|[I|[]]]; [left; apply Sp_elem; auto|].
    inversion I; subst. auto. }
  assert (NE : ~ In (p, n) (map fst (w_entries v))).
  { intros I. apply in_map_iff in I as ([[q j] y] & E & I). cbn [fst] in E. inversion E; subst. apply N. eapply vo_named; eauto. }
  assert (GA : gplace a) by (apply gplace_key; auto; apply (vo_good _ OK); auto).
  constructor; cbn [v' w_names w_entries w_tables w_elems w_cur].
  - apply nodup_snoc; auto. apply (vo_names _ OK).
  - apply (vo_keys _ OK).
  - intros q j y I. apply in_or_app. left. eapply vo_named; eauto.
  - intros q j I. apply in_app_or in I as [I|[I|[]]].
    + destruct (vo_spot _ OK _ _ I). split; auto.
    + inversion I; subst. split; auto.
  - intros q X. apply SI in X as [X|X]; [apply (vo_good _ OK); auto|subst q]. apply gplace_idx; auto. apply snoc_place.
  - intros y I. destruct (vo_tables _ OK _ I) as (z & u & E & X & A & C). exists z, u. split; auto. split; auto. split; [apply in_or_app; auto|auto].
  - intros b i I. rewrite count_snoc. apply in_app_or in I as [I|[I|[]]].
    + destruct (vo_elems _ OK _ _ I) as (L & NT & z & u & E & X & A & C). split; [lia|]. split; auto.
      exists z, u. split; auto. split; auto. split; [apply in_or_app; auto|auto].
    + inversion I; subst. destruct (place_dec a a); [|congruence]. split; [lia|]. split.
      * intros J. destruct (vo_tables _ OK _ J) as (z & u & E & _ & X & _). apply app_inj_tail in E as [<- E]. inversion E; subst. auto.
      * exists p, n. split; auto. split; auto. split; auto. apply in_or_app. right. left; auto.
  - apply Sp_elem. apply in_or_app. right. left; auto.
Qed.
Lemma vok_element : forall v a, vok v -> 0 < elem_count a v.(w_elems) ->
  vok (View v.(w_entries) v.(w_names) v.(w_tables) (v.(w_elems) ++ [(a, elem_count a v.(w_elems))]) (a ++ [PIdx (elem_count a v.(w_elems))])).
Proof.
  intros v a OK C. set (v' := View _ _ _ _ _). apply count_in in C as [i0 I0].
  assert (SM : forall y, spot v y -> spot v' y) by (intros y; apply spot_mono; auto; intros z I; apply in_or_app; auto).
  assert (SI : forall y, spot v' y -> spot v y \/ y = a ++ [PIdx (elem_count a v.(w_elems))]).
  { intros y [|z I|b i I]; [left; apply Sp_top|left; apply Sp_tab; auto|]. cbn [v' w_elems] in I. apply in_app_or in I as [I|[I|[]]]; [left; apply Sp_elem; auto|].
    inversion I; subst. auto. }
  destruct (vo_elems _ OK _ _ I0) as (L0 & NT0 & z0 & u0 & E0 & X0 & A0 & C0).
  constructor; cbn [v' w_names w_entries w_tables w_elems w_cur].
  - apply (vo_names _ OK).
  - apply (vo_keys _ OK).
  - apply (vo_named _ OK).
  - intros q j I. destruct (vo_spot _ OK _ _ I). split; auto.
  - intros q X. apply SI in X as [X|X]; [apply (vo_good _ OK); auto|subst q].
    apply gplace_idx; [|subst a; apply snoc_place]. subst a. apply gplace_key; [apply (vo_good _ OK); auto|]. apply (vo_spot _ OK _ _ A0).
  - intros y I. destruct (vo_tables _ OK _ I) as (z & u & E & X & A & D). exists z, u. split; auto.
  - intros b i I. rewrite count_snoc. apply in_app_or in I as [I|[I|[]]].
    + destruct (vo_elems _ OK _ _ I) as (L & NT & z & u & E & X & A & D). split; [lia|]. split; auto. exists z, u. split; auto.
    + inversion I; subst b i. destruct (place_dec a a); [|congruence]. split; [lia|]. split; auto. exists z0, u0. split; auto.
  - apply Sp_elem. apply in_or_app. right. left; auto.
Qed.
