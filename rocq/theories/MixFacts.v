(** Which faults a value has, and which of them are reported. *)
From Coq Require Import Lia ZifyBool ZifyNat ZifyN.
From Verif Require Import Str Types Ast State Facts Spec DocSpec MixSpec FlatFacts NestFacts DotSpec DotFacts FaultSpec FaultFacts.

Definition under (r : list pstep) (f : vfault) : vfault := fold_right inside f r.
Fixpoint breaks (i : N) (prev : option value) (l : list value) : list vfault :=
  match l with
  | [] => []
  | x :: l' => (if other_type prev x then [BadElem [] i] else []) ++ breaks (i + 1) (Some x) l'
  end.
Definition own (v : value) : list vfault :=
  match v with
  | VDateTime d => if date_exists d then [] else [BadDate [] d]
  | VArray l => breaks 0 None l
  | _ => []
  end.

Lemma first_value_in : forall k l v, first_value k l = Some v -> In (k, v) l.
Proof.
  induction l as [|[a x] l IH]; cbn [first_value]; intros v H; [discriminate|]. destruct (Spec.same_key k a) eqn:Q; [|right; auto].
  apply same_key_eq in Q as ->. inversion H; subst. left; auto.
Qed.
Lemma in_dec_kind : forall l : list value, (forall a b, In a l -> In b l -> kind a = kind b) \/ exists a b, In a l /\ In b l /\ kind a <> kind b.
Proof.
  intros [|x l]; [left; intros a b []|]. destruct (Forall_Exists_dec (fun y => kind x = kind y) (fun y => N.eq_dec (kind x) (kind y)) l) as [F|E].
  - left. rewrite Forall_forall in F. assert (X : forall b, In b (x :: l) -> kind x = kind b) by (intros b [->|B]; auto).
    intros a b A B. rewrite <- (X a A). auto.
  - right. apply Exists_exists in E as (y & I & N). exists x, y. cbn [In]. auto.
Qed.
Lemma efaults_in : forall l i prev f, In f (efaults i prev l) <->
  In f (breaks i prev l) \/ exists j x g, nth_error l j = Some x /\ In g (vfaults x) /\ f = inside (PIdx (i + N.of_nat j)) g.
Proof.
  induction l as [|x l IH]; intros i prev f; cbn [efaults breaks].
  { split; [intros []|]. intros [[]|(j & x & g & E & _)]. destruct j; discriminate. }
  rewrite !in_app_iff, IH. split.
  - intros [H|[H|[H|(j & y & g & E & G & ->)]]]; auto.
    + apply in_map_iff in H as (g & <- & G). right. exists 0%nat, x, g. split; [reflexivity|]. split; auto. do 2 f_equal. lia.
    + right. exists (S j), y, g. split; auto. split; auto. do 2 f_equal. lia.
  - intros [[H|H]|(j & y & g & E & G & ->)]; auto. destruct j as [|j]; cbn [nth_error] in E.
    + inversion E; subst. left. apply in_map_iff. exists g. split; auto. do 2 f_equal. lia.
    + right. right. right. exists j, y, g. split; auto. split; auto. do 2 f_equal. lia.
Qed.
Lemma ffaults_in : forall l f, NoDup (map fst l) -> In f (ffaults l) <->
  exists k x g, first_value k l = Some x /\ In g (vfaults x) /\ f = inside (PKey k) g.
Proof.
  induction l as [|[k x] l IH]; intros f ND; cbn [ffaults map fst] in *.
  { split; [intros []|]. intros (k & x & g & E & _). discriminate. }
  inversion ND as [|? ? NI ND']; subst. rewrite in_app_iff, IH by auto. split.
  - intros [H|(k' & y & g & E & G & ->)].
    + apply in_map_iff in H as (g & <- & G). exists k, x, g. split; auto. cbn [first_value]. rewrite same_key_refl. auto.
    + exists k', y, g. split; auto. cbn [first_value]. destruct (Spec.same_key k' k) eqn:Q; auto. apply same_key_eq in Q as ->.
      apply first_value_none in NI. congruence.
  - intros (k' & y & g & E & G & ->). cbn [first_value] in E. destruct (Spec.same_key k' k) eqn:Q.
    + apply same_key_eq in Q as ->. inversion E; subst. left. apply in_map_iff. eauto.
    + right. exists k', y, g. auto.
Qed.

Definition vfaults_ok (v : value) : Prop := forall f,
  In f (vfaults v) <-> exists r u g, at_path v r = Some u /\ In g (own u) /\ f = under r g.

Lemma vfaults_at : forall v t, writes v t -> vfaults_ok v.
Proof.
  assert (H : forall v t, writes v t -> vfaults_ok v).
  2:exact H.
  apply (writes_mut (fun v t => vfaults_ok v) (fun vs t => Forall vfaults_ok vs) (fun kvs t => Forall (fun kv => vfaults_ok (snd kv)) kvs)); auto.
  - intros v t S f. rewrite (scalar_faults _ _ S). split; [intros []|]. intros (r & u & g & A & G & ->).
    destruct r as [|x r]. 2:{ destruct S; destruct x; discriminate. } inversion A; subst. pose proof (scalar_faults _ _ S) as Z.
    destruct S; try contradiction. cbn [vfaults own] in *. rewrite Z in G. auto.
  - intros d D f. cbn [vfaults]. split.
    + intros H. exists [], (VDateTime d), f. auto.
    + intros (r & u & g & A & G & ->). destruct r as [|[i|k] r]; try discriminate. inversion A; subst. auto.
  - intros vs g t G E F f. rewrite vfaults_array, efaults_in. split.
    + intros [B|(j & x & h & N & I & ->)].
      * exists [], (VArray vs), f. auto.
      * rewrite Forall_forall in F. pose proof (nth_error_In _ _ N) as IN. apply (F x IN) in I as (r & u & h' & A & O & ->).
        exists (PIdx (N.of_nat j) :: r), u, h'. cbn [at_path]. rewrite Nat2N.id, N. split; auto.
    + intros (r & u & h & A & O & ->). destruct r as [|[i|k] r]; cbn [at_path] in A; try discriminate.
      * inversion A; subst. auto.
      * destruct (nth_error vs (N.to_nat i)) as [x|] eqn:N; [|discriminate]. right. exists (N.to_nat i), x, (under r h). split; auto. split.
        { rewrite Forall_forall in F. apply (F x (nth_error_In _ _ N)). exists r, u, h. auto. } cbn [under fold_right]. do 2 f_equal. lia.
  - intros kvs w t B E F ND f. rewrite vfaults_inline, ffaults_in by auto. split.
    + intros (k & x & h & V & I & ->). rewrite Forall_forall in F. pose proof (first_value_in _ _ _ V) as IN.
      apply (F _ IN) in I as (r & u & h' & A & O & ->). exists (PKey k :: r), u, h'. cbn [at_path]. rewrite V. auto.
    + intros (r & u & h & A & O & ->). destruct r as [|[i|k] r]; cbn [at_path] in A; try discriminate.
      * inversion A; subst. destruct O.
      * destruct (first_value k kvs) as [x|] eqn:V; [|discriminate]. exists k, x, (under r h). split; auto. split; auto.
        rewrite Forall_forall in F. apply (F _ (first_value_in _ _ _ V)). exists r, u, h. auto.
Qed.

Lemma under_date : forall r f x d, under r f = BadDate x d -> exists y, f = BadDate y d /\ x = r ++ y.
Proof.
  induction r as [|a r IH]; intros f x d H; cbn [under fold_right] in H; [eauto|]. fold (under r f) in H.
  destruct (under r f) as [y e|] eqn:Q; [|discriminate]. inversion H; subst. destruct (IH _ _ _ Q) as (z & -> & ->). eauto.
Qed.
Lemma under_elem : forall r f x i, under r f = BadElem x i -> exists y, f = BadElem y i /\ x = r ++ y.
Proof.
  induction r as [|a r IH]; intros f x d H; cbn [under fold_right] in H; [eauto|]. fold (under r f) in H.
  destruct (under r f) as [y e|y e] eqn:Q; [discriminate|]. inversion H; subst. destruct (IH _ _ _ Q) as (z & -> & ->). eauto.
Qed.
Lemma under_date_nil : forall r d, under r (BadDate [] d) = BadDate r d.
Proof. induction r as [|a r IH]; intros d; auto. cbn [under fold_right]. fold (under r (BadDate [] d)). rewrite IH. auto. Qed.
Lemma under_elem_nil : forall r d, under r (BadElem [] d) = BadElem r d.
Proof. induction r as [|a r IH]; intros d; auto. cbn [under fold_right]. fold (under r (BadElem [] d)). rewrite IH. auto. Qed.

Lemma breaks_in : forall l i prev f, In f (breaks i prev l) -> exists j, f = BadElem [] j.
Proof.
  induction l as [|x l IH]; intros i prev f H; cbn [breaks] in H; [destruct H|]. apply in_app_iff in H as [H|H]; eauto.
  destruct (other_type prev x); [|destruct H]. destruct H as [<-|[]]. eauto.
Qed.
Lemma breaks_none : forall l i prev, breaks i prev l = [] <->
  (forall a b, In a l -> In b l -> kind a = kind b) /\ (forall u b, prev = Some u -> In b l -> kind u = kind b).
Proof.
  induction l as [|x l IH]; intros i prev; cbn [breaks].
  { split; auto. intros _. split; [intros a b []|intros u b _ []]. }
  split.
  - intros H. apply app_eq_nil in H as [H1 H2]. apply IH in H2 as [H2 H3].
    assert (X : forall b, In b l -> kind x = kind b) by (intros; eapply H3; eauto). split.
    + intros a b [->|A] [->|B]; auto. symmetry. auto.
    + intros u b -> [->|B]; cbn [other_type] in H1.
      * destruct (kind u =? kind b) eqn:Q; [lia|discriminate].
      * destruct (kind u =? kind x) eqn:Q; [|discriminate]. apply N.eqb_eq in Q. rewrite Q. auto.
  - intros [A B]. assert (breaks (i + 1) (Some x) l = []) as ->.
    { apply IH. split; [intros; apply A; right; auto|]. intros u b E I. inversion E; subst. apply A; [left; auto|right; auto]. }
    destruct prev as [u|]; cbn [other_type]; auto. rewrite (B u x) by (auto; left; auto). rewrite N.eqb_refl. auto.
Qed.

Lemma bad_date_at : forall v t r d, writes v t ->
  (In (BadDate r d) (vfaults v) <-> at_path v r = Some (VDateTime d) /\ date_exists d = false).
Proof.
  intros v t r d W. rewrite (vfaults_at v t W (BadDate r d)). split.
  - intros (x & u & g & A & O & E). symmetry in E. apply under_date in E as (y & -> & ->).
    destruct u as [| | |dt|l| |]; try contradiction; cbn [own] in O.
    + destruct (date_exists dt) eqn:Q; [destruct O|]. destruct O as [O|[]]. inversion O; subst. rewrite app_nil_r. auto.
    + apply breaks_in in O as [j O]. discriminate.
  - intros [A Q]. exists r, (VDateTime d), (BadDate [] d). split; auto. split; [cbn [own]; rewrite Q; left; auto|]. rewrite under_date_nil. auto.
Qed.
Lemma bad_elem_at : forall v t r, writes v t ->
  ((exists i, In (BadElem r i) (vfaults v)) <-> exists l a b, at_path v r = Some (VArray l) /\ In a l /\ In b l /\ kind a <> kind b).
Proof.
  intros v t r W. split.
  - intros [i I]. apply (vfaults_at v t W) in I as (x & u & g & A & O & E). symmetry in E. apply under_elem in E as (y & -> & ->).
    destruct u as [| | |dt|l| |]; try contradiction; cbn [own] in O.
    { destruct (date_exists dt); [destruct O|]. destruct O as [O|[]]; discriminate. }
    pose proof O as O'. apply breaks_in in O' as [j O']. inversion O'; subst. rewrite app_nil_r.
    destruct (in_dec_kind l) as [U|(a & b & IA & IB & K)].
    { assert (Z : breaks 0 None l = []) by (apply breaks_none; split; [exact U|discriminate]). rewrite Z in O. destruct O. }
    exists l, a, b. auto.
  - intros (l & a & b & A & IA & IB & K). destruct (breaks 0 None l) as [|g fs] eqn:Q.
    { apply breaks_none in Q as [U _]. destruct K. auto. }
    assert (G : In g (breaks 0 None l)) by (rewrite Q; left; auto). pose proof G as G'. apply breaks_in in G' as [j ->]. exists j.
    apply (vfaults_at v t W). exists r, (VArray l), (BadElem [] j). split; auto. split; auto. rewrite under_elem_nil. auto.
Qed.

(** ** The list of faults *)
Lemma noted_total : forall p ln l fs, exists fs', noted p ln fs l fs'.
Proof.
  intros p ln. induction l as [|f l IH]; intros fs; [eexists; apply Nt_nil|]. destruct f as [r d|r i].
  - destruct (IH (fs ++ [FDate p r ln d])) as [fs' H]. exists fs'. apply Nt_date. auto.
  - destruct fs as [|f fs _] using rev_ind.
    { destruct (IH [FMixed p r ln]) as [fs' H]. exists fs'. eapply Nt_first; eauto. }
    assert (HID : match f with FMixed q x _ => exists z, place_name p (r ++ [PIdx i]) = place_name q x ++ z | _ => True end ->
      exists fs', noted p ln (fs ++ [f]) (BadElem r i :: l) fs').
    { intros P. destruct (IH (fs ++ [f])) as [fs' H]. exists fs'. apply Nt_hidden; auto. }
    destruct f as [| |q x lx|]; try (apply HID; exact I).
    destruct (starts_with (place_name q x) (place_name p (r ++ [PIdx i]))) eqn:Q.
    + apply HID. apply starts_with_app. auto.
    + destruct (IH ((fs ++ [FMixed q x lx]) ++ [FMixed p r ln])) as [fs' H]. exists fs'. apply Nt_mixed; auto.
      intros z E. assert (starts_with (place_name q x) (place_name p (r ++ [PIdx i])) = true) by (apply starts_with_app; eauto). congruence.
Qed.
Lemma noted_dates : forall p ln fs l fs', noted p ln fs l fs' -> forall q x lx d,
  In (FDate q x lx d) fs' <-> In (FDate q x lx d) fs \/ (q = p /\ lx = ln /\ In (BadDate x d) l).
Proof.
  induction 1 as [fs|fs r d l fs' H IH|r i l fs' H IH|fs q x lx r i l fs' NP H IH|fs f r i l fs' HP H IH]; intros q' x' lx' d'; cbn [In] in *.
  - tauto.
  - rewrite IH, in_app_iff. cbn [In]. split.
    + intros [[I|[E|[]]]|I]; [auto| |tauto]. inversion E; subst. auto.
    + intros [I|(-> & -> & [E|I])]; auto. inversion E; subst. auto.
  - rewrite IH. cbn [In]. intuition discriminate.
  - rewrite IH, !in_app_iff. cbn [In]. intuition discriminate.
  - rewrite IH. intuition discriminate.
Qed.

Definition prefix_free (M : list str -> list pstep -> N -> Prop) : Prop := forall p r ln q x lx z,
  M p r ln -> M q x lx -> place_name p r = place_name q x ++ z -> q = p /\ x = r /\ lx = ln.
Lemma place_snoc : forall p r i, place_name p (r ++ [PIdx i]) = place_name p r ++ step_text (PIdx i).
Proof. intros p r i. unfold place_name, path_text. rewrite map_app, concat_app, app_assoc. cbn [map concat]. rewrite app_nil_r. auto. Qed.
Lemma two_prefixes : forall (a b x y : str), a ++ x = b ++ y -> (exists z, a = b ++ z) \/ exists z, b = a ++ z.
Proof.
  induction a as [|c a IH]; intros b x y H; [right; exists b; auto|]. destruct b as [|c' b]; [left; eexists; reflexivity|].
  inversion H; subst. destruct (IH _ _ _ H2) as [[z ->]|[z ->]]; [left|right]; eexists; reflexivity.
Qed.
Lemma noted_mixed : forall M p ln fs l fs', noted p ln fs l fs' -> prefix_free M ->
  (forall f, In f fs -> exists q x lx, f = FMixed q x lx /\ M q x lx) -> (forall f, In f l -> exists r i, f = BadElem r i /\ M p r ln) ->
  (forall f, In f fs' -> exists q x lx, f = FMixed q x lx /\ M q x lx) /\
  forall q x lx, In (FMixed q x lx) fs' <-> In (FMixed q x lx) fs \/ (q = p /\ lx = ln /\ exists i, In (BadElem x i) l).
Proof.
  intros M p ln fs l fs' H PF.
  assert (SN : forall fs f, (forall f, In f fs -> exists q x lx, f = FMixed q x lx /\ M q x lx) -> (exists q x lx, f = FMixed q x lx /\ M q x lx) ->
    forall g, In g (fs ++ [f]) -> exists q x lx, g = FMixed q x lx /\ M q x lx).
  { intros gs f A B g I. apply in_app_iff in I as [I|[<-|[]]]; auto. }
  induction H as [fs|fs r d l fs' H IH|r i l fs' H IH|fs q x lx r i l fs' NP H IH|fs f r i l fs' HP H IH]; intros F L.
  - split; auto. intros q x lx. split; auto. intros [I|(_ & _ & i & [])]. auto.
  - destruct (L _ (or_introl eq_refl)) as (r0 & i & E & _). discriminate.
  - destruct (L _ (or_introl eq_refl)) as (r0 & i0 & E & MM). inversion E; subst.
    destruct IH as [A B]; [|intros f I; apply L; right; auto|].
    { intros f [<-|[]]. eauto. }
    split; auto. intros q x lx. rewrite B. cbn [In]. split.
    + intros [[E'|[]]|(-> & -> & j & I)]; [inversion E'; subst; right|right]; eauto 6.
    + intros [[]|(-> & -> & j & [E'|I])]; [inversion E'; subst; auto|eauto 6].
  - destruct (L _ (or_introl eq_refl)) as (r0 & i0 & E & MM). inversion E; subst.
    destruct IH as [A B]; [apply SN; eauto|intros f I; apply L; right; auto|].
    split; auto. intros q' x' lx'. rewrite B, (in_app_iff (fs ++ _)). cbn [In]. split.
    + intros [[I|[E'|[]]]|(-> & -> & j & I)]; [auto|inversion E'; subst; right|right]; eauto 6.
    + intros [I|(-> & -> & j & [E'|I])]; [auto|inversion E'; subst; auto|eauto 6].
  - destruct (L _ (or_introl eq_refl)) as (r0 & i0 & E & MM). inversion E; subst.
    destruct IH as [A B]; [auto|intros g I; apply L; right; auto|].
    split; auto. intros q' x' lx'. rewrite B. cbn [In]. split.
    + intros [I|(-> & -> & j & I)]; eauto 7.
    + intros [I|(-> & -> & j & [E'|I])]; [auto| |eauto 6]. inversion E'; subst. left.
      destruct (F f) as (q & x & lx & -> & MQ); [apply in_app_iff; right; left; auto|]. destruct HP as [z HP]. rewrite place_snoc in HP.
      assert (q = p /\ x = x' /\ lx = ln) as (-> & -> & ->).
      { apply two_prefixes in HP as [[y HP]|[y HP]].
        - eapply PF; eauto.
        - destruct (PF _ _ _ _ _ _ _ MQ MM HP) as (-> & -> & ->). auto. }
      apply in_app_iff. right; left; auto.
Qed.

(** ** Documents *)
Lemma pair_snoc : forall ls nl d p ln v, pair_at (ls ++ [(nl, d)]) p ln v <-> pair_at ls p ln v \/
  match d with HPair _ k _ _ v' _ _ _ => p = last_head [] (map snd ls) ++ [k] /\ ln = 1 + line_feeds (hdoc_text ls ++ nl) /\ v = v' | _ => False end.
Proof.
  intros ls nl d p ln v. split.
  - intros (a & nl' & w0 & k & w1 & w2 & t & w3 & c & b & E & -> & ->). destruct b as [|x b _] using rev_ind.
    + apply app_inj_tail in E as [<- E]. inversion E; subst. right. auto.
    + change (a ++ (nl', HPair w0 k w1 w2 v t w3 c) :: b ++ [x]) with (a ++ ((nl', HPair w0 k w1 w2 v t w3 c) :: b) ++ [x]) in E.
      rewrite app_assoc in E. apply app_inj_tail in E as [-> E]. left. do 10 eexists. split; [reflexivity|]. auto.
  - intros [(a & nl' & w0 & k & w1 & w2 & t & w3 & c & b & -> & -> & ->)|H].
    + do 10 eexists. split; [rewrite <- app_assoc; reflexivity|]. auto.
    + destruct d; try contradiction. destruct H as (-> & -> & ->). do 10 eexists. split; [reflexivity|]. auto.
Qed.
Lemma pair_entry : forall ls p ln v, pair_at ls p ln v -> exists q k, p = q ++ [k] /\ In (q, k, v) (entries (map snd ls)).
Proof.
  induction ls as [|[nl d] ls IH] using rev_ind; intros p ln v H.
  { destruct H as (a & nl' & w0 & k & w1 & w2 & t & w3 & c & b & E & _). destruct a; discriminate. }
  rewrite map_app. cbn [map snd]. rewrite entries_snoc. apply pair_snoc in H as [H|H].
  - destruct (IH _ _ _ H) as (q & k & -> & I). exists q, k. split; auto. apply in_app_iff. auto.
  - destruct d; try contradiction. destruct H as (-> & -> & ->). do 2 eexists. split; [reflexivity|]. apply in_app_iff. right. left. auto.
Qed.
Lemma pair_line : forall ls, hdistinct (map snd ls) -> forall p ln v ln' v', pair_at ls p ln v -> pair_at ls p ln' v' -> ln = ln' /\ v = v'.
Proof.
  induction ls as [|[nl d] ls IH] using rev_ind; intros DS p ln v ln' v' A B.
  { destruct A as (a & nl' & w0 & k & w1 & w2 & t & w3 & c & b & E & _). destruct a; discriminate. }
  rewrite map_app in DS. cbn [map snd] in DS. pose proof (hdistinct_prefix _ _ DS) as DS'. pose proof (hd_keys _ DS) as ND. rewrite entries_snoc, map_app in ND.
  assert (NEW : forall w0 k w1 w2 u t w3 c, d = HPair w0 k w1 w2 u t w3 c -> forall l x, ~ pair_at ls (last_head [] (map snd ls) ++ [k]) l x).
  { intros w0 k w1 w2 u t w3 c -> l x H. apply pair_entry in H as (q & k' & E & I). apply app_inj_tail in E as [<- <-].
    cbn [map fst] in ND. apply NoDup_remove_2 in ND. rewrite app_nil_r in ND. apply ND. apply in_map_iff. exists (last_head [] (map snd ls), k, x).
    split; auto. }
  apply pair_snoc in A as [A|A]; apply pair_snoc in B as [B|B]; eauto.
  - destruct d as [|w0 k w1 w2 u t w3 c|]; try contradiction. destruct B as (-> & -> & ->). exfalso. eapply NEW; eauto.
  - destruct d as [|w0 k w1 w2 u t w3 c|]; try contradiction. destruct A as (-> & -> & ->). exfalso. eapply NEW; eauto.
  - destruct d; try contradiction. destruct A as (_ & -> & ->), B as (_ & -> & ->). auto.
Qed.

Record plain (ls : list (str * hline)) : Prop := {
  pl_ok : wdoc_ok ls; pl_distinct : hdistinct (map snd ls); pl_parents : parents_empty (map snd ls); pl_lines : Forall same_text (map snd ls) }.
Lemma pair_writes : forall ls p ln v, Forall wline_ok (map snd ls) -> pair_at ls p ln v -> exists t, writes v t.
Proof.
  intros ls p ln v F (a & nl & w0 & k & w1 & w2 & t & w3 & c & b & -> & _). rewrite map_app in F. apply Forall_app in F as [_ F].
  inversion F as [|? ? H _]; subst. exists t. apply H.
Qed.
Lemma plain_faults : forall ls, Forall wline_ok (map snd ls) -> hdistinct (map snd ls) -> parents_empty (map snd ls) -> Forall same_text (map snd ls) ->
  exists fs, faulty ls (map snd ls) fs false /\
    (forall p r ln d, In (FDate p r ln d) fs <-> date_at ls p r ln d /\ date_exists d = false) /\
    ((forall p r ln d, date_at ls p r ln d -> date_exists d = true) ->
     (forall M, prefix_free M -> (forall p r ln, mixed_at ls p r ln -> M p r ln) ->
      (forall f, In f fs -> exists p r ln, f = FMixed p r ln /\ M p r ln) /\
      forall p r ln, In (FMixed p r ln) fs <-> mixed_at ls p r ln)).
Proof.
  assert (NO : forall p ln v, ~ pair_at [] p ln v).
  { intros p ln v (a & nl' & w0 & k & w1 & w2 & t & w3 & c & b & E & _). destruct a; discriminate. }
  induction ls as [|[nl d] ls IH] using rev_ind; intros OK DS PE ST.
  { exists []. split; [constructor|]. split.
    - intros p r ln d. split; [intros []|]. intros [(v & P & _) _]. eapply NO; eauto.
    - intros _ M _ _. split; [intros f []|]. intros p r ln. split; [intros []|]. intros (v & l & a & b & P & _). eapply NO; eauto. }
  rewrite map_app in *. cbn [map snd] in *. pose proof (hdistinct_prefix _ _ DS) as DS'. pose proof (parents_prefix _ _ PE) as PE'.
  pose proof OK as OKA. apply Forall_app in OK as [OK OD]. pose proof (Forall_inv OD) as OD'. apply Forall_app in ST as [ST SD]. pose proof (Forall_inv SD) as SD'.
  destruct (IH OK DS' PE' ST) as (fs & FA & DA & MA).
  assert (EX : exists fs', match d with
    | HPair _ k _ _ v _ _ _ => noted (last_head [] (map snd ls) ++ [k]) (1 + line_feeds (hdoc_text ls ++ nl)) fs (vfaults v) fs'
    | _ => fs' = fs
    end).
  { destruct d; eauto. apply noted_total. }
  destruct EX as [fs' EX]. exists fs'. split; [eapply Fa_good; eauto|]. split.
  - intros p r ln e. unfold date_at. split.
    + intros I. assert (C : In (FDate p r ln e) fs \/ match d with HPair _ k _ _ v _ _ _ =>
        p = last_head [] (map snd ls) ++ [k] /\ ln = 1 + line_feeds (hdoc_text ls ++ nl) /\ In (BadDate r e) (vfaults v) | _ => False end).
      { destruct d; try (subst; auto; fail). eapply noted_dates in I; eauto. }
      destruct C as [C|C].
      * apply DA in C as [(v & P & A) Q]. split; auto. exists v. split; auto. apply pair_snoc. auto.
      * destruct d as [|w0 k w1 w2 v t w3 c|]; try contradiction. destruct C as (-> & -> & C). destruct OD' as (_ & _ & _ & _ & W & _).
        apply (bad_date_at v t r e W) in C as [C Q]. split; auto. exists v. split; auto. apply pair_snoc. right. auto.
    + intros [(v & P & A) Q]. apply pair_snoc in P as [P|P].
      * assert (C : In (FDate p r ln e) fs) by (apply DA; split; auto; exists v; auto).
        destruct d; try (subst; auto; fail). eapply noted_dates; eauto.
      * destruct d as [|w0 k w1 w2 u t w3 c|]; try contradiction. destruct P as (-> & -> & ->). destruct OD' as (_ & _ & _ & _ & W & _).
        eapply noted_dates; eauto. right. split; auto. split; auto. apply (bad_date_at u t r e W). auto.
  - intros GD M PF MM.
    assert (GD' : forall p r ln d, date_at ls p r ln d -> date_exists d = true).
    { intros p r ln e (v & P & A). eapply GD. exists v. split; eauto. apply pair_snoc. eauto. }
    assert (MM' : forall p r ln, mixed_at ls p r ln -> M p r ln).
    { intros p r ln (v & l & a & b & P & A). apply MM. exists v, l, a, b. split; auto. apply pair_snoc. auto. }
    destruct (MA GD' M PF MM') as [FM IM].
    destruct d as [w c|w0 k w1 w2 v t w3 c|w0 w1 n m w2 w3 c].
    1, 3: subst fs'; split; auto; intros p r ln; rewrite IM; unfold mixed_at; split; intros (v & l & a & b & P & A); exists v, l, a, b; split; auto;
      [apply pair_snoc; auto|apply pair_snoc in P as [P|[]]; auto].
    destruct OD' as (_ & _ & _ & _ & W & _). set (p0 := last_head [] (map snd ls) ++ [k]) in *. set (l0 := 1 + line_feeds (hdoc_text ls ++ nl)) in *.
    assert (PV : pair_at (ls ++ [(nl, HPair w0 k w1 w2 v t w3 c)]) p0 l0 v) by (apply pair_snoc; right; auto).
    assert (ME : forall x i, In (BadElem x i) (vfaults v) -> mixed_at (ls ++ [(nl, HPair w0 k w1 w2 v t w3 c)]) p0 x l0).
    { intros x i I. destruct (proj1 (bad_elem_at v t x W) (ex_intro _ i I)) as (l & a & b & A). exists v, l, a, b. auto. }
    destruct (noted_mixed M _ _ _ _ _ EX PF FM) as [F2 I2].
    { intros f I. destruct f as [r e|r i]; [|exists r, i; split; auto; eapply MM, ME; eauto]. apply (bad_date_at v t r e W) in I as [A Q].
      rewrite (GD p0 r l0 e) in Q; [discriminate|]. exists v. auto. }
    split; auto. intros p r ln. rewrite I2, IM. split.
    + intros [(u & l & a & b & P & A)|(-> & -> & i & I)]; eauto. exists u, l, a, b. split; auto. apply pair_snoc. auto.
    + intros (u & l & a & b & P & A). apply pair_snoc in P as [P|P]; [left; exists u, l, a, b; auto|]. destruct P as (-> & -> & ->).
      right. split; auto. split; auto. apply (bad_elem_at v t r W). exists l, a, b. auto.
Qed.
