(** Editing sessions on the three kinds of documents. *)
From Coq Require Import Lia ZifyBool ZifyNat ZifyN.
From Verif Require Import Str Regex Types Ast State Nom Keys Grammar Api Facts Spec.
From Verif Require Import RegexFacts NomFacts TypesFacts DateFacts NumFacts StringFacts ScalarFacts.
From Verif Require Import LineFacts FlatFacts RoundTrip ParseFacts WalkFacts IdFacts WriteFacts SetFacts ApiSpec ApiFacts UpdateFacts.
From Verif Require Import DocSpec PathFacts NestFacts SectFacts LookFacts RereadFacts DotSpec DotFacts TreeSpec TreeView TreeFacts SessSpec LayFacts SessFacts.

Lemma held_valof : forall m x y, hget x m = held y -> valof m x = Some y.
Proof. intros m x y H. unfold valof. rewrite H. reflexivity. Qed.

Lemma forall2_weaken : forall A B (P Q : A -> B -> Prop) a b, (forall x y, P x y -> Q x y) -> Forall2 P a b -> Forall2 Q a b.
Proof. intros A B P Q a b H F. induction F; constructor; auto. Qed.

(** ** Tables and arrays of tables with one name *)
Definition dok (ls : list (str * dline)) : Prop := lines_ok ls /\ distinct (body ls) /\ plain_headers (body ls).
Definition dpair (d : dline) : option (str * str * str * str * value * str * str * option str) :=
  match d with DLine w0 k w1 w2 v t w3 c => Some (w0, k, w1, w2, v, t, w3, c) | _ => None end.

Lemma dkey_app : forall l1 m k, dkey (l1 ++ m) k = address (table_after (its_table l1) (rev (array_names (body l1)) ++ []) (body m)) k.
Proof. intros. unfold dkey. rewrite map_app, after_app. reflexivity. Qed.

Lemma aof_ext : forall l t k v t' k' v' p, distinct l -> In (t, k, v) (pairs l) -> In (t', k', v') (pairs l) ->
  aof t' k' = ext (aof t k) p -> t = t' /\ k = k'.
Proof.
  intros l t k v t' k' v' p D I J E. pose proof D as [D1 D2 D3 D4].
  assert (DT : declared l t) by (eapply pairs_declared; eauto).
  assert (DT' : declared l t') by (eapply pairs_declared; eauto).
  assert (AT : forall n i, i < times n (array_names l) -> In n (array_names l)) by (intros n i A1; apply times_in; lia).
  destruct t as [|m|m j], t' as [|m'|m' j']; cbn [aof ext fst snd app declared] in *; inversion E; subst; auto;
    try (exfalso; destruct (D4 _ _ I) as [X Y]; solve [apply X; eauto|apply Y; eauto]).
Qed.
Lemma pair_good : forall ls t k v, lines_ok ls -> In (t, k, v) (pairs (body ls)) -> good_addr (aof t k).
Proof.
  intros ls t k v OK I. pose proof (bare_lines _ OK) as B.
  apply aof_good; [eapply bare_tables; eauto; eapply pairs_declared; eauto|].
  destruct B as [_ _ B]. rewrite Forall_forall in B. apply (B _ I).
Qed.
Lemma under_pair : forall ls t k v t' k' v', lines_ok ls -> distinct (body ls) -> In (t, k, v) (pairs (body ls)) -> In (t', k', v') (pairs (body ls)) ->
  under (address t k) (address t' k') -> t = t' /\ k = k'.
Proof.
  intros ls t k v t' k' v' OK DS I J U. rewrite <- !aof_text in U. apply under_ext in U as [p U]; eauto using pair_good.
  eapply aof_ext; eauto.
Qed.

Lemma pairs_split : forall ls t0 seen t k v, In (t, k, v) (placed t0 seen (body ls)) -> exists l1 nl w0 w1 w2 tx w3 c l2,
  ls = l1 ++ (nl, DLine w0 k w1 w2 v tx w3 c) :: l2 /\ t = table_after t0 seen (body l1).
Proof.
  induction ls as [|[nl d] ls IH]; intros t0 seen t k v I; [destruct I|].
  destruct d as [w c|w0 k0 w1 w2 v0 t1 w3 c|w0 w1 n w2 w3 c|w0 w1 n w2 w3 c]; cbn [body map snd placed] in I; fold (body ls) in I.
  2:{ destruct I as [I|I].
      - injection I as -> -> ->. exists [], nl, w0, w1, w2, t1, w3, c, ls. split; reflexivity.
      - destruct (IH _ _ _ _ _ I) as (l1 & nl' & a1 & a2 & a3 & a4 & a5 & a6 & l2 & -> & ->).
        exists ((nl, DLine w0 k0 w1 w2 v0 t1 w3 c) :: l1). do 8 eexists. split; reflexivity. }
  all: destruct (IH _ _ _ _ _ I) as (l1 & nl' & a1 & a2 & a3 & a4 & a5 & a6 & l2 & -> & ->); eexists (_ :: l1); do 8 eexists; split; reflexivity.
Qed.

Lemma dsession : forall ovf ls us ls' m', lines_ok ls -> distinct (body ls) -> plain_headers (body ls) ->
  (forall n key v, gives DLine dkey ls n key v -> DocSpec.filled v) -> edits DLine dkey ls [] us ls' m' ->
  session DLine dkey ovf lines_text ls us ls' m'.
Proof.
  intros ovf ls us ls' m' OK DS PH. assert (DK : dok ls) by (split; auto). clear OK DS PH. revert ovf ls us ls' m' DK. apply (session_holds dline DLine dpair dline_text dkey dok reads_as).
  - reflexivity.
  - reflexivity.
  - intros [] w0' k' w1' w2' v' t' w3' c' E; try discriminate E. injection E as <- <- <- <- <- <- <- <-. reflexivity.
  - intros. rewrite !dkey_app. reflexivity.
  - intros l1 nl w0 k w1 w2 v t w3 c m nl' w0' k' w1' w2' v' t' w3' c' l3 l2 (OK & DS & _).
    pose proof (pairs_value l2 l3 nl' w0' k' w1' w2' w3' c' v' t') as PV. unfold with_value in PV.
    pose proof (pairs_value l1 m nl w0 k w1 w2 w3 c v t) as PV1. unfold with_value in PV1. fold l2 in PV1.
    assert (I1 : In (its_table l1, k, v) (pairs (body l2))) by (rewrite PV1; apply in_or_app; right; left; auto).
    assert (I2 : In (its_table l2, k', v') (pairs (body (l2 ++ (nl', DLine w0' k' w1' w2' v' t' w3' c') :: l3)))) by (rewrite PV; apply in_or_app; right; left; auto).
    assert (I3 : In (its_table l1, k, v) (pairs (body (l2 ++ (nl', DLine w0' k' w1' w2' v' t' w3' c') :: l3)))) by (rewrite PV; apply in_or_app; left; auto).
    assert (ND : ~ (its_table l1 = its_table l2 /\ k = k')).
    { intros [E1 E2]. pose proof (di_keys _ DS) as N. rewrite PV, map_app in N. cbn [map fst] in N. apply NoDup_remove_2 in N. apply N.
      apply in_or_app. left. apply in_map_iff. exists (its_table l1, k, v). split; [cbn [fst]; congruence|auto]. }
    change (dkey l1 k) with (address (its_table l1) k). change (dkey l2 k') with (address (its_table l2) k').
    split; intros U; apply ND; [eapply under_pair; eauto|]. eapply under_pair in U as [E1 E2]; eauto.
  - intros until l2. intros (OK & _). apply ok_lines in OK. unfold body in OK. rewrite map_app in OK. apply Forall_app in OK as [_ OK]. apply Forall_inv in OK.
    cbn [snd dline_ok] in OK. tauto.
  - intros until t'. intros (OK & DS & PH) SP. split; [|split].
    + eapply ok_value; eauto.
    + eapply distinct_value; eauto.
    + eapply plain_value; eauto.
  - intros ls (OK & _) ->. destruct OK.
  - intros until l2. intros (OK & DS & PH) E. change (dkey l1 k) with (address (its_table l1) k) in E. rewrite <- aof_text in E.
    revert E. apply atext_root. eapply pair_good; [exact OK|]. apply pairs_here.
  - intros ovf ls (OK & DS & PH). apply lines_parse; auto.
  - intros ls s _ RA. pose proof (ra_root _ _ RA) as F. eapply forall2_weaken; [|exact F]. intros [nl d] e [A [B C]]. split; auto. split; auto.
    cbn [snd] in *. destruct d; exact C.
  - intros until p. intros ls (OK & DS & _) RA GP. apply (look_value _ _ OK DS RA (its_table l1) k v p); auto. apply pairs_here.
  - intros until cl. intros ls (OK & DS & _) RA ER LR EC. pose proof (mi_cells _ _ _ (ra_map _ _ RA)) as F. rewrite ER in F. unfold ls in F.
    pose proof (pairs_value l1 l2 nl w0 k w1 w2 w3 c v t) as PV. unfold with_value in PV. rewrite PV in F.
    unfold cells_in in F. rewrite flat_map_app in F. cbn [flat_map] in F. rewrite EC in F. cbn [app] in F.
    apply forall2_middle in F as [TV F].
    + split; [exact TV|]. intros p y _ Y. apply held_valof. apply F; auto.
    + pose proof (ra_root _ _ RA) as R. rewrite ER in R. unfold ls in R. apply Forall2_app_inv_l in R as (q1 & q2 & R1 & R2 & RT).
      inversion R2 as [|? e' ? q2' L R3]; subst. apply same_split in RT as (<- & _ & _); [apply (cells_count l1 r1 R1 TRoot [])|].
      rewrite LR. clear - R1. induction R1; cbn [length]; auto.
  - intros until x. intros ls (OK & DS & _) (OK' & _) RA RA' U. apply (others_same _ _ _ _ _ _ _ _ _ v t v' t' s s' OK OK' DS RA RA' x).
    intros p _ _ E. apply U. rewrite E. apply under_path.
  - intros ls s x c (OK & DS & _) RA FR V. unfold valof in V. destruct (hget x (p_map s)) as [hv|] eqn:H; [|discriminate].
    apply (mi_only _ _ _ (ra_map _ _ RA)) in H as K. destruct K as [->|(a & K & ->)].
    + rewrite (mi_root _ _ _ (ra_map _ _ RA)) in H. injection H as <-. discriminate V.
    + destruct K as [n J|n J|n i J|t k v p w J G W].
      * destruct (mi_table _ _ _ (ra_map _ _ RA) n J) as [id E]. unfold atext in H. cbn [fst snd] in H. change (path_text []) with (@nil N) in H. rewrite app_nil_r in H.
        rewrite H in E. injection E as ->. cbn [hv_value] in V. injection V as <-. reflexivity.
      * pose proof (mi_array _ _ _ (ra_map _ _ RA) n J) as E. unfold atext in H. cbn [fst snd] in H. change (path_text []) with (@nil N) in H. rewrite app_nil_r in H.
        rewrite H in E. injection E as ->. discriminate V.
      * pose proof (mi_elem _ _ _ (ra_map _ _ RA) n i J) as E. rewrite elem_text in E. rewrite H in E. injection E as ->. discriminate V.
      * exfalso. destruct (pairs_split _ _ _ _ _ _ J) as (l1 & nl & w0 & w1 & w2 & tx & w3 & cc & l2 & -> & ->).
        eapply FR; [reflexivity|]. rewrite atext_ext, aof_text. apply under_path.

Qed.

(** ** Dotted headers *)
Definition hok (ls : list (str * hline)) : Prop := hdoc_ok ls /\ hdistinct (hbody ls) /\ parents_empty (hbody ls).
Definition hreads (ls : list (str * hline)) (s : pst) : Prop := hmap (hbody ls) (cells_in s.(p_root)) s.(p_map) /\ Forall2 hline_read ls s.(p_root).
Definition hpair_of (d : hline) : option (str * str * str * str * value * str * str * option str) :=
  match d with HPair w0 k w1 w2 v t w3 c => Some (w0, k, w1, w2, v, t, w3, c) | _ => None end.
Lemma last_cur : forall l p, last_head p l = cur_from p l.
Proof. induction l as [|d l IH]; intros p; [reflexivity|]. destruct d; cbn [last_head cur_from]; apply IH. Qed.
Lemma hkey_cur : forall l k, hkey l k = dotted_name (hcur (hbody l) ++ [k]).
Proof. intros. unfold hkey, hcur. rewrite last_cur. reflexivity. Qed.

Section HSwap.
  Variables (l1 l2 : list (str * hline)) (nl w0 k w1 w2 w3 : str) (c : option str).
  Let doc v t := l1 ++ (nl, HPair w0 k w1 w2 v t w3 c) :: l2.
  Let T := hcur (hbody l1).
  Lemma hbody_value : forall v t, hbody (doc v t) = hbody l1 ++ HPair w0 k w1 w2 v t w3 c :: hbody l2.
  Proof. intros. unfold doc, hbody. rewrite map_app. reflexivity. Qed.
  Lemma entries_value : forall v t, entries (hbody (doc v t)) = entries (hbody l1) ++ (T, k, v) :: entries_from T (hbody l2).
  Proof. intros. rewrite hbody_value. unfold entries. rewrite entries_app. reflexivity. Qed.
  Lemma heads_value : forall v t, heads (hbody (doc v t)) = heads (hbody l1) ++ heads (hbody l2).
  Proof. intros. rewrite hbody_value, heads_app. reflexivity. Qed.
  Lemma named_value : forall q v t v' t', named_in q [] (hbody (doc v t)) = named_in q [] (hbody (doc v' t')).
  Proof. intros. rewrite !hbody_value, !named_app. reflexivity. Qed.
  Lemma table_of_value : forall v t v' t' q, table_of (hbody (doc v t)) q -> table_of (hbody (doc v' t')) q.
  Proof. intros v t v' t' q [x I]. exists x. rewrite heads_value in *. exact I. Qed.
  Lemma entries_other : forall v t v' t' p0 k0 v0, In (p0, k0, v0) (entries (hbody (doc v t))) ->
    In (p0, k0, v0) (entries (hbody (doc v' t'))) \/ (p0, k0, v0) = (T, k, v).
  Proof. intros until v0. rewrite !entries_value, !in_app_iff. cbn [In]. intuition. Qed.
  Lemma entries_here : forall v t, In (T, k, v) (entries (hbody (doc v t))).
  Proof. intros. rewrite entries_value, in_app_iff. cbn [In]. auto. Qed.
  Lemma hdistinct_value : forall v t v' t', hdistinct (hbody (doc v t)) -> hdistinct (hbody (doc v' t')).
  Proof.
    intros v t v' t' [D1 D2 D3]. constructor.
    - rewrite !entries_value, !map_app in *. exact D1.
    - rewrite heads_value in *. exact D2.
    - intros p0 k0 v0 I X. apply (table_of_value v' t' v t) in X. apply (entries_other v' t' v t) in I as [I|I]; [eapply D3; eauto|].
      injection I as -> -> ->. revert X. eapply D3. apply entries_here.
  Qed.
  Lemma parents_value : forall v t v' t', parents_empty (hbody (doc v t)) -> parents_empty (hbody (doc v' t')).
  Proof.
    intros v t v' t' H a b x0 x1 n m x2 x3 cc p x E HP NP k0 v0 I. rewrite hbody_value in E.
    apply two_splits in E as [(_ & E & _)|[(m0 & E & EB)|(m0 & E & EB)]]; [discriminate E| |].
    - subst a. assert (J : exists v1, In (p, k0, v1) (entries (hbody l1 ++ HPair w0 k w1 w2 v t w3 c :: m0))).
      { unfold entries in *. rewrite entries_app in I |- *. cbn [entries_from] in *. apply in_app_or in I as [I|[I|I]].
        - exists v0. apply in_or_app. auto.
        - injection I as <- <- <-. exists v. apply in_or_app. right. left. reflexivity.
        - exists v0. apply in_or_app. right. right. exact I. }
      destruct J as [v1 J]. refine (H _ _ _ _ _ _ _ _ _ _ _ _ HP NP _ _ J). rewrite hbody_value, EB, <- app_assoc. reflexivity.
    - refine (H _ _ _ _ _ _ _ _ _ _ _ _ HP NP _ _ I). rewrite hbody_value, E, <- app_assoc. reflexivity.
  Qed.
  Lemma hok_value : forall v t v' t', hdoc_ok (doc v t) -> spells v' t' -> hdoc_ok (doc v' t').
  Proof.
    intros v t v' t' OK SP. unfold doc in *. destruct l1 as [|[n0 d0] r]; cbn [app hdoc_ok] in *.
    - destruct OK as (A & (B1 & B2 & B3 & B4 & B5 & B6 & B7) & C). split; auto. split; [|exact C]. cbn [hline_ok]. auto 8.
    - destruct OK as (A & B & C). split; auto. split; auto. apply Forall_app in C as [C1 C2]. apply Forall_app. split; auto.
      inversion C2 as [|? ? C3 C4]; subst. apply Forall_cons; auto. cbn [fst snd hline_ok] in *.
      destruct C3 as (X & (B1 & B2 & B3 & B4 & B5 & B6 & B7)). auto 10.
  Qed.
  Lemma hcount : forall l r, Forall2 hline_read l r -> forall t, length (cells_in r) = length (entries_from t (hbody l)).
  Proof.
    intros l r H. induction H as [|[n d] e l r [N [_ M]] F IH]; intros t; [reflexivity|].
    cbn [fst snd] in *. cbn [cells_in flat_map hbody map snd]. rewrite app_length. unfold ecell.
    destruct d; cbn [entries_from]; try (rewrite M; apply IH). destruct M as [cl ->]. cbn [e_keyval length Nat.add]. f_equal. apply IH.
  Qed.

  Lemma hothers_half : forall v t v' t' s s' cs cs', hdoc_ok (doc v t) -> hdoc_ok (doc v' t') -> hdistinct (hbody (doc v t)) ->
    hmap (hbody (doc v t)) cs s.(p_map) -> hmap (hbody (doc v' t')) cs' s'.(p_map) ->
    forall x ch, ~ under (dotted_name (T ++ [k])) x -> get_children s x = Some ch -> get_children s' x = Some ch /\ get_value s' x = get_value s x.
  Proof.
    intros v t v' t' s s' cs cs' OK OK' DS RA RA' x ch NX H.
    assert (DS' : hdistinct (hbody (doc v' t'))) by (eapply hdistinct_value; exact DS).
    pose proof (hok_bare _ (hdoc_lines _ OK)) as B. pose proof (hok_bare _ (hdoc_lines _ OK')) as B'.
    assert (NIL : forall l cs z, hbare l -> hmap l cs z.(p_map) -> get_value z [] = Ok None).
    { intros l cs0 z O Z. unfold get_value. destruct (hget [] (p_map z)) as [hv|] eqn:HG; auto. exfalso.
      apply (hm_only _ _ _ Z) in HG as [HG|(a & K & HG)]; [discriminate|].
      apply (atext_ne a); auto. eapply hknown_good; eauto. }
    assert (KN : forall q, table_keys q (hbody (doc v t)) = table_keys q (hbody (doc v' t'))) by (intros; unfold table_keys; erewrite named_value; eauto).
    pose proof (hlook_only _ _ _ _ _ RA H) as Y. destruct Y as [->|[->|[(q & NQ & TQ & ->)|(p0 & k0 & v0 & r & w & I & G & AP & ->)]]].
    - rewrite (NIL _ _ _ B RA), (NIL _ _ _ B' RA'). split; auto. rewrite <- H, (hlook_root _ _ _ RA), (hlook_root _ _ _ RA'), KN. auto.
    - assert (GC : forall z l cs, hmap l cs z.(p_map) -> get_children z root_key = get_children z [] /\
        get_value z root_key = if in_dec (list_eq_dec (list_eq_dec N.eq_dec)) [] (heads l) then Panic else Ok None).
      { intros z l cs0 Z. split; [reflexivity|]. destruct (hm_tab _ _ _ Z [] (or_introl eq_refl)) as (pv & X & Y). unfold dent in X. cbn [dpar] in X.
        unfold get_value. rewrite X. cbn [hv_value]. destruct (in_dec _ _ _) as [J|J]; destruct Y as [[Y [id ->]]|[Y ->]]; try contradiction; reflexivity. }
      destruct (GC _ _ _ RA) as [A1 A2], (GC _ _ _ RA') as [A1' A2']. rewrite A2, A2', !heads_value. split; auto.
      rewrite <- H, A1, A1', (hlook_root _ _ _ RA), (hlook_root _ _ _ RA'), KN. auto.
    - destruct (hlook_table _ _ _ q B RA NQ TQ) as (X1 & X2 & X3).
      destruct (hlook_table _ _ _ q B' RA' NQ (table_of_value _ _ _ _ _ TQ)) as (Y1 & Y2 & Y3).
      rewrite Y1, <- KN, <- X1. split; auto. rewrite heads_value in *.
      destruct (in_dec (list_eq_dec (list_eq_dec N.eq_dec)) q (heads (hbody l1) ++ heads (hbody l2))) as [J|J];
        [rewrite (X2 J), (Y2 J)|rewrite (X3 J), (Y3 J)]; auto.
    - apply (entries_other v t v' t') in I as J. destruct J as [J|J].
      + destruct (hlook_value _ _ _ _ _ _ _ B DS RA I G) as [A1 A2]. destruct (hlook_value _ _ _ _ _ _ _ B' DS' RA' J G) as [A1' A2'].
        rewrite A1, A1', A2', <- A2. auto.
      + injection J as -> -> ->. exfalso. apply NX. apply under_path.
  Qed.
  Lemma hothers_same : forall v t v' t' s s' cs cs', hdoc_ok (doc v t) -> hdoc_ok (doc v' t') -> hdistinct (hbody (doc v t)) ->
    hmap (hbody (doc v t)) cs s.(p_map) -> hmap (hbody (doc v' t')) cs' s'.(p_map) ->
    forall x, ~ under (dotted_name (T ++ [k])) x -> get_children s' x = get_children s x /\ get_value s' x = get_value s x.
  Proof.
    intros v t v' t' s s' cs cs' OK OK' DS RA RA' x NX.
    assert (DS' : hdistinct (hbody (doc v' t'))) by (eapply hdistinct_value; exact DS).
    destruct (get_children s x) as [ch|] eqn:A.
    - eapply hothers_half with (v := v) (v' := v'); eauto.
    - destruct (get_children s' x) as [ch|] eqn:A'.
      + destruct (hothers_half v' t' v t s' s _ _ OK' OK DS' RA' RA x ch) as [X Y]; auto. congruence.
      + destruct x as [|a x]; [rewrite (hlook_root _ _ _ RA) in A; discriminate|].
        unfold get_children, get_value in *. destruct (hget (a :: x) (p_map s)), (hget (a :: x) (p_map s')); try discriminate. auto.
  Qed.
End HSwap.

Lemma entries_split : forall ls t0 p k v, In (p, k, v) (entries_from t0 (hbody ls)) -> exists l1 nl w0 w1 w2 tx w3 c l2,
  ls = l1 ++ (nl, HPair w0 k w1 w2 v tx w3 c) :: l2 /\ p = cur_from t0 (hbody l1).
Proof.
  induction ls as [|[nl d] ls IH]; intros t0 p k v I; [destruct I|].
  destruct d as [w c|w0 k0 w1 w2 v0 t1 w3 c|w0 w1 n m w2 w3 c]; cbn [hbody map snd entries_from] in I; fold (hbody ls) in I.
  2:{ destruct I as [I|I].
      - injection I as -> -> ->. exists [], nl, w0, w1, w2, t1, w3, c, ls. split; reflexivity.
      - destruct (IH _ _ _ _ I) as (l1 & nl' & a1 & a2 & a3 & a4 & a5 & a6 & l2 & -> & ->).
        exists ((nl, HPair w0 k0 w1 w2 v0 t1 w3 c) :: l1). do 8 eexists. split; reflexivity. }
  all: destruct (IH _ _ _ _ I) as (l1 & nl' & a1 & a2 & a3 & a4 & a5 & a6 & l2 & -> & ->); eexists (_ :: l1); do 8 eexists; split; reflexivity.
Qed.

Lemma under_entry : forall l p k v p' k' v', hbare l -> hdistinct l -> In (p, k, v) (entries l) -> In (p', k', v') (entries l) ->
  under (dotted_name (p ++ [k])) (dotted_name (p' ++ [k'])) -> p = p' /\ k = k'.
Proof.
  intros l p k v p' k' v' B DS I J U. rewrite <- !aq_text in U. apply under_ext in U as [r U]; [|apply aq_good; [apply snoc_ne|eapply bare_entry; eauto]|apply aq_good; [apply snoc_ne|eapply bare_entry; eauto]].
  assert (E : ext (aq (p' ++ [k'])) [] = ext (aq (p ++ [k])) r). { rewrite <- U. unfold ext. rewrite app_nil_r. destruct (aq (p' ++ [k'])); reflexivity. }
  destruct (DotFacts.apart _ _ _ _ _ _ _ _ _ DS J I E). auto.
Qed.

Lemma hsession : forall ovf ls us ls' m', hdoc_ok ls -> hdistinct (hbody ls) -> parents_empty (hbody ls) ->
  (forall n key v, gives HPair hkey ls n key v -> DocSpec.filled v) -> edits HPair hkey ls [] us ls' m' ->
  session HPair hkey ovf hdoc_text ls us ls' m'.
Proof.
  intros ovf ls us ls' m' OK DS PH. assert (DK : hok ls) by (split; auto). clear OK DS PH. revert ovf ls us ls' m' DK.
  apply (session_holds hline HPair hpair_of hline_text hkey hok hreads).
  - reflexivity.
  - reflexivity.
  - intros [] w0' k' w1' w2' v' t' w3' c' E; try discriminate E. injection E as <- <- <- <- <- <- <- <-. reflexivity.
  - intros. rewrite !hkey_cur, !hbody_value. unfold hcur. rewrite !cur_app. reflexivity.
  - intros l1 nl w0 k w1 w2 v t w3 c m nl' w0' k' w1' w2' v' t' w3' c' l3 l2 (OK & DS & _).
    pose proof (entries_value l2 l3 nl' w0' k' w1' w2' w3' c' v' t') as PV.
    assert (I1 : In (hcur (hbody l1), k, v) (entries (hbody l2))) by apply entries_here.
    pose proof (entries_here l2 l3 nl' w0' k' w1' w2' w3' c' v' t') as I2.
    assert (I3 : In (hcur (hbody l1), k, v) (entries (hbody (l2 ++ (nl', HPair w0' k' w1' w2' v' t' w3' c') :: l3)))) by (rewrite PV; apply in_or_app; left; auto).
    assert (ND : ~ (hcur (hbody l1) = hcur (hbody l2) /\ k = k')).
    { intros [E1 E2]. pose proof (hd_keys _ DS) as N. rewrite PV, map_app in N. cbn [map fst] in N. apply NoDup_remove_2 in N. apply N.
      apply in_or_app. left. apply in_map_iff. exists (hcur (hbody l1), k, v). split; [cbn [fst]; congruence|auto]. }
    pose proof (hok_bare _ (hdoc_lines _ OK)) as B. rewrite !hkey_cur.
    split; intros U; apply ND; [eapply under_entry; eauto|]. eapply under_entry in U as [E1 E2]; eauto.
  - intros until l2. intros (OK & _). apply hdoc_lines in OK. unfold hbody in OK. rewrite map_app in OK. apply Forall_app in OK as [_ OK]. apply Forall_inv in OK.
    cbn [snd hline_ok] in OK. tauto.
  - intros until t'. intros (OK & DS & PH) SP. split; [|split].
    + eapply hok_value; eauto.
    + eapply hdistinct_value; eauto.
    + eapply parents_value; eauto.
  - intros ls (OK & _) ->. destruct OK.
  - intros until l2. intros (OK & DS & PH). rewrite hkey_cur. apply dotted_root. eapply bare_entry; [apply hok_bare, hdoc_lines; eauto|apply entries_here].
  - intros ovf ls (OK & DS & PH). apply hdoc_parse; auto.
  - intros ls s _ RA. destruct RA as [_ F]. eapply forall2_weaken; [|exact F]. intros [nl d] e [A [B C]]. split; auto. split; auto.
    cbn [snd] in *. destruct d; exact C.
  - intros until p. intros ls (OK & DS & _) [RA _] GP. rewrite hkey_cur. eapply hlook_value; eauto; [apply hok_bare, hdoc_lines; auto|]. apply entries_here.
  - intros until cl. intros ls (OK & DS & _) [RA RR] ER LR EC. pose proof (hm_cells _ _ _ RA) as F. rewrite ER in F. unfold ls in F.
    rewrite entries_value in F.
    unfold cells_in in F. rewrite flat_map_app in F. cbn [flat_map] in F. rewrite EC in F. cbn [app] in F.
    apply forall2_middle in F as [TV F].
    + split; [exact TV|]. intros p y _ Y. rewrite hkey_cur. apply held_valof. apply F; auto.
    + rewrite ER in RR. unfold ls in RR. apply Forall2_app_inv_l in RR as (q1 & q2 & R1 & R2 & RT).
      inversion R2 as [|? e' ? q2' L R3]; subst. apply same_split in RT as (<- & _ & _); [apply (hcount l1 r1 R1 [])|].
      rewrite LR. clear - R1. induction R1; cbn [length]; auto.
  - intros until x. intros ls (OK & DS & _) (OK' & _) [RA _] [RA' _] U. rewrite hkey_cur in U.
    eapply (hothers_same _ _ _ _ _ _ _ _ _ v t v' t' s s'); eauto.
  - intros ls s x c (OK & DS & _) [RA _] FR V. unfold valof in V. destruct (hget x (p_map s)) as [hv|] eqn:H; [|discriminate].
    assert (TT : forall q, reached (hbody ls) q -> hget (dpar q) (p_map s) = Some hv -> c_val c = TTable).
    { intros q RQ HQ. destruct (hm_tab _ _ _ RA q RQ) as (pv & X & Y). unfold dent in X. rewrite HQ in X. injection X as ->. cbn [hv_value] in V.
      destruct Y as [[_ [id ->]]|[_ ->]]; [injection V as <-; reflexivity|discriminate V]. }
    apply (hm_only _ _ _ RA) in H as K. destruct K as [->|(a & K & ->)].
    + apply (TT []); [left; auto|exact H].
    + destruct K as [q N J|p k v r w J G W].
      * apply (TT q); [right; auto|]. rewrite dpar_dotted, <- aq_text by auto. exact H.
      * exfalso. destruct (entries_split _ _ _ _ _ J) as (l1 & nl & w0 & w1 & w2 & tx & w3 & cc & l2 & -> & ->).
        eapply FR; [reflexivity|]. rewrite hkey_cur, atext_ext, aq_text. apply under_path.
Qed.

(** ** Nested arrays of tables *)
Definition tok (ls : list (str * tline)) : Prop := tdoc_ok ls /\ (exists v, says (tbody ls) = Some v) /\ along_edge (tbody ls).
Definition treads (ls : list (str * tline)) (s : pst) : Prop := exists v, says (tbody ls) = Some v /\ vok v /\
  tmap v (tlist (tbody ls)) (cells_in s.(p_root)) s.(p_map) /\ Forall2 tline_read ls s.(p_root).
Definition tpair_of (d : tline) : option (str * str * str * str * value * str * str * option str) :=
  match d with TPlain (HPair w0 k w1 w2 v t w3 c) => Some (w0, k, w1, w2, v, t, w3, c) | _ => None end.

(** lines say the same about other entries *)
Definition entries_as (v : view) (es : list (place * str * value)) : view := View es v.(w_names) v.(w_tables) v.(w_elems) v.(w_cur).
Lemma resolve_as : forall v es names p, resolve (entries_as v es) p names = resolve v p names.
Proof.
  intros v es. induction names as [|n names IH]; intros p; [reflexivity|]. cbn [resolve]. cbn [entries_as w_tables w_elems]. rewrite !IH. reflexivity.
Qed.
Definition alike (X X' : list (place * str * value)) (o o' : option view) : Prop :=
  match o, o' with
  | Some v, Some v' => exists E, v.(w_entries) = X ++ E /\ v' = entries_as v (X' ++ E)
  | None, None => True
  | _, _ => False
  end.
Lemma alike_line : forall X X' v v' d, alike X X' (Some v) (Some v') -> alike X X' (add_line v d) (add_line v' d).
Proof.
  intros X X' v v' d (E & A & ->). destruct d as [[w c|w0 k w1 w2 x t w3 c|w0 w1 n m w2 w3 c]|w0 w1 n m w2 w3 c]; cbn [add_line]; cbn [entries_as w_cur w_names w_tables w_elems w_entries].
  - exists E. auto.
  - destruct (in_dec _ _ _); cbn [alike]; auto. exists (E ++ [(w_cur v, k, x)]). cbn [w_entries]. rewrite A, !app_assoc. auto.
  - rewrite resolve_as. destruct (resolve v _ _) as [p|]; cbn [alike]; auto. destruct (in_dec _ _ _); cbn [alike]; auto. exists E. auto.
  - rewrite resolve_as. destruct (resolve v _ _) as [p|]; cbn [alike]; auto. destruct (0 <? _); cbn [alike]; [exists E; auto|].
    destruct (in_dec _ _ _); cbn [alike]; auto. exists E. auto.
Qed.
Lemma alike_lines : forall l X X' o o', alike X X' o o' -> alike X X' (fold_left add_lines_view l o) (fold_left add_lines_view l o').
Proof.
  induction l as [|d l IH]; intros X X' o o' A; [exact A|]. cbn [fold_left]. apply IH.
  destruct o, o'; cbn [alike] in A; try contradiction; [|exact A]. cbn [add_lines_view]. apply alike_line. exact A.
Qed.

Section TSwap.
  Variables (l1 l2 : list tline) (w0 k w1 w2 w3 : str) (c : option str).
  Let doc v t := l1 ++ tpair w0 k w1 w2 v t w3 c :: l2.
  Lemma says_value : forall x t x' t', match says (doc x t), says (doc x' t') with
    | Some v, Some v' => exists u E, says l1 = Some u /\ v.(w_entries) = u.(w_entries) ++ (u.(w_cur), k, x) :: E /\
        v' = entries_as v (u.(w_entries) ++ (u.(w_cur), k, x') :: E)
    | None, None => True
    | _, _ => False
    end.
  Proof.
    intros x t x' t'. unfold doc, says. rewrite !fold_left_app. cbn [fold_left]. fold (says l1). destruct (says l1) as [u|] eqn:U.
    - assert (A : alike (u.(w_entries) ++ [(u.(w_cur), k, x)]) (u.(w_entries) ++ [(u.(w_cur), k, x')])
        (add_lines_view (Some u) (tpair w0 k w1 w2 x t w3 c)) (add_lines_view (Some u) (tpair w0 k w1 w2 x' t' w3 c))).
      { cbn [add_lines_view tpair add_line]. destruct (in_dec _ _ _); cbn [alike]; auto. exists []. cbn [w_entries]. rewrite !app_nil_r. auto. }
      apply (alike_lines l2) in A. unfold alike in A. destruct (fold_left _ _ _) as [v|]; [|exact A]. destruct (fold_left _ _ _) as [v'|]; [|exact A].
      destruct A as (E & A1 & A2). exists u, E. rewrite <- app_assoc in A1, A2. auto.
    - cbn [add_lines_view]. assert (N : forall l, fold_left add_lines_view l None = None) by (induction l; auto). rewrite N. exact I.
  Qed.
  Lemma says_entry : forall x t v, says (doc x t) = Some v -> exists u E, says l1 = Some u /\ v.(w_entries) = u.(w_entries) ++ (u.(w_cur), k, x) :: E.
  Proof. intros x t v S. pose proof (says_value x t x t) as H. rewrite S in H. destruct H as (u & E & A & B & _). eauto. Qed.
  Lemma says_other : forall x t x' t' v, says (doc x t) = Some v -> exists u E, says l1 = Some u /\ v.(w_entries) = u.(w_entries) ++ (u.(w_cur), k, x) :: E /\
     says (doc x' t') = Some (entries_as v (u.(w_entries) ++ (u.(w_cur), k, x') :: E)).
  Proof. intros x t x' t' v S. pose proof (says_value x t x' t') as H. rewrite S in H. destruct (says (doc x' t')); [|contradiction]. destruct H as (u & E & A & B & ->). eauto. Qed.
  Lemma opened_value : forall x t x' t' o, opened_arrays o (doc x t) = opened_arrays o (doc x' t').
  Proof. intros. unfold doc. rewrite !open_app. reflexivity. Qed.
  Lemma strayed_value : forall x t x' t', tstray (doc x t) = tstray (doc x' t').
  Proof.
    intros x t x' t'. unfold doc. induction l2 as [|d m IH] using rev_ind.
    - rewrite !stray_snoc. reflexivity.
    - rewrite !app_comm_cons, !app_assoc, !stray_snoc. unfold topen. rewrite IH, !open_app.
      unfold top_arrays. rewrite !flat_map_app. reflexivity.
  Qed.
  Lemma tlist_value : forall x t x' t', tlist (doc x t) = tlist (doc x' t').
  Proof. intros. unfold doc, tlist. rewrite !listed_app. reflexivity. Qed.
End TSwap.

Lemma edge_as : forall v es o r d, at_edge v o r d -> at_edge (entries_as v es) o r d.
Proof.
  intros v es o r d H. destruct d as [[| |w0 w1 n m w2 w3 c]|w0 w1 n m w2 w3 c]; auto.
  cbn [at_edge] in *. destruct H as [H|[(t & p & A & B & C)|H]]; [left; exact H| |right; right; exact H]. right. left. exists t, p. rewrite resolve_as. auto.
Qed.
Lemma edge_value : forall l1 l2 w0 k w1 w2 w3 c x t x' t', along_edge (l1 ++ tpair w0 k w1 w2 x t w3 c :: l2) ->
  along_edge (l1 ++ tpair w0 k w1 w2 x' t' w3 c :: l2).
Proof.
  intros until t'. intros H a d b v E S. apply two_splits in E as [(_ & <- & _)|[(m & -> & ->)|(m & -> & ->)]].
  - exact I.
  - destruct (says_other l1 m w0 k w1 w2 w3 c x' t' x t v S) as (u & E & SU & EV & SV).
    assert (EQ : l1 ++ tpair w0 k w1 w2 x t w3 c :: m ++ d :: b = (l1 ++ tpair w0 k w1 w2 x t w3 c :: m) ++ d :: b) by (rewrite <- app_assoc; reflexivity).
    pose proof (H _ _ _ _ EQ SV) as AE. rewrite (opened_value _ _ _ _ _ _ _ _ _ _ x' t') in AE.
    pose proof (strayed_value l1 m w0 k w1 w2 w3 c x t x' t') as SR. unfold tstray in SR. rewrite SR in AE. clear SR.
    apply (edge_as _ v.(w_entries)) in AE. destruct v; exact AE.
  - eapply H; [rewrite <- app_assoc; reflexivity|exact S].
Qed.
Lemma tbody_value : forall l1 nl (d : tline) l2, tbody (l1 ++ (nl, d) :: l2) = tbody l1 ++ d :: tbody l2.
Proof. intros. unfold tbody. rewrite map_app. reflexivity. Qed.
Lemma tdoc_value : forall l1 nl w0 k w1 w2 w3 c l2 v t v' t', tdoc_ok (l1 ++ (nl, tpair w0 k w1 w2 v t w3 c) :: l2) -> spells v' t' ->
  tdoc_ok (l1 ++ (nl, tpair w0 k w1 w2 v' t' w3 c) :: l2).
Proof.
  intros until t'. intros OK SP. destruct l1 as [|[n0 d0] r]; cbn [app tdoc_ok] in *.
  - destruct OK as (A & (B1 & B2 & B3 & B4 & B5 & B6 & B7) & C). split; auto. split; [|exact C]. cbn [tpair tline_ok hline_ok]. auto 8.
  - destruct OK as (A & B & C). split; auto. split; auto. apply Forall_app in C as [C1 C2]. apply Forall_app. split; auto.
    inversion C2 as [|? ? C3 C4]; subst. apply Forall_cons; auto. cbn [fst snd tpair tline_ok hline_ok] in *.
    destruct C3 as (X & (B1 & B2 & B3 & B4 & B5 & B6 & B7)). auto 10.
Qed.
Lemma tdoc_lines : forall ls, tdoc_ok ls -> Forall tline_ok (tbody ls).
Proof.
  intros [|[nl d] ls] OK; [destruct OK|]. destruct OK as (_ & A & B). constructor; auto. unfold tbody. apply Forall_map. eapply Forall_impl; [|exact B]. intros a [_ X]. exact X.
Qed.
Lemma tkey_says : forall l k u, says (tbody l) = Some u -> tkey l k = pt (u.(w_cur) ++ [PKey k]).
Proof. intros l k u S. unfold tkey. fold (tbody l). rewrite S. reflexivity. Qed.
Lemma tok_view : forall ls, tok ls -> exists v, says (tbody ls) = Some v /\ vok v.
Proof. intros ls (OK & [v S] & AE). destruct (tdoc_parse false ls v OK S AE) as (s & _ & V & _). eauto. Qed.
Lemma entry_good : forall v q k x, vok v -> In (q, k, x) v.(w_entries) -> gplace (q ++ [PKey k]).
Proof.
  intros v q k x OK I. destruct (vo_spot _ OK _ _ (vo_named _ OK _ _ _ I)) as [SQ BK]. apply gplace_key; auto. apply (vo_good _ OK); auto.
Qed.
Lemma under_tentry : forall v q k x q' k' x', vok v -> In (q, k, x) v.(w_entries) -> In (q', k', x') v.(w_entries) ->
  under (pt (q ++ [PKey k])) (pt (q' ++ [PKey k'])) -> q = q' /\ k = k'.
Proof.
  intros v q k x q' k' x' OK I J U. apply under_pt in U as [r U]; eauto using snoc_place, entry_good.
  rewrite <- app_assoc in U. cbn [app] in U. destruct (val_same v _ _ _ _ _ _ _ _ OK J I U) as (A & B & _). auto.
Qed.
Lemma tentries_split : forall ls v q k x, says (tbody ls) = Some v -> In (q, k, x) v.(w_entries) -> exists l1 nl w0 w1 w2 t w3 c l2 u,
  ls = l1 ++ (nl, tpair w0 k w1 w2 x t w3 c) :: l2 /\ says (tbody l1) = Some u /\ q = u.(w_cur).
Proof.
  induction ls as [|[nl d] ls IH] using rev_ind; intros v q k x S I.
  - injection S as <-. destruct I.
  - rewrite tbody_value in S. change (tbody []) with (@nil tline) in S. rewrite says_snoc in S. destruct (says (tbody ls)) as [u|] eqn:U; [|discriminate S].
    cbn [add_lines_view] in S.
    assert (OLD : In (q, k, x) u.(w_entries) -> exists l1 nl0 w0 w1 w2 t w3 c l2 u, ls ++ [(nl, d)] = l1 ++ (nl0, tpair w0 k w1 w2 x t w3 c) :: l2 /\ says (tbody l1) = Some u /\ q = u.(w_cur)).
    { intros J. destruct (IH _ _ _ _ eq_refl J) as (l1 & nl0 & a0 & a1 & a2 & a3 & a4 & a5 & l2 & u0 & -> & A & B).
      exists l1, nl0, a0, a1, a2, a3, a4, a5, (l2 ++ [(nl, d)]), u0. rewrite <- app_assoc. auto. }
    destruct d as [[w c|w0 k0 w1 w2 x0 t w3 c|w0 w1 n m w2 w3 c]|w0 w1 n m w2 w3 c]; cbn [add_line] in S.
    + injection S as <-. auto.
    + destruct (in_dec _ _ _); [discriminate S|]. injection S as <-. cbn [w_entries] in I. apply in_app_or in I as [I|[I|[]]]; auto.
      injection I as <- <- <-. exists ls, nl, w0, w1, w2, t, w3, c, [], u. auto.
    + destruct (resolve _ _ _); [|discriminate S]. destruct (in_dec _ _ _); [discriminate S|]. injection S as <-. auto.
    + destruct (resolve _ _ _); [|discriminate S]. destruct (0 <? _); [injection S as <-; auto|]. destruct (in_dec _ _ _); [discriminate S|]. injection S as <-. auto.
Qed.
Lemma tcount : forall l r u, Forall2 tline_read l r -> says (tbody l) = Some u -> length (cells_in r) = length u.(w_entries).
Proof.
  induction l as [|[nl d] l IH] using rev_ind; intros r u F S.
  - inversion F; subst. injection S as <-. reflexivity.
  - apply Forall2_app_inv_l in F as (r1 & r2 & F1 & F2 & ->). inversion F2 as [|? e ? r3 [N [_ M]] F3]; subst. inversion F3; subst.
    rewrite tbody_value in S. change (tbody []) with (@nil tline) in S. rewrite says_snoc in S. destruct (says (tbody l)) as [u0|] eqn:U; [|discriminate S].
    specialize (IH _ _ F1 eq_refl). unfold cells_in in *. rewrite flat_map_app, app_length, IH. cbn [flat_map]. rewrite app_nil_r.
    cbn [fst snd] in *. unfold ecell. cbn [add_lines_view] in S.
    destruct d as [[w c|w0 k0 w1 w2 x0 t w3 c|w0 w1 n m w2 w3 c]|w0 w1 n m w2 w3 c]; cbn [add_line] in S.
    + rewrite M. injection S as <-. cbn [length]. lia.
    + destruct M as [cl ->]. cbn [e_keyval length]. destruct (in_dec _ _ _); [discriminate S|]. injection S as <-. cbn [w_entries]. rewrite app_length. reflexivity.
    + rewrite M. destruct (resolve _ _ _); [|discriminate S]. destruct (in_dec _ _ _); [discriminate S|]. injection S as <-. cbn [length w_entries]. lia.
    + rewrite M. destruct (resolve _ _ _); [|discriminate S]. destruct (0 <? _); [injection S as <-; cbn [length w_entries]; lia|]. destruct (in_dec _ _ _); [discriminate S|]. injection S as <-. cbn [length w_entries]. lia.
Qed.

Lemma tothers_half : forall v X Y q k x x' L s s' cs cs', vok v -> v.(w_entries) = X ++ (q, k, x) :: Y ->
  let v' := entries_as v (X ++ (q, k, x') :: Y) in vok v' ->
  tmap v L cs s.(p_map) -> tmap v' L cs' s'.(p_map) ->
  forall z ch, ~ under (pt (q ++ [PKey k])) z -> get_children s z = Some ch -> get_children s' z = Some ch /\ get_value s' z = get_value s z.
Proof.
  intros v X Y q k x x' L s s' cs cs' OK EV v' OK' RA RA' z ch NZ H.
  assert (SP : forall y, spot v y -> spot v' y) by (intros y [|y0 J|a i J]; [apply Sp_top|apply Sp_tab; auto|apply Sp_elem; auto]).
  assert (SPOT : forall y, spot v y -> y <> [] -> get_children s' (pt y) = get_children s (pt y) /\ get_value s' (pt y) = get_value s (pt y)).
  { intros y J N. destruct (tlook_spot v L cs s y OK RA J N) as (A1 & A2 & A3). destruct (tlook_spot v' L cs' s' y OK' RA' (SP _ J) N) as (B1 & B2 & B3).
    split; [rewrite A1, B1; reflexivity|]. destruct (in_dec place_dec y v.(w_tables)) as [Z|Z]; [rewrite (A2 Z), (B2 Z)|rewrite (A3 Z), (B3 Z)]; reflexivity. }
  assert (GOAL : get_children s' z = get_children s z /\ get_value s' z = get_value s z); [|destruct GOAL as [-> ->]; auto].
  assert (NIL : get_children s' [] = get_children s [] /\ get_value s' [] = get_value s []).
  { rewrite (tlook_root _ _ _ _ RA), (tlook_root _ _ _ _ RA'). split; auto. unfold get_value. rewrite (tm_empty _ _ _ _ OK RA), (tm_empty _ _ _ _ OK' RA'). reflexivity. }
  pose proof (tlook_only _ _ _ _ _ _ RA H) as [->|[->|(y & K & ->)]]; auto.
  - split; [apply NIL|]. destruct (tm_spot _ _ _ _ RA [] (Sp_top v)) as (pv & A1 & A2). destruct (tm_spot _ _ _ _ RA' [] (Sp_top v')) as (pv' & B1 & B2).
    cbn [ppar] in *. unfold get_value. rewrite A1, B1. cbn [hv_value].
    destruct A2 as [[A2 [id ->]]|[A2 ->]], B2 as [[B2 [id' ->]]|[B2 ->]]; try contradiction; reflexivity.
  - destruct K as [y J|a i J|a i J|q0 k0 x0 r w J G W].
    + apply SPOT; [apply Sp_tab; auto|]. apply (tknown_good v y OK). apply TK_tab; auto.
    + apply SPOT; [apply Sp_elem; auto|apply snoc_place].
    + destruct (tlook_array v L cs s a i OK RA J) as [A1 A2]. destruct (tlook_array v' L cs' s' a i OK' RA' J) as [B1 B2]. rewrite A1, A2, B1, B2. auto.
    + pose proof J as J0. rewrite EV in J. assert (J' : In (q0, k0, x0) v'.(w_entries) \/ (q0, k0) = (q, k)).
      { cbn [v' entries_as w_entries]. apply in_app_or in J as [J|[J|J]]; [left; apply in_or_app; auto|right; congruence|left; apply in_or_app; right; right; auto]. }
      destruct J' as [J'|J'].
      * destruct (tlook_value v L cs s _ _ _ r OK RA J0 G) as [A1 A2]. destruct (tlook_value v' L cs' s' _ _ _ r OK' RA' J' G) as [B1 B2]. rewrite A1, A2, B1, B2. auto.
      * injection J' as -> ->. exfalso. apply NZ. replace (q ++ PKey k :: r) with ((q ++ [PKey k]) ++ r) by (rewrite <- app_assoc; auto).
        rewrite (pt_path (q ++ [PKey k]) r); [apply under_path|apply snoc_place|exact (entry_good _ _ _ _ OK J0)].
Qed.
Lemma tothers_same : forall v X Y q k x x' L s s' cs cs', vok v -> v.(w_entries) = X ++ (q, k, x) :: Y ->
  let v' := entries_as v (X ++ (q, k, x') :: Y) in vok v' ->
  tmap v L cs s.(p_map) -> tmap v' L cs' s'.(p_map) ->
  forall z, ~ under (pt (q ++ [PKey k])) z -> get_children s' z = get_children s z /\ get_value s' z = get_value s z.
Proof.
  intros v X Y q k x x' L s s' cs cs' OK EV v' OK' RA RA' z NZ. destruct (get_children s z) as [ch|] eqn:A.
  - eapply (tothers_half v X Y q k x x'); eauto.
  - destruct (get_children s' z) as [ch|] eqn:A'.
    + assert (EQ : entries_as v' (X ++ (q, k, x) :: Y) = v) by (unfold v', entries_as; cbn [w_names w_tables w_elems w_cur]; rewrite <- EV; destruct v; reflexivity).
      destruct (tothers_half v' X Y q k x' x L s' s cs' cs OK' eq_refl) with (z := z) (ch := ch) as [B _]; try rewrite EQ; auto. congruence.
    + destruct z as [|a z]; [rewrite (tlook_root _ _ _ _ RA) in A; discriminate|].
      unfold get_children, get_value in *. destruct (hget (a :: z) (p_map s)), (hget (a :: z) (p_map s')); try discriminate. auto.
Qed.

Lemma tsession : forall ovf ls us ls' m' v, tdoc_ok ls -> says (map snd ls) = Some v -> along_edge (map snd ls) ->
  (forall n key x, gives tpair tkey ls n key x -> DocSpec.filled x) -> edits tpair tkey ls [] us ls' m' ->
  session tpair tkey ovf tdoc_text ls us ls' m'.
Proof.
  intros ovf ls us ls' m' v OK DS PH. assert (DK : tok ls) by (split; eauto). clear v OK DS PH. revert ovf ls us ls' m' DK.
  apply (session_holds tline tpair tpair_of tline_text tkey tok treads).
  - reflexivity.
  - reflexivity.
  - intros [[]|] w0' k' w1' w2' v' t' w3' c' E; try discriminate E. injection E as <- <- <- <- <- <- <- <-. reflexivity.
  - intros. unfold tkey. fold (tbody (l1 ++ (nl, tpair w0 k w1 w2 v t w3 c) :: m)) (tbody (l1 ++ (nl, tpair w0 k w1 w2 v' t' w3 c) :: m)).
    rewrite !tbody_value. pose proof (says_value (tbody l1) (tbody m) w0 k w1 w2 w3 c v t v' t') as H.
    destruct (says _) as [a|]; [|destruct (says _); [contradiction|reflexivity]]. destruct (says _) as [b|]; [|contradiction]. destruct H as (u & E & _ & _ & ->). reflexivity.
  - intros l1 nl w0 k w1 w2 x t w3 c m nl' w0' k' w1' w2' x' t' w3' c' l3 l2 OK. destruct (tok_view _ OK) as (v & S & VO).
    rewrite tbody_value in S. destruct (says_entry _ _ _ _ _ _ _ _ _ _ _ S) as (u2 & E & SU & EV).
    pose proof SU as SU'. unfold l2 in SU'. rewrite tbody_value in SU'. destruct (says_entry _ _ _ _ _ _ _ _ _ _ _ SU') as (u1 & E1 & SU1 & EV1).
    assert (I2 : In (u2.(w_cur), k', x') v.(w_entries)) by (rewrite EV; apply in_or_app; right; left; auto).
    assert (I1 : In (u1.(w_cur), k, x) v.(w_entries)) by (rewrite EV, EV1; apply in_or_app; left; apply in_or_app; right; left; auto).
    assert (ND : ~ (u1.(w_cur) = u2.(w_cur) /\ k = k')).
    { intros [Q1 Q2]. pose proof (vo_keys _ VO) as N. rewrite EV, map_app in N. cbn [map fst] in N. apply NoDup_remove_2 in N. apply N.
      apply in_or_app. left. apply in_map_iff. exists (u1.(w_cur), k, x). split; [cbn [fst]; congruence|]. rewrite EV1. apply in_or_app. right. left. auto. }
    rewrite (tkey_says _ k _ SU1), (tkey_says _ k' _ SU).
    split; intros U; apply ND; [eapply under_tentry; eauto|]. eapply under_tentry in U as [Q1 Q2]; eauto.
  - intros until l2. intros (OK & _). apply tdoc_lines in OK. rewrite tbody_value in OK. apply Forall_app in OK as [_ OK]. apply Forall_inv in OK.
    cbn [tpair tline_ok hline_ok] in OK. tauto.
  - intros until t'. intros (OK & [v0 S] & AE) SP. rewrite tbody_value in *. split; [|split].
    + eapply tdoc_value; eauto.
    + rewrite tbody_value. destruct (says_other _ _ _ _ _ _ _ _ _ _ v' t' _ S) as (u & E & _ & _ & X). eauto.
    + rewrite tbody_value. eapply edge_value; eauto.
  - intros ls (OK & _) ->. destruct OK.
  - intros until l2. intros OK. destruct (tok_view _ OK) as (v0 & S & VO). rewrite tbody_value in S.
    destruct (says_entry _ _ _ _ _ _ _ _ _ _ _ S) as (u & E & SU & EV). rewrite (tkey_says _ k _ SU).
    apply pt_root; [apply snoc_place|]. eapply entry_good; [exact VO|]. rewrite EV. apply in_or_app. right. left. reflexivity.
  - intros ovf ls (OK & [v S] & AE). destruct (tdoc_parse ovf ls v OK S AE) as (s & P & R). exists s. split; [exact P|]. exists v. auto.
  - intros ls s _ (v & _ & _ & _ & F). eapply forall2_weaken; [|exact F]. intros [nl d] e [A [B C]]. split; auto. split; auto.
    cbn [snd] in *. destruct d as [[]|]; exact C.
  - intros until p. intros ls OK (v0 & S & VO & RA & _) GP. unfold ls in S, RA. rewrite tbody_value in *.
    destruct (says_entry _ _ _ _ _ _ _ _ _ _ _ S) as (u & E & SU & EV). rewrite (tkey_says _ k _ SU).
    assert (J : In (u.(w_cur), k, v) v0.(w_entries)) by (rewrite EV; apply in_or_app; right; left; auto).
    rewrite <- (pt_path (w_cur u ++ [PKey k]) p); [|apply snoc_place|exact (entry_good _ _ _ _ VO J)]. rewrite <- app_assoc. eapply tlook_value; eauto.
  - intros until cl. intros ls OK (v0 & S & VO & RA & RR) ER LR EC. pose proof (tm_cells _ _ _ _ RA) as F. rewrite ER in F. unfold ls in S.
    rewrite tbody_value in S. destruct (says_entry _ _ _ _ _ _ _ _ _ _ _ S) as (u & E & SU & EV). rewrite EV in F.
    assert (J : In (u.(w_cur), k, v) v0.(w_entries)) by (rewrite EV; apply in_or_app; right; left; auto).
    unfold cells_in in F. rewrite flat_map_app in F. cbn [flat_map] in F. rewrite EC in F. cbn [app] in F.
    apply forall2_middle in F as [TV F].
    + split; [exact TV|]. intros p y _ Y. rewrite (tkey_says _ k _ SU), <- pt_path; [|apply snoc_place|exact (entry_good _ _ _ _ VO J)].
      rewrite <- app_assoc. apply held_valof. apply F; auto.
    + rewrite ER in RR. unfold ls in RR. apply Forall2_app_inv_l in RR as (q1 & q2 & R1 & R2 & RT).
      inversion R2 as [|? e' ? q2' L R3]; subst. apply same_split in RT as (<- & _ & _); [apply (tcount l1 r1 u R1 SU)|].
      rewrite LR. clear - R1. induction R1; cbn [length]; auto.
  - intros until x. intros ls OK OK' (v0 & S & VO & RA & _) (v0' & S' & VO' & RA' & _) U. unfold ls in S, S', RA, RA'. rewrite tbody_value in *.
    destruct (says_other _ _ _ _ _ _ _ _ _ _ v' t' _ S) as (u & E & SU & EV & X). rewrite S' in X. injection X as ->.
    rewrite (tkey_says _ k _ SU) in U. rewrite (tlist_value _ _ _ _ _ _ _ _ v' t' v t) in RA'.
    exact (tothers_same _ _ _ _ _ _ _ _ _ _ _ _ VO EV VO' RA RA' _ U).
  - intros ls s x c OK (v & S & VO & RA & _) FR V. unfold valof in V. destruct (hget x (p_map s)) as [hv|] eqn:H; [|discriminate].
    assert (TT : forall q, spot v q -> hget (ppar q) (p_map s) = Some hv -> c_val c = TTable).
    { intros q RQ HQ. destruct (tm_spot _ _ _ _ RA q RQ) as (pv & X & Y). rewrite HQ in X. injection X as ->. cbn [hv_value] in V.
      destruct Y as [[_ [id ->]]|[_ ->]]; [injection V as <-; reflexivity|discriminate V]. }
    apply (tm_only _ _ _ _ RA) in H as K. destruct K as [->|(y & K & ->)].
    + apply (TT []); [apply Sp_top|exact H].
    + destruct (tknown_good v y VO K) as [GY NY]. destruct K as [y J|a i J|a i J|q k x r w J G W].
      * apply (TT y); [apply Sp_tab; auto|]. rewrite ppar_pt by auto. exact H.
      * apply (TT (a ++ [PIdx i])); [apply Sp_elem; auto|]. rewrite ppar_pt by auto. exact H.
      * rewrite (tm_arr _ _ _ _ RA a i J) in H. injection H as <-. discriminate V.
      * exfalso. destruct (tentries_split _ _ _ _ _ S J) as (l1 & nl & w0 & w1 & w2 & tx & w3 & cc & l2 & u & -> & SU & ->).
        eapply FR; [reflexivity|]. rewrite (tkey_says _ k _ SU).
        replace (w_cur u ++ PKey k :: r) with ((w_cur u ++ [PKey k]) ++ r) by (rewrite <- app_assoc; auto).
        rewrite (pt_path (w_cur u ++ [PKey k]) r); [apply under_path|apply snoc_place|exact (entry_good _ _ _ _ VO J)].
Qed.

(** ** Values of all lines *)
Lemma gives_all : forall D (mk : str -> str -> str -> str -> value -> str -> str -> option str -> D) pair_of key_of (P : value -> Prop) (ls : list (str * D)),
  (forall w0 k w1 w2 v t w3 c, pair_of (mk w0 k w1 w2 v t w3 c) = Some v) ->
  Forall (fun x => match pair_of (snd x) with Some v => P v | None => True end) ls ->
  forall n key v, gives mk key_of ls n key v -> P v.
Proof.
  intros D mk pair_of key_of P ls PM F n key v (l1 & nl & w0 & k & w1 & w2 & t & w3 & c & l2 & -> & _). apply Forall_app in F as [_ F].
  apply Forall_inv in F. cbn [snd] in F. rewrite PM in F. exact F.
Qed.
