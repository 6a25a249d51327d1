(** Documents with nested arrays of tables: reading a document. *)
From Coq Require Import Lia ZifyBool ZifyNat ZifyN.
From Verif Require Import Str Regex Types Ast State Nom Keys Grammar Api Facts Spec.
From Verif Require Import RegexFacts NomFacts TypesFacts DateFacts NumFacts StringFacts ScalarFacts.
From Verif Require Import LineFacts FlatFacts RoundTrip WalkFacts IdFacts WriteFacts ApiSpec ApiFacts DocSpec PathFacts NestFacts SectFacts LookFacts DotSpec DotFacts TreeSpec TreeView TreeStack TreeActs.

(** ** The map *)
Definition pkeys (v : view) (L : list str) (q : place) : list str :=
  match q with [] => first_keys [] L | _ => names_at q v.(w_names) end.
Lemma pkeys_ne : forall v L q, q <> [] -> pkeys v L q = names_at q v.(w_names).
Proof. intros v L [|x q] N; [congruence|reflexivity]. Qed.
Definition opened_spot (v : view) (q : place) (pv : option cell) : Prop :=
  (In q v.(w_tables) /\ exists id, pv = Some (Cell id TTable)) \/ (~ In q v.(w_tables) /\ pv = None).
Definition spots_held (v : view) (L : list str) (m : vmap) : Prop := forall q, spot v q ->
  exists pv, hget (ppar q) m = Some (HashValue pv (Keys (pkeys v L q))) /\ opened_spot v q pv.
Definition arrays_held (v : view) (m : vmap) : Prop := forall a i, In (a, i) v.(w_elems) ->
  hget (pt a) m = Some (HashValue None (Count (elem_count a v.(w_elems)))).
Record tmap (v : view) (L : list str) (cs : list cell) (m : vmap) : Prop := {
  tm_spot : spots_held v L m;
  tm_arr : arrays_held v m;
  tm_cells : Forall2 (fun c (x : place * str * value) => to_val c.(c_val) = Ok (snd x) /\
      forall p y, tat c p = Some y -> good_path p /\ hget (pt (fst (fst x) ++ PKey (snd (fst x)) :: p)) m = held y) cs v.(w_entries);
  tm_only : forall x hv, hget x m = Some hv -> x = root_key \/ exists y, tknown v y /\ x = pt y }.

Lemma tknown_mono : forall v v' y, (forall e, In e v.(w_entries) -> In e v'.(w_entries)) -> (forall t, In t v.(w_tables) -> In t v'.(w_tables)) ->
  (forall e, In e v.(w_elems) -> In e v'.(w_elems)) -> tknown v y -> tknown v' y.
Proof.
  intros v v' y A B C [x I|a i I|a i I|q k x r w I G W]; [apply TK_tab|apply TK_elem|eapply TK_arr|eapply TK_val]; eauto.
Qed.
Lemma arr_parts : forall v a i, vok v -> In (a, i) v.(w_elems) -> gplace a /\ a <> [] /\ forall q, spot v q -> pt a <> ppar q.
Proof.
  intros v a i OK I. destruct (vo_elems _ OK _ _ I) as (_ & NT & y & n & E & S & M & _). destruct (vo_spot _ OK _ _ M) as [_ B].
  assert (GA : gplace a) by (subst a; apply gplace_key; auto; apply (vo_good _ OK); auto).
  assert (NA : a <> []) by (subst a; apply snoc_place). split; auto. split; auto. intros q SQ Q.
  rewrite <- ppar_pt in Q by auto. apply ppar_inj in Q; auto; [|apply (vo_good _ OK); auto]. rewrite <- Q in SQ. destruct SQ as [|x J|b j J]; auto.
  apply app_inj_tail in E as [_ E]. discriminate.
Qed.
Lemma known_text : forall v x y, vok v -> tknown v y -> gplace x -> x <> [] -> pt x = pt y -> x = y.
Proof. intros v x y OK K G N E. destruct (tknown_good v y OK K). apply pt_inj; auto. Qed.

(** nothing is at the place of a new name *)
Lemma tfresh : forall v L cs m p k, vok v -> tmap v L cs m -> spot v p -> key_name k -> ~ In (p, k) v.(w_names) -> fresh m (pt (p ++ [PKey k])).
Proof.
  intros v L cs m p k OK MI S B N x U. destruct (hget x m) as [hv|] eqn:H; auto. exfalso.
  assert (G : gplace (p ++ [PKey k])) by (apply gplace_key; auto; apply (vo_good _ OK); auto).
  apply (tm_only _ _ _ _ MI) in H as [->|(y & K & ->)].
  - rewrite <- aplace_text in U. apply under_root in U; auto. apply aplace_good; auto using snoc_place.
  - destruct (tknown_good v y OK K) as [GY NY]. apply under_pt in U as [r ->]; auto using snoc_place.
    apply N. rewrite <- app_assoc in K. eapply tknown_named; eauto.
Qed.

(** changes of the entries of tables and arrays only *)
Lemma tm_change : forall v v' L L' cs m m', vok v' -> w_entries v' = w_entries v -> (forall t, In t v.(w_tables) -> In t v'.(w_tables)) ->
  (forall e, In e v.(w_elems) -> In e v'.(w_elems)) -> tmap v L cs m ->
  (forall y, (forall q, spot v' q -> y <> ppar q) -> (forall a i, In (a, i) v'.(w_elems) -> y <> pt a) -> hget y m' = hget y m) ->
  spots_held v' L' m' -> arrays_held v' m' -> tmap v' L' cs m'.
Proof.
  intros v v' L L' cs m m' OK EE TT EL MI FR SH AH. constructor; auto.
  - rewrite EE. pose proof (tm_cells _ _ _ _ MI) as F2.
    assert (G : forall es cs, (forall e, In e es -> In e (w_entries v')) ->
        Forall2 (fun c (x : place * str * value) => to_val c.(c_val) = Ok (snd x) /\ forall p y, tat c p = Some y ->
        good_path p /\ hget (pt (fst (fst x) ++ PKey (snd (fst x)) :: p)) m = held y) cs es ->
        Forall2 (fun c (x : place * str * value) => to_val c.(c_val) = Ok (snd x) /\ forall p y, tat c p = Some y ->
        good_path p /\ hget (pt (fst (fst x) ++ PKey (snd (fst x)) :: p)) m' = held y) cs es).
    { clear - FR OK. intros es cs0 IN F. induction F as [|c0 [[q k] x] cs1 es [X1 X2] F IH]; constructor.
      - cbn [fst snd] in *. split; auto. intros r y T. destruct (X2 r y T) as [X3 X4]. split; auto. rewrite FR; auto.
        + intros q' SQ Q. assert (I : In (q, k, x) (w_entries v')) by (apply IN; left; auto).
          assert (K : exists w, at_path x r = Some w) by (destruct (to_val_sub _ _ _ _ X1 T) as (w & _ & W); eauto). destruct K as [w W].
          assert (KN : tknown v' (q ++ PKey k :: r)) by (eapply TK_val; eauto). destruct (tknown_good _ _ OK KN) as [GK NK].
          rewrite <- ppar_pt in Q by auto. apply ppar_inj in Q; auto; [|apply (vo_good _ OK); auto]. symmetry in Q. revert Q. eapply val_apart; eauto.
        + intros a i I Q. assert (I' : In (q, k, x) (w_entries v')) by (apply IN; left; auto).
          assert (K : exists w, at_path x r = Some w) by (destruct (to_val_sub _ _ _ _ X1 T) as (w & _ & W); eauto). destruct K as [w W].
          assert (KN : tknown v' (q ++ PKey k :: r)) by (eapply TK_val; eauto). destruct (tknown_good _ _ OK KN) as [GK NK].
          destruct (arr_parts _ _ _ OK I) as (GA & NA & _). apply pt_inj in Q; auto. symmetry in Q. revert Q. eapply val_arr; eauto.
      - apply IH. intros e I. apply IN. right; auto. }
    apply G; auto. intros e I. rewrite EE. auto.
  - intros x hv H. destruct (list_eq_dec N.eq_dec x root_key) as [|NR]; auto. right.
    destruct (in_dec (list_eq_dec N.eq_dec) x (map pt (w_tables v'))) as [I|NI1].
    { apply in_map_iff in I as (y & E & I). exists y. split; auto. apply TK_tab; auto. }
    destruct (in_dec (list_eq_dec N.eq_dec) x (map (fun e : place * N => pt (fst e ++ [PIdx (snd e)])) (w_elems v'))) as [I|NI2].
    { apply in_map_iff in I as ([a i] & E & I). exists (a ++ [PIdx i]). split; auto. apply TK_elem; auto. }
    destruct (in_dec (list_eq_dec N.eq_dec) x (map (fun e : place * N => pt (fst e)) (w_elems v'))) as [I|NI3].
    { apply in_map_iff in I as ([a i] & E & I). exists a. split; auto. eapply TK_arr; eauto. }
    rewrite FR in H.
    + apply (tm_only _ _ _ _ MI) in H as [H|(y & K & H)]; [congruence|]. exists y. split; auto. revert K. apply tknown_mono; auto. rewrite EE. auto.
    + intros q [|y I|a i I] Q; [cbn [ppar] in Q; congruence| |].
      * destruct y as [|z y]; [cbn [ppar] in Q; congruence|]. apply NI1. subst x. apply (in_map pt) in I. exact I.
      * rewrite ppar_pt in Q by apply snoc_place. apply NI2. subst x. apply (in_map (fun e : place * N => pt (fst e ++ [PIdx (snd e)]))) in I. exact I.
    + intros a i I Q. apply NI3. subst x. apply (in_map (fun e : place * N => pt (fst e))) in I. exact I.
Qed.

(** ** The state *)
Definition cplace (st : stack) (tab : option str) : place := match tab with None => sp st | Some t => sp st ++ [PKey t] end.
Record tdinv (l : list tline) (v : view) (st : stack) (tab : option str) (cs : list cell) (s : pst) : Prop := {
  t_keys : s.(p_keychain) = [];
  t_types : s.(p_atypes) = [];
  t_errors : s.(p_errors) = [];
  t_aerr : s.(p_array_error) = false;
  t_tables : exists sh, ttabs sh tab s /\ map fst sh = map fst st /\ (tstray l = false -> sh = st);
  t_map : tmap v (tlist l) cs s.(p_map);
  t_says : says l = Some v;
  t_ok : vok v;
  t_stk : stk v st;
  t_open : map fst st = topen l;
  t_cur : v.(w_cur) = cplace st tab;
  t_top : (at_top l = true /\ v.(w_cur) = []) \/ (at_top l = false /\ v.(w_cur) <> []);
  t_listed : forall n, In ([], n) v.(w_names) -> In n (tlist l) }.

Lemma stk_good : forall v st, vok v -> stk v st -> sgood st.
Proof.
  intros v st OK H. apply Forall_forall. intros [n i] I. apply in_split in I as (a & b & ->). destruct (H a n i b eq_refl) as [I _].
  destruct (vo_elems _ OK _ _ I) as (_ & _ & y & n' & E & _ & M & _). apply app_inj_tail in E as [_ E]. injection E as ->. cbn [fst]. apply (vo_spot _ OK _ _ M).
Qed.
Lemma stk_arrs : forall v L cs m st, vok v -> tmap v L cs m -> stk v st -> arrs m st.
Proof.
  intros v L cs m st OK MI H a n i b E. assert (G : sgood a).
  { apply (stk_good v); auto. apply (stk_front v a ((n, i) :: b)). rewrite <- E. auto. }
  destruct (H a n i b E) as [I C]. rewrite aplace_pt, (tm_arr _ _ _ _ MI _ _ I), C by auto. reflexivity.
Qed.
Lemma tm_rooted : forall v L cs m, tmap v L cs m -> rooted m.
Proof. intros v L cs m MI. destruct (tm_spot _ _ _ _ MI [] (Sp_top v)) as (pv & E & _). cbn [ppar] in E. exists pv. eauto. Qed.
Lemma tm_empty : forall v L cs m, vok v -> tmap v L cs m -> hget [] m = None.
Proof.
  intros v L cs m OK MI. destruct (hget [] m) as [hv|] eqn:H; auto. exfalso. apply (tm_only _ _ _ _ MI) in H as [H|(y & K & H)]; [discriminate|].
  destruct (tknown_good _ _ OK K). symmetry in H. revert H. apply pt_ne; auto.
Qed.

(** ** The keys of values *)
Fixpoint awatch (a b : stack) : list str := match b with [] => [] | (n, i) :: b' => aplace_of a n :: awatch (a ++ [(n, i)]) b' end.
Lemma awatch_in : forall b a x, In x (awatch a b) <-> exists b1 n i b2, b = b1 ++ (n, i) :: b2 /\ x = aplace_of (a ++ b1) n.
Proof.
  induction b as [|[n i] b IH]; intros a x; cbn [awatch In].
  - split; [intros []|]. intros (b1 & n & i & b2 & E & _). destruct b1; discriminate E.
  - rewrite IH. split.
    + intros [<-|(b1 & n' & i' & b2 & -> & ->)].
      * exists [], n, i, b. rewrite app_nil_r. auto.
      * exists ((n, i) :: b1), n', i', b2. rewrite <- app_assoc. auto.
    + intros (b1 & n' & i' & b2 & E & ->). destruct b1 as [|z b1]; cbn [app] in E; inversion E; subst.
      * left. rewrite app_nil_r. auto.
      * right. exists b1, n', i', b2. rewrite <- app_assoc. auto.
Qed.
Definition twatch (st : stack) (tab : option str) : list str := match cplace st tab with [] => [] | _ => root_key :: awatch [] st end.

Lemma cur_vctx : forall l v st tab cs s, tdinv l v st tab cs s -> vctx s (twatch st tab) (pdot v.(w_cur)) (ppar v.(w_cur)).
Proof.
  intros l v st tab cs s DI. pose proof (t_cur _ _ _ _ _ _ DI) as CU. rewrite CU. pose proof (t_ok _ _ _ _ _ _ DI) as OK. pose proof (t_stk _ _ _ _ _ _ DI) as ST.
  pose proof (stk_good _ _ OK ST) as SG. pose proof (t_map _ _ _ _ _ _ DI) as MI.
  assert (GC : gplace (cplace st tab)) by (rewrite <- CU; apply (vo_good _ OK), (vo_cur _ OK)).
  constructor.
  - apply (t_aerr _ _ _ _ _ _ DI).
  - intros x I. unfold twatch in I. destruct (cplace st tab) as [|z c] eqn:CP; [destruct I|]. rewrite <- CP in *.
    assert (NC : cplace st tab <> []) by (rewrite CP; discriminate).
    assert (UN : forall y, x = pdot (cplace st tab) ++ y -> under (pt (cplace st tab)) x).
    { intros y ->. unfold pdot. rewrite CP, <- CP. rewrite <- app_assoc. apply under_stop. eexists. split; [|reflexivity]. left; auto. }
    rewrite ppar_pt by auto. destruct I as [<-|I].
    + split; [intros Q; symmetry in Q; revert Q; apply pt_root; auto|]. intros y Q. apply UN in Q. rewrite <- aplace_text in Q. apply under_root in Q; auto. apply aplace_good; auto.
    + apply awatch_in in I as (b1 & n & i & b2 & E & ->). cbn [app] in *.
      assert (G1 : sgood b1 /\ key_name n) by (rewrite E in SG; apply sgood_app in SG as [A B]; split; auto; apply Forall_inv in B; auto). destruct G1 as [G1 B1].
      assert (GX : gplace (sp b1 ++ [PKey n])) by (apply gplace_key; auto using sp_good).
      assert (LN : (length (sp b1 ++ [PKey n]) < length (cplace st tab))%nat).
      { unfold cplace. rewrite E. destruct tab; rewrite ?app_length, sp_app, ?app_length; cbn [sp flat_map app length fst snd]; lia. }
      rewrite aplace_pt in * by auto. split.
      * intros Q. apply pt_inj in Q; auto using snoc_place. rewrite Q in LN. lia.
      * intros y Q. apply UN in Q. apply under_pt in Q as [r Q]; auto using snoc_place. rewrite Q, app_length in LN. lia.
  - intros s2 F W G. pose proof F as [F2 F3 F4 F5 F6]. destruct (t_tables _ _ _ _ _ _ DI) as (sh & (ts & SO' & T) & NSH & _). assert (SO : stackof st ts) by (eapply so_names; eauto).
    pose proof (names_length _ _ NSH) as LS.
    assert (WR : cplace st tab <> [] -> rooted (p_map s2) /\ arrs (p_map s2) st).
    { intros NC. unfold twatch in W. destruct (cplace st tab) as [|z c]; [congruence|]. split.
      - destruct (tm_rooted _ _ _ _ MI) as (pv & k & R). exists pv, k. rewrite W by (left; auto). auto.
      - intros a n i b E. rewrite W by (right; apply awatch_in; exists a, n, i, b; auto). eapply stk_arrs; eauto. }
    destruct tab as [t|].
    + destruct T as (tb & T1 & T2 & T3 & T4). cbn [cplace] in *. destruct WR as [R A]; [apply snoc_place|].
      unfold keyval_keys. rewrite F4, T3, F2, T1, F3, T2. unfold vpush. rewrite <- app_assoc. cbn [app].
      rewrite NSH in T4. pose proof (gatk_tab (p_ovf s2) (p_map s2) st ts tb t (map snd sh ++ [0]) [TStandard tb] SO T4) as GT.
      rewrite aplace_pt in GT by auto.
      assert (PN : pt (sp st ++ [PKey t]) <> []) by (apply pt_ne; [apply snoc_place|exact GC]).
      erewrite full_key_in; [| auto | exact PN | apply GT; auto; rewrite app_length, LS; cbn [length]; lia].
      cbn [rbind]. rewrite ppar_pt by apply snoc_place. unfold pdot. destruct (sp st ++ [PKey t]) eqn:Q; [destruct (sp st); discriminate Q|]. reflexivity.
    + destruct T as (T1 & T2 & T3). destruct st as [|x st].
      * destruct sh; [|discriminate NSH]. cbn [cplace sp flat_map pdot ppar]. unfold keyval_keys. rewrite F4, T3. destruct (chain_parent _ G) as [P Q].
        destruct (get_keychain_key (p_keychain s2)) as [a b] eqn:X. cbn [snd] in P. cbn [app].
        assert (a = chain (p_keychain s2)) as -> by (injection X as <- _; reflexivity). subst b.
        unfold parent_of. destruct (removelast (p_keychain s2)) as [|x y]; [auto|].
        destruct (chain (x :: y)) eqn:Z; [exfalso; apply Q; auto; discriminate|]. reflexivity.
      * destruct sh as [|y sh]; [discriminate NSH|]. destruct T3 as [tb T3]. unfold cplace in *. assert (NS : sp (x :: st) <> []) by (apply sp_ne; discriminate). destruct WR as [R A]; auto.
        unfold keyval_keys. rewrite F4, T3, F2, T1, F3, T2.
        destruct (gatk_stack (p_ovf s2) (p_map s2) (x :: st) ts (map snd (y :: sh)) SO) as [pk E]; auto.
        assert (PN : pt (sp (x :: st)) <> []) by (apply pt_ne; auto).
        erewrite full_key_in; [|auto|exact PN|exact E]. cbn [rbind]. rewrite ppar_pt by auto. unfold pdot. destruct (sp (x :: st)); [congruence|]. reflexivity.
Qed.

(** ** A key/value line *)
Lemma pkeys_pair : forall l v st tab cs s k x w0 w1 w2 t w3 c q, tdinv l v st tab cs s -> ~ In (v.(w_cur), k) v.(w_names) ->
  pkeys (View (v.(w_entries) ++ [(v.(w_cur), k, x)]) (v.(w_names) ++ [(v.(w_cur), k)]) v.(w_tables) v.(w_elems) v.(w_cur))
    (tlist (l ++ [TPlain (HPair w0 k w1 w2 x t w3 c)])) q =
  if place_dec v.(w_cur) q then fst (vinsert (pkeys v (tlist l) q) k) else pkeys v (tlist l) q.
Proof.
  intros l v st tab cs s k x w0 w1 w2 t w3 c q DI N. rewrite tlist_snoc. unfold pkeys. cbn [w_names].
  destruct (t_top _ _ _ _ _ _ DI) as [[-> C]|[-> C]]; destruct q as [|z q]; rewrite ?names_snoc.
  - rewrite C. destruct (place_dec [] []) as [_|Q]; [|exfalso; apply Q; reflexivity]. rewrite vinsert_first. auto.
  - rewrite C. destruct (place_dec [] (z :: q)) as [E|_]; [discriminate E|]. apply app_nil_r.
  - destruct (place_dec (w_cur v) []) as [E|_]; [contradiction|]. rewrite app_nil_r. auto.
  - destruct (place_dec (w_cur v) (z :: q)) as [E|_]; [|apply app_nil_r]. rewrite vinsert_new; auto. rewrite <- E, names_in. auto.
Qed.

Lemma tstep_line : forall l v st tab cs s w0 k w1 w2 x t w3 c r,
  tdinv l v st tab cs s -> tline_ok (TPlain (HPair w0 k w1 w2 x t w3 c)) -> ~ In (v.(w_cur), k) v.(w_names) -> line_start r ->
  exists s' cl, expression_p s (hline_text (HPair w0 k w1 w2 x t w3 c) ++ r) =
    Ok (s', Done r {| e_ws := {| ws1 := w0; ws2 := w3 |};
         e_keyval := Some (KeyVal k {| ws1 := w1; ws2 := w2 |} cl); e_table := None; e_comment := c |}) /\
    tdinv (l ++ [TPlain (HPair w0 k w1 w2 x t w3 c)])
      (View (v.(w_entries) ++ [(v.(w_cur), k, x)]) (v.(w_names) ++ [(v.(w_cur), k)]) v.(w_tables) v.(w_elems) v.(w_cur)) st tab (cs ++ [cl]) s'.
Proof.
  intros l v st tab cs s w0 k w1 w2 x t w3 c r DI (W0 & BK & W1 & W2 & SP & W3 & CO) NN R.
  pose proof (cur_vctx _ _ _ _ _ _ DI) as VC. pose proof (fun q => pkeys_pair l v st tab cs s k x w0 w1 w2 t w3 c q DI NN) as PKS.
  pose proof DI as [KC TY ER AE TA MI SY OK ST OP CU TOP LI].
  pose proof (vo_cur _ OK) as SC. pose proof (vo_good _ OK _ SC) as GC.
  pose proof (tfresh v (tlist l) cs (p_map s) (w_cur v) k OK MI SC BK NN) as FR.
  pose proof (vok_pair v k x OK BK NN) as OK'.
  set (d := HPair w0 k w1 w2 x t w3 c) in *. set (v' := View _ _ _ _ _) in *. remember (w_cur v) as tt eqn:NW. set (sk := push_key (KStr k) s).
  assert (KP : p_keychain sk = [KStr k]). { unfold sk, push_key, vpush. cbn. rewrite KC. auto. }
  set (A := pt (tt ++ [PKey k])) in *.
  assert (CH : pdot tt ++ chain (p_keychain sk) = A). { rewrite KP, chain_one. unfold A. rewrite pt_key by auto. auto. }
  assert (GCH : good_chain [KStr k]). { exists k, []. split; auto. apply key_ne; auto. }
  destruct (spells_val x t SP sk (w3 ++ com_text c ++ r) (twatch st tab) (pdot tt) (ppar tt)) as (s1 & cl & E & RD & NE).
  { apply ends_after; auto. } { eapply vctx_keep; eauto. } { rewrite KP. auto. } { rewrite CH. exact FR. }
  rewrite CH in RD. pose proof RD as [[F0 FC FT] V GD PE HI ON MS]. change (p_map sk) with (p_map s) in *.
  assert (GA : gplace (tt ++ [PKey k])) by (apply gplace_key; auto).
  destruct (tm_spot _ _ _ _ MI tt SC) as (pv & PX & PV).
  assert (PNU : ~ under A (ppar tt)). { intros U. apply FR in U. congruence. }
  assert (NUX : forall y, In y (twatch st tab) -> ~ under A y).
  { intros y I U. apply under_stop in U as (z & _ & Z). destruct (vx_fx _ _ _ _ VC y I) as [_ Y].
    apply (Y (k ++ z)). rewrite Z. unfold A. rewrite pt_key by auto. rewrite <- app_assoc. auto. }
  assert (K1 : keyval_keys s1 = Ok (A, ppar tt)).
  { rewrite (vx_keys _ _ _ _ VC s1).
    - rewrite FC, CH, KP. reflexivity.
    - destruct F0. constructor; auto.
    - intros y I. apply MS. apply NUX; auto.
    - rewrite FC, KP. auto. }
  assert (PS : hget (ppar tt) (p_map s1) = Some (HashValue pv (Keys (pkeys v (tlist l) tt)))) by (rewrite MS; auto).
  set (hvA := HashValue (Some cl) (tkids (c_val cl))).
  set (hvP := HashValue pv (Keys (fst (vinsert (pkeys v (tlist l) tt) k)))).
  set (m := hput (ppar tt) hvP (hput A hvA (p_map s1))).
  assert (PA : ppar tt <> A) by (intros Q; apply PNU; rewrite Q; left; auto).
  assert (INS : insert_keyval_into_map s1 cl = Ok (set_map m s1)).
  { rewrite (insert_at _ _ _ _ K1 PE). fold hvA. unfold update_parent. rewrite hget_hput_other by auto.
    rewrite PS. cbn [hv_subkeys hv_value]. rewrite FC, KP. reflexivity. }
  exists (pop_key (set_map m s1)), cl. split.
  { cbn [hline_text]. apply line_read1 with (s1 := s1); auto.
    - destruct (vhead_solid _ (vhead_app _ (w3 ++ com_text c ++ r) (spells_head _ _ SP))) as (_ & _ & NB & _). auto.
    - destruct F0. cbn in *. congruence. }
  assert (GM : forall y, hget y m = if list_eq_dec N.eq_dec y (ppar tt) then Some hvP
     else if list_eq_dec N.eq_dec y A then Some hvA else hget y (p_map s1)).
  { intros y. unfold m. destruct (list_eq_dec N.eq_dec y (ppar tt)) as [->|N1]; [apply hget_hput_same|].
    rewrite hget_hput_other by auto. destruct (list_eq_dec N.eq_dec y A) as [->|N2]; [apply hget_hput_same|].
    apply hget_hput_other; auto. }
  assert (KEEP : forall y hv, hget y (p_map s) = Some hv -> y <> ppar tt -> hget y m = Some hv).
  { intros y hv H N. rewrite GM. destruct (list_eq_dec N.eq_dec y (ppar tt)); [congruence|].
    assert (NU : ~ under A y). { intros U. apply FR in U. congruence. }
    destruct (list_eq_dec N.eq_dec y A) as [->|_]; [exfalso; apply NU; left; auto|]. rewrite MS; auto. }
  assert (KM : forall y, tknown v y -> tknown v' y).
  { intros y. apply tknown_mono; auto. intros e I. apply in_or_app; auto. }
  assert (AP : forall p, pt (tt ++ PKey k :: p) = A ++ path_text p).
  { intros p. replace (tt ++ PKey k :: p) with ((tt ++ [PKey k]) ++ p) by (rewrite <- app_assoc; auto). apply pt_path; auto using snoc_place. }
  constructor; auto.
  - cbn. rewrite FC, KP. reflexivity.
  - cbn. rewrite FT. auto.
  - cbn. rewrite NE. cbn. congruence.
  - cbn. destruct F0. cbn in *. congruence.
  - destruct F0 as [X2 X3 X4 X5 X6]. change (p_tables sk) with (p_tables s) in X2.
    change (p_tindex sk) with (p_tindex s) in X3. change (p_last_table sk) with (p_last_table s) in X4.
    destruct TA as (sh & (ts & SO & TA) & NS & XS). exists sh. rewrite stray_snoc. split; [|auto]. exists ts. split; auto. cbn [pop_key set_keychain set_map p_last_table p_tables p_tindex]. rewrite X2, X3, X4. auto.
  - change (p_map (pop_key (set_map m s1))) with m. constructor.
    + (* tables *) intros q RQ. rewrite PKS. assert (RQ' : spot v q) by (revert RQ; apply spot_mono; auto).
      destruct (place_dec tt q) as [Q|Q].
      * subst q. exists pv. split; auto. rewrite GM. destruct (list_eq_dec N.eq_dec (ppar tt) (ppar tt)); [|congruence]. reflexivity.
      * destruct (tm_spot _ _ _ _ MI q RQ') as (pv' & X & Y). exists pv'. split; auto. apply KEEP; auto.
        intros Z. apply ppar_inj in Z; auto. apply (vo_good _ OK); auto.
    + (* arrays *) intros a i I. apply KEEP; [apply (tm_arr _ _ _ _ MI a i I)|]. destruct (arr_parts _ _ _ OK I) as (_ & _ & X). apply X; auto.
    + (* values *) cbn [v' w_entries]. apply Forall2_app.
      * eapply forall2_impl; [|exact (tm_cells _ _ _ _ MI)]. intros c0 [[t' k'] x'] [X1 X2]. cbn [fst snd] in *. split; auto.
        intros p y TT. destruct (X2 p y TT) as [X3 X4]. split; auto. unfold held in *. apply KEEP; auto.
        intros X. rewrite X, PX in X4. injection X4 as X4 _. destruct (to_val_sub _ _ _ _ X1 TT) as (w & X5 & _).
        destruct PV as [[_ [id ->]]|[_ ->]]; [|discriminate X4]. injection X4 as X4. subst y. discriminate X5.
      * constructor; [|constructor]. cbn [fst snd]. split; auto. intros p y TT. split; [eapply GD; eauto|]. rewrite AP, GM. destruct p as [|z p].
        -- cbn [tat] in TT. injection TT as <-. change (path_text []) with (@nil N). rewrite app_nil_r.
           destruct (list_eq_dec N.eq_dec A (ppar tt)); [congruence|]. destruct (list_eq_dec N.eq_dec A A); [reflexivity|congruence].
        -- destruct (list_eq_dec N.eq_dec (A ++ path_text (z :: p)) (ppar tt)) as [Q|_].
           { exfalso. apply PNU. rewrite <- Q. apply under_path. }
           destruct (list_eq_dec N.eq_dec (A ++ path_text (z :: p)) A) as [Q|_].
           { exfalso. apply path_ne in Q; auto. discriminate. }
           apply HI; auto. discriminate.
    + (* nothing else *) intros y hv H. rewrite GM in H. destruct (list_eq_dec N.eq_dec y (ppar tt)) as [->|N1].
      { apply (tm_only _ _ _ _ MI) in PX as [PX|(a & Ka & PX)]; auto. right. exists a. split; auto. }
      assert (NEW : forall p z, tat cl p = Some z -> tknown v' (tt ++ PKey k :: p)).
      { intros p z TT. destruct (to_val_sub _ _ _ _ V TT) as (w & _ & X). eapply TK_val; eauto. cbn [v' w_entries]. apply in_or_app. right. left; auto. }
      destruct (list_eq_dec N.eq_dec y A) as [->|N2].
      { right. exists (tt ++ [PKey k]). split; [eapply NEW; reflexivity|]. auto. }
      apply ON in H as [H|[H|(p & z & N & TT & ->)]]; [congruence| |].
      * apply (tm_only _ _ _ _ MI) in H as [H|(a & Ka & H)]; auto. right. exists a. split; auto.
      * right. exists (tt ++ PKey k :: p). split; [eapply NEW; eauto|]. symmetry. apply AP.
  - rewrite says_snoc, SY. cbn [add_lines_view add_line]. unfold d. rewrite <- NW. destruct (in_dec name_dec (tt, k) (w_names v)) as [I|_]; [contradiction|]. reflexivity.
  - rewrite open_snoc. auto.
  - rewrite top_snoc. cbn [heading negb v' w_cur]. unfold d. cbn [heading negb]. rewrite andb_true_r. auto.
  - intros n I. rewrite tlist_snoc. cbn [v' w_names] in I. apply in_or_app. apply in_app_or in I as [I|[I|[]]]; [left; auto|]. right.
    inversion I; subst n. destruct TOP as [[-> C]|[-> C]]; [left; auto|congruence].
Qed.

(** ** Headers *)
Lemma bare_names : forall n more, key_name n ->
  Forall (fun x : str * str * str => blanks (fst (fst x)) /\ blanks (snd (fst x)) /\ key_name (snd x)) more -> Forall key_name (head_path n more).
Proof.
  intros n more B M. unfold head_path. constructor; auto. induction M as [|x m (_ & _ & X) M IH]; constructor; auto.
Qed.
Lemma path_split : forall n more, head_path n more = removelast (head_path n more) ++ [last (head_path n more) []].
Proof. intros. apply app_removelast_last. discriminate. Qed.
Lemma no_names : forall v p t, vok v -> ~ In (p, t) v.(w_names) -> forall r, names_at (p ++ PKey t :: r) v.(w_names) = [].
Proof.
  intros v p t OK N r. destruct (names_at (p ++ PKey t :: r) (w_names v)) as [|x l] eqn:E; auto. exfalso.
  assert (I : In x (names_at (p ++ PKey t :: r) (w_names v))) by (rewrite E; left; auto). apply names_in in I.
  apply (vo_spot _ OK) in I as [S _]. apply N. apply (spot_named _ _ _ _ OK S).
Qed.
Lemma no_elem : forall v a i, vok v -> ~ (i < elem_count a v.(w_elems)) -> 0 < elem_count a v.(w_elems) -> names_at (a ++ [PIdx i]) v.(w_names) = [].
Proof.
  intros v a i OK N C. destruct (names_at (a ++ [PIdx i]) (w_names v)) as [|x l] eqn:E; auto. exfalso.
  assert (I : In x (names_at (a ++ [PIdx i]) (w_names v))) by (rewrite E; left; auto). apply names_in in I.
  apply (vo_spot _ OK) in I as [S _]. apply N. eapply spot_index; eauto.
Qed.
Lemma no_count : forall v p t, vok v -> ~ In (p, t) v.(w_names) -> elem_count (p ++ [PKey t]) v.(w_elems) = 0.
Proof.
  intros v p t OK N. destruct (N.eq_dec (elem_count (p ++ [PKey t]) (w_elems v)) 0) as [|C]; auto. exfalso.
  assert (P : 0 < elem_count (p ++ [PKey t]) (w_elems v)) by lia. apply count_in in P as [i I].
  destruct (vo_elems _ OK _ _ I) as (_ & _ & y & n & E & _ & M & _). apply app_inj_tail in E as [-> E]. injection E as ->. auto.
Qed.
Lemma stk_keep : forall v v' st, (forall e, In e v.(w_elems) -> In e v'.(w_elems)) ->
  (forall a n i b, st = a ++ (n, i) :: b -> elem_count (sp a ++ [PKey n]) v'.(w_elems) = elem_count (sp a ++ [PKey n]) v.(w_elems)) ->
  stk v st -> stk v' st.
Proof. intros v v' st A B H a n i b E. destruct (H a n i b E) as [I C]. split; auto. rewrite (B a n i b E). auto. Qed.
Lemma place_longer : forall (p : place) x r, p <> p ++ x :: r.
Proof. intros p x r E. apply (f_equal (@length pstep)) in E. rewrite app_length in E. cbn [length] in E. lia. Qed.

Lemma tstep_table : forall l v st tab cs s w0 w1 n more w2 w3 c r v', let d := TPlain (HHead w0 w1 n more w2 w3 c) in
  tdinv l v st tab cs s -> tline_ok d -> says (l ++ [d]) = Some v' -> at_edge v (topen l) (tstray l) d -> line_start r ->
  exists s' tt st', expression_p s (tline_text d ++ r) =
    Ok (s', Done r {| e_ws := {| ws1 := w0; ws2 := w3 |}; e_keyval := None; e_table := Some tt; e_comment := c |}) /\
    tdinv (l ++ [d]) v' st' (Some (last (head_path n more) [])) cs s'.
Proof.
  intros l v st tab cs s w0 w1 n more w2 w3 c r v' d DI OKd SY' [(x & OE & AP) NX] R.
  pose proof DI as [KC TY ER AE TA MI SY OK ST OP CU TOP LI]. destruct OKd as (W0 & W1 & BN & BM & W2 & W3 & CO).
  pose proof (bare_names _ _ BN BM) as BP. pose proof (path_split n more) as PS. set (t := last (head_path n more) []) in *. set (front := removelast (head_path n more)) in *.
  rewrite <- OP in OE. apply map_eq_app in OE as (a & b & -> & MA & MB).
  assert (BT : key_name t) by (rewrite PS in BP; apply app_bare in BP as [_ BP]; inversion BP; auto).
  pose proof (stk_good _ _ OK ST) as SG. apply sgood_app in SG as SG2. destruct SG2 as [GA GB].
  assert (STA : stk v a) by (eapply stk_front; eauto).
  assert (RS : resolve v [] front = Some (sp a)) by (rewrite <- MA; apply (stk_resolve v a [] OK STA)).
  assert (SA : spot v (sp a)) by (apply stk_spot; auto).
  rewrite says_snoc, SY in SY'. unfold d in SY'. cbn [add_lines_view add_line] in SY'. fold front t in SY'. rewrite RS in SY'.
  destruct (in_dec name_dec (sp a, t) (w_names v)) as [I|NN]; [discriminate SY'|]. injection SY' as <-.
  pose proof (vok_table v (sp a) t OK SA BT NN) as OK'. set (v' := View _ _ _ _ _) in *.
  destruct (dot_read w1 n more w2 (w3 ++ com_text c ++ r) s W1 BN BM W2) as (ks & MK & RD).
  assert (PK : n :: map wk_key ks = head_path n more) by (unfold head_path; congruence).
  destruct (tm_spot _ _ _ _ MI [] (Sp_top v)) as (rv & RE & RO). destruct (tm_spot _ _ _ _ MI (sp a) SA) as (pv & PE & PO).
  assert (FR : hget (aplace_of a t) (p_map s) = None).
  { rewrite aplace_pt by auto. apply (tfresh v (tlist l) cs (p_map s) (sp a) t); auto. left; auto. }
  destruct TA as (sh & TA & NS & XS).
  assert (SPL : exists a' b', sh = a' ++ b' /\ map fst a' = map fst a /\ map fst b' = map fst b).
  { rewrite map_app in NS. apply map_eq_app in NS as (a' & b' & -> & NS1 & NS2). eauto. }
  destruct SPL as (a' & b' & -> & NA' & NB').
  assert (XA : tstray l = false -> a' = a).
  { intros F. apply XS in F. apply (f_equal (firstn (length a))) in F. rewrite !firstn_app, firstn_all, Nat.sub_diag in F.
    pose proof (names_length _ _ NA') as LA. rewrite map_length in LA. rewrite <- LA, firstn_all, Nat.sub_diag in F. cbn [firstn] in F. rewrite !app_nil_r in F. auto. }
  assert (LF : length a = length more).
  { rewrite <- (map_length fst), MA. unfold front. apply (f_equal (@length str)) in PS. rewrite app_length in PS. unfold front in PS. cbn [head_path length] in PS. rewrite map_length in PS. lia. }
  destruct (tab_act w1 w2 n ks s a b a' b' tab t pv (pkeys v (tlist l) (sp a)) rv (pkeys v (tlist l) [])) as
    (s' & tt & E & E1 & E2 & E3 & E4 & E5 & A1 & (id & A2) & A3 & A4); auto.
  { destruct (tstray l); [left; rewrite LF; auto|right; auto]. }
  { rewrite PK, MA. exact PS. }
  { intros f y z Q. rewrite MB in Q. destruct (AP f y z Q) as [[X (e & i & Y)]|X]; auto. left. split; auto.
    rewrite CU in Y. destruct tab as [u|]; auto. unfold cplace in Y. apply app_inj_tail in Y as [_ Y]. discriminate Y. }
  { apply (stk_arrs v (tlist l) cs); auto. }
  { apply (tm_empty v (tlist l) cs); auto. }
  rewrite PK in E. exists s', tt, a. split.
  { replace (tline_text d) with (w0 ++ (lit "[" ++ w1 ++ n ++ concat (map more_text more) ++ w2 ++ lit "]") ++ w3 ++ com_text c)
      by (unfold d; cbn [tline_text hline_text]; rewrite <- !app_assoc; reflexivity).
    apply header_tail; auto. intros y. simpl. lia. }
  assert (GS : gplace (sp a)) by (apply sp_good; auto).
  assert (GN : gplace (sp a ++ [PKey t])) by (apply gplace_key; auto).
  assert (SI : forall y, spot v' y -> spot v y \/ y = sp a ++ [PKey t]).
  { intros y [|z I|e i I]; [left; apply Sp_top| |left; apply Sp_elem; auto]. cbn [v' w_tables] in I. apply in_app_or in I as [I|[I|[]]]; auto. left. apply Sp_tab; auto. }
  assert (SN : ~ spot v (sp a ++ [PKey t])).
  { intros S. apply (spot_named _ _ _ [] OK) in S as [S _]. auto. }
  assert (TN : In (sp a ++ [PKey t]) (w_tables v')) by (cbn [v' w_tables]; apply in_or_app; right; left; auto).
  assert (TL : tlist (l ++ [d]) = tlist l ++ [t]) by (rewrite tlist_snoc; reflexivity).
  assert (OSP : forall q pv, spot v q -> opened_spot v q pv -> opened_spot v' q pv).
  { intros q pv' S [[I X]|[I X]]; [left|right]; split; auto; cbn [v' w_tables]; [apply in_or_app; auto|].
    intros J. apply in_app_or in J as [J|[J|[]]]; auto. subst q. auto. }
  constructor; auto; try congruence.
  - exists a'. split; [exact E5|]. split; [exact NA'|]. rewrite stray_snoc. unfold d. cbn [stray_step]. destruct more; auto.
    intros _. destruct a; [|discriminate LF]. destruct a'; [auto|discriminate NA'].
  - apply (tm_change v v' (tlist l) _ cs (p_map s)); auto.
    + intros y I. cbn [v' w_tables]. apply in_or_app; auto.
    + intros y Y1 Y2. apply A4.
      * apply (Y1 []). apply Sp_top.
      * rewrite aplace_pt by auto. rewrite <- ppar_pt by apply snoc_place. apply Y1. apply Sp_tab; auto.
      * apply Y1. apply stk_spot; auto.
    + rewrite TL. intros q SQ. destruct q as [|z q].
      { exists rv. split; [|apply OSP; auto using Sp_top]. cbn [ppar]. rewrite A1. cbn [pkeys]. rewrite vinsert_first. auto. }
      destruct (place_dec (z :: q) (sp a ++ [PKey t])) as [Q|Q].
      { exists (Some (Cell id TTable)). split; [|left; split; [rewrite Q; auto|eauto]].
        rewrite Q, ppar_pt, <- aplace_pt, A2 by (auto using snoc_place). unfold hv_table_keys. do 3 f_equal. rewrite <- Q. cbn [pkeys v' w_names]. rewrite names_snoc, Q.
        rewrite (no_names v (sp a) t OK NN []). destruct (place_dec (sp a) (sp a ++ [PKey t])) as [X|_]; [exfalso; revert X; apply place_longer|]. reflexivity. }
      apply SI in SQ as [SQ|SQ]; [|congruence].
      destruct (place_dec (sp a) (z :: q)) as [Z|Z].
      { exists pv. rewrite <- Z in *. split; [|apply OSP; auto]. rewrite A3.
        - do 3 f_equal. unfold pkeys. rewrite Z. cbn [v' w_names]. rewrite names_snoc, Z. destruct (place_dec (z :: q) (z :: q)); [|congruence].
          rewrite vinsert_new; auto. rewrite names_in, <- Z. auto.
        - intros ->. discriminate Z. }
      destruct (tm_spot _ _ _ _ MI (z :: q) SQ) as (pv' & X & Y). exists pv'. split; [|apply OSP; auto].
      assert (GQ : gplace (z :: q)) by (apply (vo_good _ OK); auto).
      rewrite A4, X.
      * do 3 f_equal. cbn [pkeys v' w_names]. rewrite names_snoc. destruct (place_dec (sp a) (z :: q)); [contradiction|]. symmetry. apply app_nil_r.
      * apply (pt_root (z :: q)); auto. discriminate.
      * rewrite aplace_pt by auto. intros W. rewrite <- ppar_pt in W by apply snoc_place. apply ppar_inj in W; auto.
      * intros W. apply ppar_inj in W; auto.
    + intros e i I. destruct (arr_parts v' e i OK' I) as (_ & _ & AN). rewrite A4; [apply (tm_arr _ _ _ _ MI e i I)| | |].
      * apply (AN []). apply Sp_top.
      * rewrite aplace_pt by auto. rewrite <- (ppar_pt (sp a ++ [PKey t])) by apply snoc_place. apply AN. apply Sp_tab; auto.
      * apply AN. apply stk_spot; auto.
  - rewrite says_snoc, SY. cbn [add_lines_view add_line d]. fold front t. rewrite RS. destruct (in_dec name_dec (sp a, t) (w_names v)); [contradiction|]. reflexivity.
  - rewrite open_snoc. unfold d. exact MA.
  - right. split; [rewrite top_snoc; apply andb_false_r|]. cbn [v' w_cur]. apply snoc_place.
  - intros y I. rewrite TL. apply in_or_app. cbn [v' w_names] in I. apply in_app_or in I as [I|[I|[]]]; [left; auto|]. right. inversion I; subst. left; auto.
Qed.

Lemma tstep_new : forall l v st tab cs s w0 w1 n more w2 w3 c r a t, let d := TArr w0 w1 n more w2 w3 c in
  tdinv l v st tab cs s -> tline_ok d -> line_start r -> head_path n more = map fst a ++ [t] -> stk v a -> ~ In (sp a, t) v.(w_names) ->
  (a = st \/ (a = [] /\ forall f x r, map fst st = f :: x -> t <> f ++ r)) ->
  exists s' tt v', expression_p s (tline_text d ++ r) =
    Ok (s', Done r {| e_ws := {| ws1 := w0; ws2 := w3 |}; e_keyval := None; e_table := Some tt; e_comment := c |}) /\
    tdinv (l ++ [d]) v' (a ++ [(t, 0)]) None cs s'.
Proof.
  intros l v st tab cs s w0 w1 n more w2 w3 c r a t d DI OKd R EP STA NN AC.
  pose proof DI as [KC TY ER AE TA MI SY OK ST OP CU TOP LI]. destruct OKd as (W0 & W1 & BN & BM & W2 & W3 & CO).
  pose proof (bare_names _ _ BN BM) as BP.
  assert (BT : key_name t) by (rewrite EP in BP; apply app_bare in BP as [_ BP]; inversion BP; auto).
  assert (FP : removelast (head_path n more) = map fst a /\ last (head_path n more) [] = t).
  { rewrite EP. split; [apply removelast_last|apply last_last]. }
  destruct FP as [FP LP].
  pose proof (stk_good _ _ OK ST) as SG. pose proof (stk_good _ _ OK STA) as GA.
  assert (RS : resolve v [] (map fst a) = Some (sp a)) by (apply (stk_resolve v a [] OK STA)).
  assert (SA : spot v (sp a)) by (apply stk_spot; auto).
  pose proof (vok_array v (sp a) t OK SA BT NN) as OK'. set (v' := View _ _ _ _ _) in *.
  assert (SY' : says (l ++ [d]) = Some v').
  { rewrite says_snoc, SY. cbn [add_lines_view add_line d]. rewrite FP, LP, RS, (no_count v (sp a) t OK NN).
    change (0 <? 0) with false. cbv iota. destruct (in_dec name_dec (sp a, t) (w_names v)); [contradiction|]. reflexivity. }
  destruct (dot_arr_read w1 n more w2 (w3 ++ com_text c ++ r) s W1 BN BM W2) as (ks & MK & RD).
  assert (PK : n :: map wk_key ks = head_path n more) by (unfold head_path; congruence).
  destruct (tm_spot _ _ _ _ MI (sp a) SA) as (pv & PE & PO).
  assert (FR : hget (aplace_of a t) (p_map s) = None).
  { rewrite aplace_pt by auto. apply (tfresh v (tlist l) cs (p_map s) (sp a) t); auto. left; auto. }
  destruct TA as (sh & TA & NS & XS).
  assert (AC' : exists a', ((a = st /\ a' = sh) \/ (a = [] /\ a' = [] /\ forall f x r, map fst st = f :: x -> t <> f ++ r))).
  { destruct AC as [->|[-> AC]]; [exists sh; auto|exists []; auto]. }
  destruct AC' as [a' AC'].
  destruct (new_act w1 w2 n ks s st sh tab a a' t pv (pkeys v (tlist l) (sp a))) as
    (s' & tt & E & E1 & E2 & E3 & E4 & E5 & A1 & A2 & A3 & A4); auto.
  { rewrite PK. auto. } { apply (stk_arrs v (tlist l) cs); auto. } { apply (tm_rooted v (tlist l) cs); auto. }
  rewrite PK in E. exists s', tt, v'. split.
  { replace (tline_text d) with (w0 ++ (lit "[[" ++ w1 ++ n ++ concat (map more_text more) ++ w2 ++ lit "]]") ++ w3 ++ com_text c)
      by (unfold d; cbn [tline_text]; rewrite <- !app_assoc; reflexivity).
    apply header_tail; auto. intros y. simpl. lia. }
  assert (GS : gplace (sp a)) by (apply sp_good; auto).
  assert (GN : gplace (sp a ++ [PKey t])) by (apply gplace_key; auto).
  set (arr := sp a ++ [PKey t]) in *.
  assert (NEW : sp (a ++ [(t, 0)]) = arr ++ [PIdx 0]) by (rewrite sp_snoc; auto).
  assert (GE : gplace (arr ++ [PIdx 0])) by (apply gplace_idx; auto; apply snoc_place).
  assert (SI : forall y, spot v' y -> spot v y \/ y = arr ++ [PIdx 0]).
  { intros y [|z I|e i I]; [left; apply Sp_top|left; apply Sp_tab; auto|]. cbn [v' w_elems] in I. apply in_app_or in I as [I|[I|[]]]; [left; apply Sp_elem; auto|].
    inversion I; subst. auto. }
  assert (EN : In (arr, 0) (w_elems v')) by (cbn [v' w_elems]; apply in_or_app; right; left; auto).
  assert (SN : ~ spot v (arr ++ [PIdx 0])).
  { unfold arr. rewrite <- app_assoc. intros S. apply (spot_named _ _ _ _ OK) in S as [S _]. auto. }
  assert (TL : tlist (l ++ [d]) = tlist l ++ match a with [] => [t] | _ => [] end).
  { rewrite tlist_snoc. unfold d. f_equal. unfold head_path in EP. destruct more as [|m0 more], a as [|a0 a]; cbn [map app] in EP; try congruence.
    injection EP as _ EP. destruct (map fst a); discriminate EP. }
  assert (CNT : forall e, elem_count e (w_elems v') = if place_dec arr e then 1 else elem_count e (w_elems v)).
  { intros e. cbn [v' w_elems]. rewrite count_snoc. destruct (place_dec arr e) as [<-|]; [|lia]. unfold arr. rewrite (no_count v (sp a) t OK NN). lia. }
  constructor; auto; try congruence.
  - exists (a' ++ [(t, 0)]). split; [exact E5|].
    split; [rewrite !map_app; f_equal; destruct AC' as [[-> ->]|(-> & -> & _)]; auto|].
    rewrite stray_snoc. unfold d. cbn [stray_step]. intros F. f_equal. destruct AC' as [[-> ->]|(-> & -> & _)]; auto.
    destruct more as [|m0 more]; auto. unfold head_path in EP. cbn [map] in EP. destruct st as [|y st]; [destruct sh; [auto|discriminate NS]|].
    injection EP as _ EP. destruct (map fst st); discriminate EP.
  - apply (tm_change v v' (tlist l) _ cs (p_map s)); auto.
    + intros y I. cbn [v' w_elems]. apply in_or_app; auto.
    + intros y Y1 Y2. apply A4.
      * rewrite aplace_pt by auto. eapply Y2; eauto.
      * apply Y1. revert SA. apply spot_mono; auto. intros e I. cbn [v' w_elems]. apply in_or_app; auto.
      * rewrite NEW, <- ppar_pt by apply snoc_place. apply Y1. apply Sp_elem; auto.
    + rewrite TL. intros q SQ. destruct (place_dec q (arr ++ [PIdx 0])) as [Q|Q].
      { exists None. split.
        - rewrite Q, ppar_pt, <- NEW, A1 by apply snoc_place. unfold hv_none_keys. do 3 f_equal. rewrite NEW, pkeys_ne by apply snoc_place.
          cbn [v' w_names]. rewrite names_snoc. replace (arr ++ [PIdx 0]) with (sp a ++ PKey t :: [PIdx 0]) by (unfold arr; rewrite <- app_assoc; reflexivity). rewrite (no_names v (sp a) t OK NN).
          destruct (place_dec (sp a) (sp a ++ PKey t :: [PIdx 0])) as [X|_]; [exfalso; revert X; apply place_longer|]. reflexivity.
        - right. split; auto. rewrite Q. intros I. cbn [v' w_tables] in I. apply SN. apply Sp_tab; auto. }
      apply SI in SQ as [SQ|SQ]; [|congruence]. assert (GQ : gplace q) by (apply (vo_good _ OK); auto).
      destruct (place_dec (sp a) q) as [Z|Z].
      { subst q. exists pv. split; auto. rewrite A3. do 3 f_equal. unfold pkeys. cbn [v' w_names]. destruct (sp a) as [|z q] eqn:Z.
        - destruct a; [|discriminate Z]. rewrite vinsert_first. auto.
        - rewrite <- Z in *. rewrite names_snoc. destruct (place_dec (sp a) (sp a)); [|congruence].
          rewrite vinsert_new; auto. rewrite names_in. auto. }
      destruct (tm_spot _ _ _ _ MI q SQ) as (pv' & X & Y). exists pv'. split; auto.
      rewrite A4, X.
      * do 3 f_equal. unfold pkeys. cbn [v' w_names]. destruct q as [|z q].
        -- destruct a; [exfalso; apply Z; reflexivity|]. rewrite app_nil_r. auto.
        -- rewrite names_snoc. destruct (place_dec (sp a) (z :: q)); [contradiction|]. symmetry. apply app_nil_r.
      * destruct (arr_parts v' arr 0 OK' EN) as (_ & _ & AN). rewrite aplace_pt by auto. intros W. symmetry in W. revert W. apply AN. revert SQ. apply spot_mono; auto.
        intros e I. cbn [v' w_elems]. apply in_or_app; auto.
      * intros W. apply ppar_inj in W; auto.
      * rewrite NEW. intros W. rewrite <- ppar_pt in W by apply snoc_place. apply ppar_inj in W; auto.
    + intros e i I. rewrite CNT. destruct (place_dec arr e) as [<-|NE].
      { rewrite <- A2, aplace_pt by auto. reflexivity. }
      assert (I' : In (e, i) (w_elems v)). { cbn [v' w_elems] in I. apply in_app_or in I as [I|[I|[]]]; auto. congruence. }
      destruct (arr_parts v' e i OK' I) as (GEE & NEE & AN). rewrite A4; [apply (tm_arr _ _ _ _ MI e i I')| | |].
      * rewrite aplace_pt by auto. intros W. apply pt_inj in W; auto. apply snoc_place.
      * apply AN. revert SA. apply spot_mono; auto. intros e' J. cbn [v' w_elems]. apply in_or_app; auto.
      * rewrite NEW, <- (ppar_pt (arr ++ _)) by apply snoc_place. apply AN. apply Sp_elem; auto.
  - (* the stack *) intros b m i b2 Q. destruct (snoc_inv _ b2) as [->|(b3 & y & ->)].
    + apply app_inj_tail in Q as [<- Q]. injection Q as <- <-. split; [exact EN|]. rewrite CNT. fold arr. destruct (place_dec arr arr); [reflexivity|congruence].
    + rewrite app_comm_cons, app_assoc in Q. apply app_inj_tail in Q as [Q _]. destruct (STA b m i b3 Q) as [I C]. split; [cbn [v' w_elems]; apply in_or_app; auto|].
      rewrite CNT. destruct (place_dec arr (sp b ++ [PKey m])) as [X|_]; auto. exfalso.
      unfold arr in X. rewrite Q, sp_app in X. apply (f_equal (@length pstep)) in X. rewrite !app_length in X. cbn [sp flat_map app length] in X. lia.
  - rewrite open_snoc. unfold d. rewrite EP, map_app. reflexivity.
  - right. split; [rewrite top_snoc; apply andb_false_r|]. cbn [v' w_cur]. apply snoc_place.
  - intros y I. rewrite TL. apply in_or_app. cbn [v' w_names] in I. apply in_app_or in I as [I|[I|[]]]; [left; auto|]. right.
    inversion I; subst y. destruct a; [left; auto|discriminate].
Qed.

Lemma resolve_deep : forall v names p q, resolve v p names = Some q -> names <> [] \/ p <> [] -> q <> [].
Proof.
  intros v. induction names as [|n names IH]; intros p q H N; cbn [resolve] in H.
  - destruct N as [N|N]; congruence.
  - destruct (in_dec place_dec (p ++ [PKey n]) (w_tables v)) as [I|_]; [eapply IH; eauto using snoc_place|].
    destruct (elem_count (p ++ [PKey n]) (w_elems v) =? 0); [discriminate H|]. eapply IH; eauto using snoc_place.
Qed.
Lemma elems_full : forall l v, says l = Some v -> forall a j, j < elem_count a v.(w_elems) -> In (a, j) v.(w_elems).
Proof.
  intros l. induction l as [|d l IH] using rev_ind; intros v SY a j LT; [injection SY as <-; cbn in LT; lia|].
  rewrite says_snoc in SY. destruct (says l) as [u|] eqn:E; [|discriminate SY]. specialize (IH u eq_refl a j). cbn [add_lines_view] in SY.
  destruct d as [[|w0 k w1 w2 x t w3 c|w0 w1 k m w2 w3 c]|w0 w1 k m w2 w3 c]; cbn [add_line] in SY.
  - injection SY as <-. auto.
  - destruct (in_dec name_dec _ _); [discriminate SY|]. injection SY as <-. auto.
  - destruct (resolve _ _ _); [|discriminate SY]. destruct (in_dec name_dec _ _); [discriminate SY|]. injection SY as <-. auto.
  - destruct (resolve u [] (removelast (head_path k m))) as [q|] eqn:RS; [|discriminate SY].
    set (b := q ++ [PKey (last (head_path k m) [])]) in *.
    assert (X : v.(w_elems) = u.(w_elems) ++ [(b, elem_count b u.(w_elems))]).
    { destruct (0 <? elem_count b u.(w_elems)) eqn:Z; [injection SY as <-; auto|]. destruct (in_dec name_dec _ _); [discriminate SY|]. injection SY as <-.
      cbn [w_elems]. do 3 f_equal. lia. }
    rewrite X in *. rewrite count_snoc in LT. apply in_or_app. destruct (place_dec b a) as [<-|]; [|left; apply IH; lia].
    destruct (N.eq_dec j (elem_count b (w_elems u))) as [->|]; [right; left; auto|left; apply IH; lia].
Qed.
Lemma times_snoc : forall n l m, times n (l ++ [m]) = times n l + if str_eqb n m then 1 else 0.
Proof.
  intros. rewrite times_app. f_equal. destruct (str_eqb_spec n m) as [<-|]; [apply times_one|apply times_other; auto].
Qed.
Lemma tops_count : forall l v n, says l = Some v -> elem_count [PKey n] v.(w_elems) = times n (top_arrays l).
Proof.
  intros l. induction l as [|d l IH] using rev_ind; intros v n SY; [injection SY as <-; reflexivity|].
  rewrite says_snoc in SY. destruct (says l) as [u|] eqn:E; [|discriminate SY]. specialize (IH u n eq_refl). cbn [add_lines_view] in SY.
  unfold top_arrays. rewrite flat_map_app. fold (top_arrays l). cbn [flat_map]. rewrite app_nil_r.
  assert (DEEP : forall q k m, resolve u [] (removelast (head_path k m)) = Some q -> m <> [] -> q <> []).
  { intros q k m Q N. eapply resolve_deep; [exact Q|]. left. destruct m as [|x m]; [congruence|]. discriminate. }
  destruct d as [[|w0 k w1 w2 x t w3 c|w0 w1 k m w2 w3 c]|w0 w1 k m w2 w3 c]; cbn [add_line] in SY; rewrite ?app_nil_r.
  - injection SY as <-. auto.
  - destruct (in_dec name_dec _ _); [discriminate SY|]. injection SY as <-. auto.
  - destruct (resolve _ _ _); [|discriminate SY]. destruct (in_dec name_dec _ _); [discriminate SY|]. injection SY as <-. auto.
  - destruct (resolve u [] (removelast (head_path k m))) as [q|] eqn:RS; [|discriminate SY]. specialize (DEEP q k m RS).
    assert (X : exists i, v.(w_elems) = u.(w_elems) ++ [(q ++ [PKey (last (head_path k m) [])], i)]).
    { destruct (0 <? elem_count (q ++ [PKey (last (head_path k m) [])]) u.(w_elems)); [injection SY as <-; cbn [w_elems]; eauto|].
      destruct (in_dec name_dec (q, last (head_path k m) []) u.(w_names)); [discriminate SY|]. injection SY as <-. cbn [w_elems]. eauto. }
    destruct X as [i X]. rewrite X, count_snoc, IH. destruct m as [|y m].
    + cbn in RS. injection RS as <-. cbn [head_path map last app]. rewrite times_snoc. f_equal.
      destruct (place_dec [PKey k] [PKey n]) as [Q|Q], (str_eqb_spec n k) as [->|Q']; auto; congruence.
    + rewrite app_nil_r. destruct (place_dec _ _) as [Q|_]; [|lia]. exfalso. apply DEEP; [discriminate|]. destruct q as [|z q]; auto. injection Q as _ Q. destruct q; discriminate Q.
Qed.
Lemma tstep_next : forall l v st tab cs s w0 w1 n more w2 w3 c r a t i b, let d := TArr w0 w1 n more w2 w3 c in
  tdinv l v st tab cs s -> tline_ok d -> line_start r -> head_path n more = map fst a ++ [t] -> stk v (a ++ [(t, i)]) ->
  ((st = a ++ (t, i) :: b /\ (tstray l = true -> more = [])) \/ (a = [] /\ st <> [] /\ forall f x r, map fst st = f :: x -> t <> f ++ r)) ->
  exists s' tt v', expression_p s (tline_text d ++ r) =
    Ok (s', Done r {| e_ws := {| ws1 := w0; ws2 := w3 |}; e_keyval := None; e_table := Some tt; e_comment := c |}) /\
    tdinv (l ++ [d]) v' (a ++ [(t, i + 1)]) None cs s'.
Proof.
  intros l v st tab cs s w0 w1 n more w2 w3 c r a t i b d DI OKd R EP STT AC.
  pose proof DI as [KC TY ER AE TA MI SY OK ST OP CU TOP LI]. destruct OKd as (W0 & W1 & BN & BM & W2 & W3 & CO).
  pose proof (bare_names _ _ BN BM) as BP.
  assert (BT : key_name t) by (rewrite EP in BP; apply app_bare in BP as [_ BP]; inversion BP; auto).
  assert (FP : removelast (head_path n more) = map fst a /\ last (head_path n more) [] = t).
  { rewrite EP. split; [apply removelast_last|apply last_last]. }
  destruct FP as [FP LP].
  assert (STA : stk v a) by (eapply stk_front; eauto).
  pose proof (stk_good _ _ OK ST) as SG. pose proof (stk_good _ _ OK STA) as GA.
  assert (RS : resolve v [] (map fst a) = Some (sp a)) by (apply (stk_resolve v a [] OK STA)).
  destruct (STT a t i [] eq_refl) as [EI CI].
  set (arr := sp a ++ [PKey t]) in *.
  pose proof (vok_element v arr OK ltac:(lia)) as OK'. rewrite CI in OK'. set (v' := View _ _ _ _ _) in *.
  assert (SY' : says (l ++ [d]) = Some v').
  { rewrite says_snoc, SY. cbn [add_lines_view add_line d]. rewrite FP, LP, RS. fold arr. rewrite CI. assert (0 <? i + 1 = true) as -> by lia. reflexivity. }
  destruct (dot_arr_read w1 n more w2 (w3 ++ com_text c ++ r) s W1 BN BM W2) as (ks & MK & RD).
  assert (PK : n :: map wk_key ks = head_path n more) by (unfold head_path; congruence).
  destruct TA as (sh & TA & NS & XS).
  assert (MA : more = [] <-> a = []).
  { unfold head_path in EP. destruct more as [|m0 more], a as [|a0 a]; split; intros X; try discriminate X; auto; cbn [map app] in EP; try discriminate EP.
    injection EP as _ EP. destruct (map fst a); discriminate EP. }
  assert (ACT : exists s' tt i', array_table_act w1 w2 n ks (fold_left (fun s k => push_key (KStr k) s) (n :: map wk_key ks) s) = Ok (s', tt) /\
    s'.(p_keychain) = [] /\ s'.(p_atypes) = s.(p_atypes) /\ s'.(p_errors) = s.(p_errors) /\ s'.(p_array_error) = false /\
    ttabs (a ++ [(t, i')]) None s' /\
    hget (pt (sp (a ++ [(t, i + 1)]))) s'.(p_map) = Some hv_none_keys /\
    hget (aplace_of a t) s'.(p_map) = Some (HashValue None (Count (i + 1 + 1))) /\
    (forall y, y <> aplace_of a t -> y <> pt (sp (a ++ [(t, i + 1)])) -> hget y s'.(p_map) = hget y s.(p_map)) /\
    (tstray (l ++ [d]) = false -> i' = i + 1)).
  { destruct AC as [[-> NX]|(-> & NE & NP)].
    - rewrite map_app in NS. apply map_eq_app in NS as (a' & b' & -> & NS1 & NS2). destruct b' as [|[t' i'] b']; [discriminate NS2|].
      cbn [map fst] in NS2. injection NS2 as -> NS2.
      assert (a' = a) as ->.
      { destruct (tstray l) eqn:F.
        - specialize (NX eq_refl). apply MA in NX. subst a. destruct a'; [auto|discriminate NS1].
        - specialize (XS eq_refl). apply (f_equal (firstn (length a))) in XS. rewrite !firstn_app, firstn_all, Nat.sub_diag in XS.
          pose proof (names_length _ _ NS1) as LA. rewrite map_length in LA. rewrite <- LA, firstn_all, Nat.sub_diag in XS. cbn [firstn] in XS. rewrite !app_nil_r in XS. auto. }
      destruct (next_act w1 w2 n ks s a t i i' b b' tab) as (s' & tt & E & E1 & E2 & E3 & E4 & E5 & A1 & A2 & A4); auto.
      { rewrite PK. auto. } { apply (stk_arrs v (tlist l) cs); auto. } { apply (tm_rooted v (tlist l) cs); auto. }
      exists s', tt, (i' + 1). repeat (split; [assumption|]). intros F. f_equal.
      assert (F' : tstray l = false).
      { rewrite stray_snoc in F. unfold d in F. cbn [stray_step] in F. destruct more as [|m0 more]; auto.
        assert (a = []) by (apply MA; auto). subst a. cbn [app map head_path] in EP. injection EP as ->. rewrite <- OP in F. cbn [app map fst hd] in F. rewrite str_eqb_refl in F. auto. }
      specialize (XS F'). apply app_inv_head in XS. injection XS as XS _. auto.
    - cbn [map app] in EP. assert (EQ : n = t /\ ks = []).
      { rewrite EP in PK. injection PK as -> PK. split; auto. destruct ks; [auto|discriminate PK]. }
      destruct EQ as [-> ->]. cbn [map app]. destruct (tm_spot _ _ _ _ MI [] (Sp_top v)) as (pv & PE & _).
      destruct (back_act w1 w2 t s sh tab pv (pkeys v (tlist l) []) (i + 1)) as (s' & tt & E & E1 & E2 & E3 & E4 & E5 & A1 & A2 & A4); auto.
      + apply sgood_names. rewrite NS. apply sgood_names. auto.
      + intros ->. destruct st; [auto|discriminate NS].
      + rewrite NS. auto.
      + unfold pkeys. apply first_keys_in. split; [|intros []]. apply LI. destruct (vo_elems _ OK _ _ EI) as (_ & _ & y & n' & Q & _ & M & _).
        unfold arr in Q. apply app_inj_tail in Q as [<- Q]. injection Q as <-. exact M.
      + rewrite aplace_pt by auto. fold arr. rewrite (tm_arr _ _ _ _ MI _ _ EI), CI. reflexivity.
      + lia.
      + exists s', tt, 1. repeat (split; [assumption|]). intros F. rewrite stray_snoc in F. unfold d in F.
        assert (more = []) as -> by (apply MA; auto). cbn [stray_step] in F.
        rewrite <- (tops_count l v t SY) in F. change [PKey t] with arr in F. rewrite CI in F. rewrite <- OP in F.
        destruct (str_eqb (hd [] (map fst st)) t) eqn:Q; [|lia]. apply str_eqb_eq in Q. destruct st as [|[f j] st]; [congruence|].
        cbn [map fst hd] in Q, NP. exfalso. apply (NP f (map fst st) []); [auto|]. rewrite app_nil_r. auto. }
  destruct ACT as (s' & tt & i' & E & E1 & E2 & E3 & E4 & E5 & A1 & A2 & A4 & XI).
  rewrite PK in E. exists s', tt, v'. split.
  { replace (tline_text d) with (w0 ++ (lit "[[" ++ w1 ++ n ++ concat (map more_text more) ++ w2 ++ lit "]]") ++ w3 ++ com_text c)
      by (unfold d; cbn [tline_text]; rewrite <- !app_assoc; reflexivity).
    apply header_tail; auto. intros y. simpl. lia. }
  assert (GS : gplace (sp a)) by (apply sp_good; auto).
  assert (GN : gplace arr) by (apply gplace_key; auto).
  assert (NEW : sp (a ++ [(t, i + 1)]) = arr ++ [PIdx (i + 1)]) by (rewrite sp_snoc; auto).
  assert (GE : gplace (arr ++ [PIdx (i + 1)])) by (apply gplace_idx; auto; apply snoc_place).
  assert (SI : forall y, spot v' y -> spot v y \/ y = arr ++ [PIdx (i + 1)]).
  { intros y [|z I|e j I]; [left; apply Sp_top|left; apply Sp_tab; auto|]. cbn [v' w_elems] in I. apply in_app_or in I as [I|[I|[]]]; [left; apply Sp_elem; auto|].
    inversion I; subst. auto. }
  assert (EN : In (arr, i + 1) (w_elems v')) by (cbn [v' w_elems]; apply in_or_app; right; left; auto).
  assert (SN : ~ spot v (arr ++ [PIdx (i + 1)])).
  { intros S. apply (spot_index _ _ _ _ OK) in S. lia. }
  assert (TL : first_keys [] (tlist (l ++ [d])) = first_keys [] (tlist l)).
  { rewrite tlist_snoc. unfold d. destruct more as [|m0 more]; [|rewrite app_nil_r; auto].
    rewrite <- vinsert_first, vinsert_old; auto. apply first_keys_in. split; [|intros []].
    apply LI. destruct (vo_elems _ OK _ _ EI) as (_ & _ & y & n' & Q & _ & M & _). unfold arr in Q. apply app_inj_tail in Q as [<- Q]. injection Q as <-.
    unfold head_path in EP. cbn [map] in EP. destruct a as [|a0 a]; [|destruct (map fst a) eqn:Q; cbn [map app] in EP; rewrite ?Q in EP; discriminate EP].
    cbn [map app] in EP. injection EP as ->. exact M. }
  assert (TI : forall y, In y (tlist l) -> In y (tlist (l ++ [d]))) by (intros y I; rewrite tlist_snoc; apply in_or_app; auto).
  assert (CNT : forall e, elem_count e (w_elems v') = elem_count e (w_elems v) + if place_dec arr e then 1 else 0).
  { intros e. cbn [v' w_elems]. apply count_snoc. }
  assert (SM : forall q, spot v q -> spot v' q).
  { intros q. apply spot_mono; auto. intros e I. cbn [v' w_elems]. apply in_or_app; auto. }
  constructor; auto; try congruence.
  - exists (a ++ [(t, i')]). split; [exact E5|]. split; [rewrite !map_app; reflexivity|]. intros F. rewrite XI by auto. reflexivity.
  - apply (tm_change v v' (tlist l) _ cs (p_map s)); auto.
    + intros y I. cbn [v' w_elems]. apply in_or_app; auto.
    + intros y Y1 Y2. apply A4.
      * rewrite aplace_pt by auto. eapply Y2; eauto.
      * rewrite NEW, <- ppar_pt by apply snoc_place. apply Y1. apply Sp_elem; auto.
    + intros q SQ. destruct (place_dec q (arr ++ [PIdx (i + 1)])) as [Q|Q].
      { exists None. split.
        - rewrite Q, ppar_pt, <- NEW, A1 by apply snoc_place. unfold hv_none_keys. do 3 f_equal. rewrite NEW, pkeys_ne by apply snoc_place.
          cbn [v' w_names]. symmetry. apply no_elem; auto; lia.
        - right. split; auto. rewrite Q. intros I. cbn [v' w_tables] in I. apply SN. apply Sp_tab; auto. }
      apply SI in SQ as [SQ|SQ]; [|congruence]. assert (GQ : gplace q) by (apply (vo_good _ OK); auto).
      destruct (tm_spot _ _ _ _ MI q SQ) as (pv' & X & Y). exists pv'. split; auto.
      rewrite A4, X.
      * do 3 f_equal. unfold pkeys. rewrite TL. reflexivity.
      * destruct (arr_parts v' arr (i + 1) OK' EN) as (_ & _ & AN). rewrite aplace_pt by auto. intros W. symmetry in W. revert W. apply AN. auto.
      * rewrite NEW. intros W. rewrite <- ppar_pt in W by apply snoc_place. apply ppar_inj in W; auto.
    + intros e j I. rewrite CNT. destruct (place_dec arr e) as [<-|NE].
      { rewrite CI, <- A2, aplace_pt by auto. reflexivity. }
      assert (I' : In (e, j) (w_elems v)). { cbn [v' w_elems] in I. apply in_app_or in I as [I|[I|[]]]; auto. congruence. }
      rewrite N.add_0_r. destruct (arr_parts v' e j OK' I) as (GEE & NEE & AN). rewrite A4; [apply (tm_arr _ _ _ _ MI e j I')| |].
      * rewrite aplace_pt by auto. intros W. apply pt_inj in W; auto. apply snoc_place.
      * rewrite NEW, <- (ppar_pt (arr ++ _)) by apply snoc_place. apply AN. apply Sp_elem; auto.
  - (* the stack *) intros b0 m j b2 Q. destruct (snoc_inv _ b2) as [->|(b3 & y & ->)].
    + apply app_inj_tail in Q as [<- Q]. injection Q as <- <-. split; [exact EN|]. rewrite CNT. fold arr. destruct (place_dec arr arr); [lia|congruence].
    + rewrite app_comm_cons, app_assoc in Q. apply app_inj_tail in Q as [Q _]. destruct (STA b0 m j b3 Q) as [I C]. split; [cbn [v' w_elems]; apply in_or_app; auto|].
      rewrite CNT. destruct (place_dec arr (sp b0 ++ [PKey m])) as [X|_]; [|lia]. exfalso.
      unfold arr in X. rewrite Q, sp_app in X. apply (f_equal (@length pstep)) in X. rewrite !app_length in X. cbn [sp flat_map app length] in X. lia.
  - rewrite open_snoc. unfold d. rewrite EP, map_app. reflexivity.
  - right. split; [rewrite top_snoc; apply andb_false_r|]. cbn [v' w_cur]. apply snoc_place.
Qed.

Lemma tstep_array : forall l v st tab cs s w0 w1 n more w2 w3 c r, let d := TArr w0 w1 n more w2 w3 c in
  tdinv l v st tab cs s -> tline_ok d -> at_edge v (topen l) (tstray l) d -> line_start r ->
  exists s' tt v' st', expression_p s (tline_text d ++ r) =
    Ok (s', Done r {| e_ws := {| ws1 := w0; ws2 := w3 |}; e_keyval := None; e_table := Some tt; e_comment := c |}) /\
    tdinv (l ++ [d]) v' st' None cs s'.
Proof.
  intros l v st tab cs s w0 w1 n more w2 w3 c r d DI OKd AE R. pose proof (t_open _ _ _ _ _ _ DI) as OP.
  pose proof (t_ok _ _ _ _ _ _ DI) as OK. pose proof (t_stk _ _ _ _ _ _ DI) as ST.
  destruct AE as [[[x OE] NX]|[(t & p & EP & RP & NN)|[(-> & NN & AP)|(-> & ONE & NO & AP)]]].
  - rewrite (path_split n more), <- app_assoc in OE. rewrite <- OP in OE. apply map_eq_app in OE as (a & b & -> & MA & MB).
    destruct b as [|[t i] b]; [discriminate MB|]. cbn [map app fst] in MB. injection MB as MB _.
    edestruct (tstep_next l v _ tab cs s w0 w1 n more w2 w3 c r a t i b DI OKd R) as (s' & tt & v' & E & I); auto; [| |eauto 10].
    2:{ apply (stk_front v _ b). rewrite <- app_assoc. exact ST. }
    rewrite (path_split n more) at 1. rewrite MA, MB. auto.
  - rewrite <- OP in *. pose proof (stk_resolve v st [] OK ST) as RQ. cbn [app] in RQ. change (sp []) with (@nil pstep) in RQ. rewrite RQ in RP. injection RP as <-.
    edestruct (tstep_new l v st tab cs s w0 w1 n more w2 w3 c r st t DI OKd R) as (s' & tt & v' & E & I); auto; eauto 10.
  - edestruct (tstep_new l v st tab cs s w0 w1 n [] w2 w3 c r [] n DI OKd R) as (s' & tt & v' & E & I); auto; eauto 10.
    + intros a m i b Q. destruct a; discriminate Q.
    + right. split; auto. rewrite OP. auto.
  - assert (STN : exists i, stk v ([] ++ [(n, i)])).
    { exists (elem_count [PKey n] v.(w_elems) - 1). intros a m i b Q. destruct a as [|y a]; [|injection Q as _ Q; destruct a; discriminate Q]. injection Q as <- <- <-. cbn [sp flat_map app].
      split; [|lia]. apply (elems_full l v (t_says _ _ _ _ _ _ DI)). lia. }
    destruct STN as [i STN].
    edestruct (tstep_next l v st tab cs s w0 w1 n [] w2 w3 c r [] n i [] DI OKd R) as (s' & tt & v' & E & I); auto; eauto 10.
    right. split; auto. rewrite OP. split; auto. intros ->. rewrite <- OP in NO. auto.
Qed.

(** ** Whole documents *)
(** what is read from a line *)
Definition tmirrors (d : tline) (e : expression) : Prop :=
  ex_src e = tline_text d /\
  match d with
  | TPlain (HPair w0 k w1 w2 v t w3 c) => exists cl, e = {| e_ws := {| ws1 := w0; ws2 := w3 |};
      e_keyval := Some (KeyVal k {| ws1 := w1; ws2 := w2 |} cl); e_table := None; e_comment := c |}
  | _ => e.(e_keyval) = None
  end.
Definition tline_read (x : str * tline) (e : nl_expression) : Prop :=
  e.(ne_nl) = fst x /\ tmirrors (snd x) e.(ne_expr).
Lemma tstep_any : forall l v st tab cs s d r v', tdinv l v st tab cs s -> tline_ok d -> says (l ++ [d]) = Some v' -> at_edge v (topen l) (tstray l) d -> line_start r ->
  exists s' e st' tab', expression_p s (tline_text d ++ r) = Ok (s', Done r e) /\ tdinv (l ++ [d]) v' st' tab' (cs ++ ecell e) s' /\ tmirrors d e.
Proof.
  intros l v st tab cs s d r v' DI OK SY AE R.
  enough (X : exists s' e st' tab', expression_p s (tline_text d ++ r) = Ok (s', Done r e) /\ tdinv (l ++ [d]) v' st' tab' (cs ++ ecell e) s' /\
  match d with
  | TPlain (HPair w0 k w1 w2 v t w3 c) => exists cl, e = {| e_ws := {| ws1 := w0; ws2 := w3 |};
      e_keyval := Some (KeyVal k {| ws1 := w1; ws2 := w2 |} cl); e_table := None; e_comment := c |}
  | _ => e.(e_keyval) = None
  end).
  { destruct X as (s' & e & st' & tab' & E & I & M). exists s', e, st', tab'. split; auto. split; auto. split; auto.
    apply reads_expression in E. apply app_inv_tail in E. auto. } destruct d as [[w c|w0 k w1 w2 x t w3 c|w0 w1 n m w2 w3 c]|w0 w1 n m w2 w3 c].
  - exists s. eexists. exists st, tab. split; [apply (istep_blank s w c OK r R)|]. cbn [ecell e_keyval]. rewrite app_nil_r.
    pose proof DI as [A1 A2 A3 A4 A5 A6 A7 A8 A9 A10 A11 A12 A13].
    assert (v' = v) as ->. { rewrite says_snoc, A7 in SY. cbn in SY. congruence. }
    assert (TL : tlist (l ++ [TPlain (HBlank w c)]) = tlist l) by (rewrite tlist_snoc; apply app_nil_r).
    split; [|reflexivity]. constructor; auto; rewrite ?TL; auto.
    + rewrite stray_snoc. exact A5.
    + rewrite open_snoc. auto.
    + rewrite top_snoc. cbn [heading negb]. rewrite andb_true_r. auto.
  - rewrite says_snoc, (t_says _ _ _ _ _ _ DI) in SY. cbn [add_lines_view add_line] in SY.
    destruct (in_dec name_dec (w_cur v, k) (w_names v)) as [I|NN]; [discriminate SY|]. injection SY as <-.
    destruct (tstep_line l v st tab cs s w0 k w1 w2 x t w3 c r DI OK NN R) as (s' & cl & E & I). exists s'. eexists. exists st, tab. split; [exact E|]. cbn [ecell e_keyval kv_val]. eauto.
  - destruct (tstep_table l v st tab cs s w0 w1 n m w2 w3 c r v' DI OK SY AE R) as (s' & tt & st' & E & I). exists s'. eexists. eexists. eexists. split; [exact E|].
    cbn [ecell e_keyval]. rewrite app_nil_r. eauto.
  - destruct (tstep_array l v st tab cs s w0 w1 n m w2 w3 c r DI OK AE R) as (s' & tt & v2 & st' & E & I). exists s'. eexists. eexists. eexists. split; [exact E|].
    cbn [ecell e_keyval]. rewrite app_nil_r. pose proof (t_says _ _ _ _ _ _ I) as X. rewrite X in SY. injection SY as <-. eauto.
Qed.
Lemma tdinv_lines : forall l v st tab cs s n, tdinv l v st tab cs s -> tdinv l v st tab cs (add_lines n s).
Proof. intros l v st tab cs s n [A1 A2 A3 A4 A5 A6 A7 A8 A9 A10 A11 A12 A13]. constructor; auto. Qed.
Lemma tdoc_start : forall l, Forall (fun x : str * tline => line_end (fst x) /\ tline_ok (snd x)) l -> line_start (tdoc_text l).
Proof.
  intros [|[nl it] l] H; [left; auto|]. inversion H; subst. destruct H2 as [H2 _].
  right. exists nl. eexists. split; auto. unfold tdoc_text. cbn [map concat fst snd]. rewrite <- app_assoc. reflexivity.
Qed.
Lemma tdoc_loop : forall ls l v st tab cs s n vf, tdinv l v st tab cs s ->
  Forall (fun x : str * tline => line_end (fst x) /\ tline_ok (snd x)) ls ->
  says (l ++ map snd ls) = Some vf -> along_edge (l ++ map snd ls) -> (length (tdoc_text ls) < n)%nat ->
  exists s' es st' tab', many_loop n nl_expression_p s (tdoc_text ls) = Ok (s', Done [] es) /\
    tdinv (l ++ map snd ls) vf st' tab' (cs ++ cells_in es) s' /\ Forall2 tline_read ls es.
Proof.
  induction ls as [|[nl d] ls IH]; intros l v st tab cs s n vf DI LO SY AE L.
  - destruct n; [cbn in L; lia|]. exists s, [], st, tab. cbn [map cells_in flat_map] in *. rewrite !app_nil_r in *. split; [reflexivity|].
    pose proof (t_says _ _ _ _ _ _ DI) as X. rewrite X in SY. injection SY as <-. split; [exact DI|constructor].
  - inversion LO as [|? ? [NL OD] LO']; subst. cbn [fst snd map] in *.
    assert (AD : at_edge v (topen l) (tstray l) d) by (apply (AE l d (map snd ls) v); auto; apply (t_says _ _ _ _ _ _ DI)).
    assert (SP : l ++ d :: map snd ls = (l ++ [d]) ++ map snd ls) by (rewrite <- app_assoc; reflexivity). rewrite SP in *.
    destruct (says_front _ _ _ SY) as [v1 SY1].
    destruct (tstep_any l v st tab cs (add_lines 1 s) d (tdoc_text ls) v1) as (s1 & e & st1 & tab1 & E & DI1 & MR); auto.
    { apply tdinv_lines; auto. } { apply tdoc_start; auto. }
    assert (TX : tdoc_text ((nl, d) :: ls) = nl ++ tline_text d ++ tdoc_text ls)
      by (unfold tdoc_text; cbn [map concat fst snd]; rewrite <- app_assoc; auto).
    rewrite TX in *. rewrite !app_length in L. pose proof (line_end_length nl NL).
    destruct n as [|n]; [lia|].
    destruct (IH (l ++ [d]) v1 st1 tab1 (cs ++ ecell e) s1 n vf DI1 LO' SY AE ltac:(lia)) as (s2 & es & st2 & tab2 & E2 & DI2 & MR2).
    exists s2, ({| ne_nl := nl; ne_expr := e |} :: es), st2, tab2. split; [|split].
    + cbn [many_loop]. destruct (nl ++ tline_text d ++ tdoc_text ls) as [|c x] eqn:F.
      { apply (f_equal (@length N)) in F. rewrite app_length in F. simpl in F. lia. }
      rewrite <- F. unfold nl_expression_p at 1. erewrite bind_ok by (apply newline_ok; auto).
      erewrite bind_ok by exact E. cbn [rbind ret].
      assert (Nat.eqb (length (tdoc_text ls)) (length (nl ++ tline_text d ++ tdoc_text ls)) = false) as ->.
      { apply Nat.eqb_neq. rewrite !app_length. lia. }
      rewrite E2. reflexivity.
    + cbn [cells_in flat_map ne_expr]. rewrite app_assoc. exact DI2.
    + constructor; auto. split; auto.
Qed.
Lemma tdinv_new : forall ovf, tdinv [] no_lines [] None [] (new_parser ovf).
Proof.
  intros ovf. constructor; try reflexivity.
  - exists []. split; [|auto]. exists []. split; [apply SO_nil|]. cbn. auto.
  - constructor.
    + intros q S. exists None. assert (q = []) as -> by (destruct S as [|x []|a i []]; auto). split; [reflexivity|]. right. split; auto.
    + intros a i [].
    + constructor.
    + intros x hv H. left. destruct (list_eq_dec N.eq_dec x root_key) as [|N]; auto. exfalso.
      cbn [new_parser p_map] in H. rewrite hget_hput_other in H; auto. discriminate.
  - apply vok_none.
  - intros a m i b Q. destruct a; discriminate Q.
  - left. split; reflexivity.
  - intros n [].
Qed.

Definition tbody (ls : list (str * tline)) : list tline := map snd ls.
Lemma tdoc_parse : forall ovf ls v, tdoc_ok ls -> says (tbody ls) = Some v -> along_edge (tbody ls) ->
  exists s, parse (new_parser ovf) (tdoc_text ls) = Ok (s, Full) /\ vok v /\ tmap v (tlist (tbody ls)) (cells_in s.(p_root)) s.(p_map) /\
    Forall2 tline_read ls s.(p_root).
Proof.
  intros ovf [|[nl d] ls] v OK SY AE; [destruct OK|]. destruct OK as (-> & OD & LO).
  change (tbody (([], d) :: ls)) with ([d] ++ tbody ls) in *.
  destruct (says_front _ _ _ SY) as [v1 SY1].
  destruct (tstep_any [] no_lines [] None [] (new_parser ovf) d (tdoc_text ls) v1) as (s1 & e & st1 & tab1 & E & DI1 & MR); auto.
  { apply tdinv_new. } { apply (AE [] d (tbody ls) no_lines); reflexivity. } { apply tdoc_start; auto. }
  destruct (tdoc_loop ls [d] v1 st1 tab1 (ecell e) s1 (S (length (tdoc_text ls))) v DI1) as (s2 & es & st2 & tab2 & E2 & DI2 & MR2); auto.
  assert (T : toml_p (new_parser ovf) (tdoc_text ((([] : str), d) :: ls)) = Ok (s2, Done [] ({| ne_nl := []; ne_expr := e |} :: es))).
  { unfold toml_p. change (tdoc_text ((([] : str), d) :: ls)) with (([] ++ tline_text d) ++ tdoc_text ls). cbn [app].
    erewrite bind_ok by exact E. erewrite bind_ok; [reflexivity|]. exact E2. }
  eexists. split.
  - unfold parse. rewrite T. cbn [rbind]. cbn [p_errors set_leftover set_root]. rewrite (t_errors _ _ _ _ _ _ DI2). reflexivity.
  - cbn [p_root p_map set_leftover set_root]. split; [apply (t_ok _ _ _ _ _ _ DI2)|].
    split; [apply (t_map _ _ _ _ _ _ DI2)|]. constructor; auto. split; auto.
Qed.

(** ** Lookups *)
Lemma tlook_value : forall v L cs s q k x r, vok v -> tmap v L cs s.(p_map) -> In (q, k, x) v.(w_entries) -> good_path r ->
  get_value s (pt (q ++ PKey k :: r)) = Ok (at_path x r) /\
  get_children s (pt (q ++ PKey k :: r)) = option_map kids_of (at_path x r).
Proof.
  intros v L cs s q k x r OK MI I G. destruct (vo_spot _ OK _ _ (vo_named _ OK _ _ _ I)) as [SQ BK].
  assert (GA : gplace (q ++ PKey k :: r)).
  { replace (q ++ PKey k :: r) with ((q ++ [PKey k]) ++ r) by (rewrite <- app_assoc; auto).
    apply gplace_path; auto using snoc_place. apply gplace_key; auto. apply (vo_good _ OK); auto. }
  assert (NA : q ++ PKey k :: r <> []) by (destruct q; discriminate).
  assert (BV : match at_path x r with
    | Some w => exists y, hget (pt (q ++ PKey k :: r)) s.(p_map) = held y /\ to_val y.(c_val) = Ok w
    | None => hget (pt (q ++ PKey k :: r)) s.(p_map) = None
    end).
  { destruct (forall2_in _ _ _ _ _ _ (tm_cells _ _ _ _ MI) I) as (c & _ & TV & H). cbn [fst snd] in *. pose proof (tat_at r c x TV) as X.
    destruct (at_path x r) as [w|] eqn:AP.
    - destruct X as (y & Y & Z). exists y. split; auto. apply H; auto.
    - destruct (hget (pt (q ++ PKey k :: r)) (p_map s)) as [hv|] eqn:HG; auto. exfalso.
      apply (tm_only _ _ _ _ MI) in HG as [HG|(y & K & HG)]; [revert HG; apply pt_root; auto|].
      apply (known_text v) in HG; auto. subst y. remember (q ++ PKey k :: r) as y eqn:E. destruct K as [z J|a i J|a i J|q' k' x' r' w' J G' W].
      + exact (val_apart v q k x r z OK I (Sp_tab _ _ J) E).
      + exact (val_apart v q k x r _ OK I (Sp_elem _ _ _ J) E).
      + exact (val_arr v q k x r a i OK I J E).
      + destruct (val_same v _ _ _ _ _ _ _ _ OK J I E) as (-> & -> & -> & ->). congruence. }
  pose proof (pt_ne _ NA GA) as NE.
  unfold get_value, get_children. destruct (pt (q ++ PKey k :: r)) as [|a z] eqn:A; [congruence|].
  destruct (at_path x r) as [w|].
  - destruct BV as (y & -> & TV). unfold held. cbn [hv_value hv_subkeys option_map]. rewrite TV. cbn [rbind].
    rewrite (tkids_of _ _ TV). auto.
  - rewrite BV. auto.
Qed.
Lemma tlook_spot : forall v L cs s q, vok v -> tmap v L cs s.(p_map) -> spot v q -> q <> [] ->
  get_children s (pt q) = Some (Keys (names_at q v.(w_names))) /\
  (In q v.(w_tables) -> get_value s (pt q) = Panic) /\ (~ In q v.(w_tables) -> get_value s (pt q) = Ok None).
Proof.
  intros v L cs s q OK MI S N. destruct (tm_spot _ _ _ _ MI q S) as (pv & X & Y). rewrite ppar_pt, pkeys_ne in X by auto.
  pose proof (pt_ne _ N (vo_good _ OK _ S)) as NE.
  unfold get_children, get_value. destruct (pt q) as [|a x]; [congruence|]. rewrite X. cbn [hv_value hv_subkeys].
  split; auto. destruct Y as [[Y [id ->]]|[Y ->]]; split; intros Z; try contradiction; reflexivity.
Qed.
Lemma tlook_array : forall v L cs s a i, vok v -> tmap v L cs s.(p_map) -> In (a, i) v.(w_elems) ->
  get_children s (pt a) = Some (Count (elem_count a v.(w_elems))) /\ get_value s (pt a) = Ok None.
Proof.
  intros v L cs s a i OK MI I. pose proof (tm_arr _ _ _ _ MI a i I) as X. destruct (arr_parts _ _ _ OK I) as (G & N & _).
  pose proof (pt_ne _ N G) as NE. unfold get_children, get_value. destruct (pt a) as [|c x]; [congruence|]. rewrite X. auto.
Qed.
Lemma tlook_root : forall v L cs s, tmap v L cs s.(p_map) -> get_children s [] = Some (Keys (first_keys [] L)).
Proof.
  intros v L cs s MI. destruct (tm_spot _ _ _ _ MI [] (Sp_top v)) as (pv & X & _). unfold get_children. cbn [ppar pkeys] in X. rewrite X. auto.
Qed.
Lemma tlook_only : forall v L cs s x ch, tmap v L cs s.(p_map) -> get_children s x = Some ch ->
  x = [] \/ x = root_key \/ exists y, tknown v y /\ x = pt y.
Proof.
  intros v L cs s x ch MI H. unfold get_children in H. destruct x as [|a x]; auto. set (y := a :: x) in *.
  destruct (hget y (p_map s)) as [hv|] eqn:HG; [|discriminate].
  apply (tm_only _ _ _ _ MI) in HG as [HG|(b & K & HG)]; eauto.
Qed.
Lemma tlook_only_value : forall v L cs s x w, vok v -> tmap v L cs s.(p_map) -> get_value s x = Ok (Some w) ->
  exists q k y r, In (q, k, y) v.(w_entries) /\ at_path y r = Some w /\ x = pt (q ++ PKey k :: r).
Proof.
  intros v L cs s x w OK MI H. assert (N : x <> []).
  { intros ->. unfold get_value in H. rewrite (tm_empty _ _ _ _ OK MI) in H. discriminate H. }
  destruct (get_kids s x w N H) as [ch C]. apply (tlook_only _ _ _ _ _ _ MI) in C as [C|[C|(y & K & ->)]].
  - congruence.
  - subst x. destruct (tm_spot _ _ _ _ MI [] (Sp_top v)) as (pv & X & Y). cbn [ppar] in X. unfold get_value in H. rewrite X in H.
    exfalso. destruct Y as [[_ [id ->]]|[_ ->]]; discriminate H.
  - destruct K as [y I|a i I|a i I|q k y r w' I G W].
    + exfalso. destruct (tknown_good v y OK (TK_tab _ _ I)) as [_ NY]. destruct (tlook_spot v L cs s y OK MI (Sp_tab _ _ I) NY) as (_ & X & _). rewrite X in H by auto. discriminate H.
    + exfalso. destruct (tlook_spot v L cs s _ OK MI (Sp_elem _ _ _ I) (snoc_place _ _)) as (_ & X & Y).
      destruct (in_dec place_dec (a ++ [PIdx i]) (w_tables v)) as [Z|Z]; [rewrite X in H by auto|rewrite Y in H by auto]; discriminate H.
    + exfalso. destruct (tlook_array v L cs s a i OK MI I) as [_ X]. rewrite X in H. discriminate H.
    + destruct (tlook_value v L cs s q k y r OK MI I G) as [X _]. rewrite X in H. injection H as H. exists q, k, y, r. auto.
Qed.

(** ** The names at the top *)
Record topinv (l : list tline) (v : view) : Prop := {
  ti_cur : at_top l = true <-> v.(w_cur) = [];
  ti_elem : forall q n i, In (q ++ [PKey n], i) v.(w_elems) -> In (q, n) v.(w_names);
  ti_names : short_heads l -> first_keys [] (tlist l) = names_at [] v.(w_names) }.
Lemma count_some : forall a es, 0 < elem_count a es -> exists i, In (a, i) es.
Proof.
  intros a es. unfold elem_count. induction es as [|[b i] es IH]; intros H; [cbn in H; lia|].
  cbn [filter fst] in H. destruct (place_dec b a) as [->|_]; [exists i; left; auto|]. destruct (IH H) as [j J]. exists j. right. auto.
Qed.
Lemma first_same : forall l k, first_keys [] (l ++ [k]) = first_keys [] l ++ (if seen k l then [] else [k]).
Proof. intros. rewrite first_keys_snoc. reflexivity. Qed.
Lemma top_says : forall l v, says l = Some v -> topinv l v.
Proof.
  induction l as [|d l IH] using rev_ind; intros v H.
  { injection H as <-. constructor; cbn; [tauto|intros; contradiction|auto]. }
  rewrite says_snoc in H. destruct (says l) as [u|] eqn:SU; [|discriminate]. cbn [add_lines_view] in H.
  destruct (IH u eq_refl) as [C E N]. assert (SH : short_heads (l ++ [d]) -> short_heads l).
  { intros X w0 w1 n m w2 w3 c J. apply (X w0 w1 n m w2 w3 c). apply in_or_app. auto. }
  assert (SEEN : forall k, short_heads l -> seen k (tlist l) = true <-> In ([], k) (w_names u)).
  { intros k X. rewrite seen_in, <- names_in, <- (N X), first_keys_in. cbn [In]. tauto. }
  assert (KEEP : forall k, short_heads l -> ~ In ([], k) (w_names u) -> first_keys [] (tlist l ++ [k]) = names_at [] (w_names u) ++ [k]).
  { intros k X J. rewrite first_same, (N X). destruct (seen k (tlist l)) eqn:Z; auto. apply SEEN in Z; auto. contradiction. }
  destruct d as [[w0 c|w0 k w1 w2 x xt w3 c|w0 w1 n m w2 w3 c]|w0 w1 n m w2 w3 c]; cbn [add_line] in H.
  - injection H as <-. constructor; rewrite ?top_snoc, ?tlist_snoc, ?andb_true_r, ?app_nil_r; auto.
  - destruct (in_dec name_dec (w_cur u, k) (w_names u)) as [|NI]; [discriminate|]. injection H as <-.
    constructor; rewrite ?top_snoc, ?tlist_snoc; cbn [heading negb w_names w_cur w_elems]; rewrite ?andb_true_r; auto.
    + intros. apply in_or_app. left. eauto.
    + intros X. rewrite names_snoc. destruct (place_dec (w_cur u) []) as [Z|Z].
      * rewrite (proj2 C Z). apply KEEP; auto. rewrite <- Z. auto.
      * destruct (at_top l); [destruct Z; apply C; auto|]. rewrite !app_nil_r. auto.
  - destruct (resolve u [] (removelast (head_path n m))) as [p|] eqn:R; [|discriminate].
    destruct (in_dec name_dec (p, last (head_path n m) []) (w_names u)) as [|NI]; [discriminate|]. injection H as <-.
    constructor; rewrite ?top_snoc, ?tlist_snoc; cbn [heading negb w_names w_cur w_elems]; rewrite ?andb_false_r.
    + split; [discriminate|]. intros Z. destruct p; discriminate Z.
    + intros. apply in_or_app. left. eauto.
    + intros X. assert (m = []) by (apply (X w0 w1 n m w2 w3 c), in_or_app; right; left; reflexivity). subst m.
      cbn in R. injection R as <-. cbn [head_path map last] in *. rewrite names_snoc. destruct (place_dec [] []) as [_|Q]; [|exfalso; apply Q; reflexivity]. apply KEEP; auto.
  - destruct (resolve u [] (removelast (head_path n m))) as [p|] eqn:R; [|discriminate].
    assert (RM : (m = [] /\ p = [] /\ last (head_path n m) [] = n) \/ (m <> [] /\ p <> [])).
    { destruct m as [|y m]; [left; cbn in R; injection R as <-; auto|right]. split; [discriminate|]. eapply resolve_deep; [exact R|]. left. destruct m; discriminate. }
    destruct (0 <? elem_count (p ++ [PKey (last (head_path n m) [])]) (w_elems u)) eqn:Z.
    + injection H as <-. apply N.ltb_lt, count_some in Z as [i Z]. apply E in Z.
      constructor; rewrite ?top_snoc, ?tlist_snoc; cbn [heading negb w_names w_cur w_elems]; rewrite ?andb_false_r.
      * split; [discriminate|]. intros Y. apply app_eq_nil in Y as [_ Y]. discriminate Y.
      * intros q k j J. apply in_app_or in J as [J|[J|[]]]; [eauto|]. injection J as J _. apply app_inj_tail in J as [-> J]. injection J as <-. auto.
      * intros X. destruct RM as [(-> & -> & L)|[M _]]; [|destruct m; [congruence|]; rewrite app_nil_r; auto].
        rewrite first_same. rewrite L in Z. apply SEEN in Z; auto. rewrite Z, app_nil_r. auto.
    + destruct (in_dec name_dec (p, last (head_path n m) []) (w_names u)) as [|NI]; [discriminate|]. injection H as <-.
      constructor; rewrite ?top_snoc, ?tlist_snoc; cbn [heading negb w_names w_cur w_elems]; rewrite ?andb_false_r.
      * split; [discriminate|]. intros Y. apply app_eq_nil in Y as [_ Y]. discriminate Y.
      * intros q k j J. apply in_or_app. apply in_app_or in J as [J|[J|[]]]; [left; eauto|right; left].
        injection J as J _. apply app_inj_tail in J as [-> J]. injection J as <-. auto.
      * intros X. rewrite names_snoc. destruct RM as [(-> & -> & L)|[M P]].
        -- destruct (place_dec [] []) as [_|Q]; [|exfalso; apply Q; reflexivity]. rewrite L in *. apply KEEP; auto.
        -- destruct (place_dec p []); [congruence|]. destruct m; [congruence|]. rewrite !app_nil_r. auto.
Qed.
