(** The children of the keys of a document. *)
From Coq Require Import Lia ZifyBool ZifyNat ZifyN.
From Verif Require Import TotalFacts.
From Verif Require Import Str Regex Types Ast State Nom Keys Grammar Api Facts Spec.
From Verif Require Import NomFacts ScalarFacts LineFacts FlatFacts RoundTrip ParseFacts WalkFacts Effects IdFacts DocSpec MixSpec PathFacts NestFacts SectFacts LookFacts.
From Verif Require Import DateFacts HeadSpec SafeFacts CountFacts DotSpec DotFacts OrderSpec OrderFacts CauseSpec AfterFacts CauseFacts ReachSpec ReachFacts ExactFacts KidsSpec.
From Verif Require CalmWalk ClashFacts UpdateFacts.

(** ** Places and their keys *)
Definition tstep (q : str) (x : pstep) : str := match x with PKey n => AfterFacts.under q n | PIdx i => q ++ idx_str i end.
Definition tx (p : list pstep) : str := fold_left tstep p root_key.
Definition sname (x : pstep) : Prop := match x with PKey n => name_text n | PIdx _ => True end.
Definition named (p : list pstep) : Prop := Forall sname p.
Lemma tx_snoc : forall p x, tx (p ++ [x]) = tstep (tx p) x.
Proof. intros p x. unfold tx. rewrite fold_left_app. reflexivity. Qed.
Lemma named_app : forall p q, named (p ++ q) <-> named p /\ named q.
Proof. intros p q. unfold named. apply Forall_app. Qed.
Lemma root_not_step : forall q x, sname x -> root_key <> tstep q x.
Proof.
  intros q [i|n] S E; cbn [tstep] in E.
  - unfold idx_str in E. rewrite !app_assoc in E. change root_key with (lit "$Root" ++ [36]) in E. apply app_inj_tail in E as [_ E]. discriminate.
  - rewrite under_pre in E. destruct S as [[NE B]|(x & _ & ->)].
    + destruct n as [|c n] using rev_ind; [congruence|]. rewrite app_assoc in E. change root_key with (lit "$Root" ++ [36]) in E. apply app_inj_tail in E as [_ E].
      apply Forall_app in B as [_ B]. inversion B as [|? ? BC _]; subst. unfold bare_char in BC.  lia.
    + rewrite !app_assoc in E. change root_key with (lit "$Root" ++ [36]) in E. apply app_inj_tail in E as [_ E]. discriminate.
Qed.
Lemma tx_inj : forall p q, named p -> named q -> tx p = tx q -> p = q.
Proof.
  induction p as [|x p IH] using rev_ind; intros q P Q E; destruct q as [|y q] using rev_ind.
  - reflexivity.
  - exfalso. rewrite tx_snoc in E. apply named_app in Q as [_ Q]. inversion Q; subst. eapply root_not_step; eauto.
  - exfalso. rewrite tx_snoc in E. apply named_app in P as [_ P]. inversion P; subst. eapply root_not_step; [|symmetry]; eauto.
  - clear IHq. rewrite !tx_snoc in E. apply named_app in P as [P PX]. apply named_app in Q as [Q QX]. inversion PX as [|? ? SX _]; subst. inversion QX as [|? ? SY _]; subst.
    destruct x as [i|n], y as [j|m]; cbn [tstep sname] in *.
    + pose proof (idx_end_inj _ _ _ _ E) as E2. rewrite E2 in E. apply UpdateFacts.idx_inj in E. subst. f_equal. auto.
    + exfalso. symmetry in E. eapply under_bracket; eauto.
    + exfalso. eapply under_bracket; eauto.
    + apply under_inj in E as [E ->]; auto. f_equal. auto.
Qed.
Lemma tx_root : forall p, named p -> p <> [] -> tx p <> root_key.
Proof. intros p N NE E. apply NE. apply tx_inj; auto. constructor. Qed.
Definition plc (h : list str) (kc : list key) : list pstep := map PKey h ++ map key_step kc.
Lemma plc_snoc : forall h kc k, plc h (kc ++ [k]) = plc h kc ++ [key_step k].
Proof. intros h kc k. unfold plc. rewrite map_app, app_assoc. reflexivity. Qed.
Lemma named_keys : forall h, Forall name_text h -> named (map PKey h).
Proof. intros h F. induction F; constructor; auto. Qed.
Lemma tx_keys : forall h, Forall name_text h -> tx (map PKey h) = dpar h.
Proof.
  induction h as [|n h IH] using rev_ind; intros F; [reflexivity|]. rewrite map_app. cbn [map]. rewrite tx_snoc. apply Forall_app in F as [F FN]. rewrite (IH F).
  cbn [tstep]. rewrite dpar_snoc, dotted_snoc. unfold AfterFacts.under. destruct h as [|m h]; [rewrite str_eqb_refl; reflexivity|].
  rewrite dpar_dotted by discriminate. rewrite dotted_not by (auto; discriminate). unfold dpre. rewrite <- app_assoc. reflexivity.
Qed.
Definition wfk (kc : list key) : Prop := match kc with KStr _ :: _ => True | _ => False end.
Lemma wfk_snoc : forall kc k, wfk kc -> wfk (kc ++ [k]).
Proof. intros [|[n|i] kc] k H; cbn in *; auto. destruct H. Qed.
Lemma wfk_chain : forall h kc, wfk kc -> named (plc h kc) -> chain kc <> [].
Proof.
  intros h kc W N. destruct kc as [|[n|i] kc]; [destruct W| |destruct W]. unfold plc in N. cbn [map] in N. apply named_app in N as [_ N]. inversion N as [|? ? NT _]; subst.
  clear W N. unfold chain. cbn [fold_left chain_step app]. assert (X : forall kc acc, acc <> [] -> fold_left chain_step kc acc <> []).
  { clear. induction kc as [|k kc IH]; intros acc A; auto. cbn [fold_left]. apply IH. destruct k; cbn [chain_step]; [destruct acc; [congruence|]|];
      intros E; apply app_eq_nil in E as [E _]; [apply app_eq_nil in E as [E _]; discriminate|auto]. }
  apply X. apply name_ne. exact NT.
Qed.
Lemma tx_plc : forall h kc, Forall name_text h -> wfk kc -> named (plc h kc) -> tx (plc h kc) = dpre h ++ chain kc.
Proof.
  intros h kc F. induction kc as [|k kc IH] using rev_ind; intros W N; [destruct W|]. rewrite plc_snoc in *. rewrite tx_snoc.
  pose proof N as N0. apply named_app in N as [N NK]. inversion NK as [|? ? SK _]; subst. destruct kc as [|k0 kc].
  - destruct k as [n|i]; [|destruct W]. unfold plc. cbn [map]. rewrite app_nil_r, (tx_keys h F). cbn [key_step tstep]. unfold chain. cbn [app fold_left chain_step].
    unfold AfterFacts.under. destruct h as [|m h]; [rewrite str_eqb_refl; reflexivity|].
    rewrite dpar_dotted by discriminate. rewrite dotted_not by (auto; discriminate). unfold dpre. rewrite <- app_assoc. reflexivity.
  - assert (W0 : wfk (k0 :: kc)) by exact W. rewrite chain_snoc by (eapply wfk_chain; eauto). rewrite app_assoc, <- IH by auto.
    destruct k as [n|i]; cbn [key_step tstep step_text]; [|reflexivity]. unfold AfterFacts.under.
    destruct (str_eqb_spec (tx (plc h (k0 :: kc))) root_key) as [E|_]; [|reflexivity]. exfalso. revert E. apply tx_root; auto. unfold plc. destruct (map PKey h); discriminate.
Qed.
Lemma keys_both : forall h s fk pk kc k, tabs h s -> keyval_keys s = Ok (fk, pk) -> s.(p_keychain) = kc ++ [k] -> wfk (kc ++ [k]) -> named (plc h (kc ++ [k])) ->
  fk = tx (plc h (kc ++ [k])) /\ pk = tx (plc h kc).
Proof.
  intros h s fk pk kc k T H K W N. pose proof (keys_of _ _ _ _ T H) as E. destruct T as [T F]. rewrite K in E. rewrite tx_plc by auto. split; auto.
  assert (NP : named (plc h kc)) by (rewrite plc_snoc in N; apply named_app in N; apply N).
  assert (PK : forall kc', kc' = kc ++ [k] -> match kc' with [] | [_] => [] | _ => fold_left chain_step (removelast kc') [] end = chain kc).
  { intros kc' ->. unfold chain. destruct kc as [|k0 [|k1 kc]]; [reflexivity|reflexivity|]. change (removelast ((k0 :: k1 :: kc) ++ [k])) with (removelast (((k0 :: k1 :: kc)) ++ [k])). rewrite removelast_last. reflexivity. }
  unfold keyval_keys in H. destruct h as [|n h].
  - destruct T as (L & _ & _). rewrite L in H. unfold get_keychain_key in H. rewrite (PK _ K) in H. inversion H; subst. destruct kc as [|k0 kc]; [reflexivity|].
    rewrite tx_plc by auto. cbn [dpre app]. destruct (chain (k0 :: kc)) eqn:Q; auto. exfalso. eapply (wfk_chain [] (k0 :: kc)); eauto.
  - destruct T as (t & L & TS & TI & ET). rewrite L, TS, TI in H. unfold get_full_key in H. unfold vpush in H. cbn [app] in H.
    destruct (gatk_any s.(p_ovf) s.(p_map) t [TStandard t]) as (v & pk0 & X); [rewrite ET; apply names_not; auto|destruct t; [discriminate ET|discriminate]|].
    rewrite X in H. rewrite ET in H. clear X ET. unfold get_keychain_key in H. rewrite (PK _ K) in H.
    assert (D : exists c x, dotted_name (n :: h) = c :: x).
    { inversion F as [|? ? NT _]; subst. apply name_ne in NT. destruct n as [|c n]; [congruence|]. destruct h; cbn [dotted_name app]; eauto. }
    assert (R : pk = dotted_name (n :: h) ++ match chain kc with [] => [] | _ => lit "." end ++ chain kc).
    { destruct D as (c & x & D). rewrite D in *. cbn [rbind] in H. inversion H. reflexivity. }
    rewrite R. clear H D. destruct kc as [|k0 kc].
    + replace (plc (n :: h) []) with (map PKey (n :: h)) by (unfold plc; cbn [map]; rewrite app_nil_r; reflexivity).
      rewrite (tx_keys (n :: h)), dpar_dotted by (auto; discriminate). unfold chain. cbn [fold_left app]. apply app_nil_r.
    + rewrite tx_plc by auto. unfold dpre. destruct (chain (k0 :: kc)) eqn:Q; [exfalso; eapply (wfk_chain (n :: h) (k0 :: kc)); eauto|]. rewrite <- app_assoc. reflexivity.
Qed.

(** ** One entry *)
Definition upd (e : option hash_value) (k : key) : option hash_value :=
  match e, k with
  | None, KIndex _ => Some hv_one_count
  | None, KStr n => Some (hv_one_keys n)
  | Some (HashValue v (Count c)), _ => Some (HashValue v (Count (c + 1)))
  | Some (HashValue v (Keys l)), KStr n => Some (HashValue v (Keys (fst (vinsert l n))))
  | Some (HashValue v (Keys l)), KIndex _ => e
  end.
Lemma parent_upd : forall m pk kc k m', update_parent m pk (kc ++ [k]) = Ok m' ->
  hget pk m' = upd (hget pk m) k /\ forall z, z <> pk -> hget z m' = hget z m.
Proof.
  intros m pk kc k m' H. unfold update_parent in H. rewrite vlast_last in H. destruct (hget pk m) as [[v [c|l]]|] eqn:Q; cbn [hv_subkeys hv_value] in H.
  - inversion H; subst. split; [rewrite hget_hput_same; reflexivity|]. intros z N. apply hget_hput_other; auto.
  - destruct k as [n|i]; inversion H; subst; [split; [rewrite hget_hput_same; reflexivity|intros z N; apply hget_hput_other; auto]|]. split; [cbn [upd]; auto|auto].
  - destruct k as [n|i]; inversion H; subst; (split; [rewrite hget_hput_same; reflexivity|]); intros z N; apply hget_hput_other; auto.
Qed.
Lemma insert_kid : forall h s c s' kc k, tabs h s -> insert_keyval_into_map s c = Ok s' -> s.(p_keychain) = kc ++ [k] -> wfk (kc ++ [k]) -> named (plc h (kc ++ [k])) ->
  hget (tx (plc h (kc ++ [k]))) s.(p_map) = pending c.(c_val) ->
  hget (tx (plc h (kc ++ [k]))) s'.(p_map) = held c /\ hget (tx (plc h kc)) s'.(p_map) = upd (hget (tx (plc h kc)) s.(p_map)) k /\
  forall z, z <> tx (plc h (kc ++ [k])) -> z <> tx (plc h kc) -> hget z s'.(p_map) = hget z s.(p_map).
Proof.
  intros h s c s' kc k T H K W N PE. unfold insert_keyval_into_map in H. apply rbind_ok in H as ([fk pk] & KK & H).
  destruct (keys_both _ _ _ _ _ _ T KK K W N) as [-> ->]. rewrite PE in H. set (B := tx (plc h (kc ++ [k]))) in *. set (P := tx (plc h kc)) in *.
  assert (NE : P <> B).
  { intros E. apply tx_inj in E; auto; [|rewrite plc_snoc in N; apply named_app in N; apply N]. rewrite plc_snoc in E. apply (f_equal (@length pstep)) in E. rewrite app_length in E. cbn [length] in E. lia. }
  assert (X : exists m hv, update_parent (hput B hv (p_map s)) P (p_keychain s) = Ok m /\ s' = set_map m s /\ Some hv = held c).
  { destruct (pending (c_val c)) as [[v sub]|] eqn:Q.
    - assert (v = None /\ sub = tkids (c_val c)) as [-> ->]. { destruct (c_val c) as [| | | |[|]| |[|]|]; cbn [pending] in Q; inversion Q; auto. }
      apply rbind_ok in H as (m & U & H). inversion H; subst. eauto 6.
    - apply rbind_ok in H as (m & U & H). inversion H; subst. eexists _, _. split; [exact U|]. split; auto. unfold held.
      destruct (c_val c) as [| | | |[|]| |[|]|] eqn:CV; cbn [pending] in Q; try discriminate; try reflexivity. }
  destruct X as (m & hv & U & -> & HV). rewrite K in U. apply parent_upd in U as [U1 U2]. cbn [p_map set_map].
  split; [rewrite U2 by auto; rewrite hget_hput_same; exact HV|]. split.
  - rewrite U1. f_equal. apply hget_hput_other. auto.
  - intros z Z1 Z2. rewrite U2 by auto. apply hget_hput_other. auto.
Qed.

(** ** A value and all that is inside *)
Definition fresh (m : vmap) (B : list pstep) : Prop := forall r, named r -> hget (tx (B ++ r)) m = None.
Definition outside (m m' : vmap) (B : list pstep) : Prop := forall z, (forall r, named r -> z <> tx (B ++ r)) -> hget z m' = hget z m.
Definition look (c : cell) (r : list pstep) : option hash_value := match tat c r with Some y => held y | None => None end.
Definition inheld (m : vmap) (B : list pstep) (c : cell) : Prop := forall r, r <> [] -> named r -> hget (tx (B ++ r)) m = look c r.
Definition allheld (m : vmap) (B : list pstep) (c : cell) : Prop := forall r, named r -> hget (tx (B ++ r)) m = look c r.
Definition knamed (c : cell) : Prop := forall r y, tat c r = Some y -> named r.
Definition frame (m m' : vmap) (B E : list pstep) : Prop := forall z, z <> tx B -> (forall r, named r -> z <> tx (E ++ r)) -> hget z m' = hget z m.
Lemma tx_ne : forall p q, named p -> named q -> p <> q -> tx p <> tx q.
Proof. intros p q P Q N E. apply N. apply tx_inj; auto. Qed.
Lemma longer : forall (B : list pstep) x r, B <> (B ++ [x]) ++ r.
Proof. intros B x r E. apply (f_equal (@length pstep)) in E. rewrite !app_length in E. cbn [length] in E. lia. Qed.
Lemma insert_all : forall h s1 c s2 kc k m0, tabs h s1 -> insert_keyval_into_map s1 c = Ok s2 -> s1.(p_keychain) = kc ++ [k] -> wfk (kc ++ [k]) -> named (plc h (kc ++ [k])) ->
  outside m0 s1.(p_map) (plc h (kc ++ [k])) -> hget (tx (plc h (kc ++ [k]))) s1.(p_map) = pending c.(c_val) -> inheld s1.(p_map) (plc h (kc ++ [k])) c ->
  allheld s2.(p_map) (plc h (kc ++ [k])) c /\ hget (tx (plc h kc)) s2.(p_map) = upd (hget (tx (plc h kc)) m0) k /\ frame m0 s2.(p_map) (plc h kc) (plc h (kc ++ [k])).
Proof.
  intros h s1 c s2 kc k m0 T H K W N O PE IH. destruct (insert_kid _ _ _ _ _ _ T H K W N PE) as (A1 & A2 & A3).
  assert (EQ : plc h (kc ++ [k]) = plc h kc ++ [key_step k]) by apply plc_snoc. rewrite EQ in *. set (B := plc h kc) in *. set (x := key_step k) in *.
  assert (NB : named B) by (apply named_app in N; apply N).
  assert (NE : forall r, named r -> tx B <> tx ((B ++ [x]) ++ r)). { intros r R. apply tx_ne; auto; [apply named_app; auto|apply longer]. }
  split; [|split].
  - intros r NR. destruct r as [|z r]; [rewrite app_nil_r; exact A1|].
    rewrite A3; [apply IH; auto; discriminate| |].
    + apply tx_ne; auto; [apply named_app; auto|]. intros E. rewrite <- (app_nil_r (B ++ [x])) in E at 2. apply app_inv_head in E. discriminate.
    + intros E. symmetry in E. revert E. apply NE. auto.
  - rewrite A2. f_equal. apply O. auto.
  - intros z Z1 Z2. rewrite A3; auto. specialize (Z2 [] ltac:(constructor)). rewrite app_nil_r in Z2. exact Z2.
Qed.

Definition vkid (p : P cell) : Prop := forall h s i s' r c, p s i = Ok (s', Done r c) -> tabs h s -> s.(p_array_error) = false ->
  wfk s.(p_keychain) -> named (plc h s.(p_keychain)) -> clean s' -> fresh s.(p_map) (plc h s.(p_keychain)) ->
  knamed c /\ outside s.(p_map) s'.(p_map) (plc h s.(p_keychain)) /\ hget (tx (plc h s.(p_keychain))) s'.(p_map) = pending c.(c_val) /\
  inheld s'.(p_map) (plc h s.(p_keychain)) c.
Definition cnt (j : N) : option hash_value := if j =? 0 then None else Some (HashValue None (Count j)).
Definition nms (l : list str) : option hash_value := match l with [] => None | _ => Some (HashValue None (Keys l)) end.
Lemma upd_cnt : forall j i, upd (cnt j) (KIndex i) = cnt (j + 1).
Proof.
  intros j i. unfold cnt. destruct (N.eqb_spec j 0) as [->|N]; [reflexivity|]. cbn [upd]. destruct (N.eqb_spec (j + 1) 0); [lia|reflexivity].
Qed.
Lemma vinsert_new : forall l n, ~ In n l -> fst (vinsert l n) = l ++ [n].
Proof.
  intros l n N. unfold vinsert. destruct (vcontains l n) eqn:Q; [|reflexivity]. exfalso. apply N. apply vcontains_in. exact Q.
Qed.
Lemma upd_nms : forall l n, ~ In n l -> upd (nms l) (KStr n) = nms (l ++ [n]).
Proof.
  intros l n N. destruct l as [|x l]; [reflexivity|]. cbn [nms upd]. rewrite vinsert_new by auto. reflexivity.
Qed.
Lemma fresh_app : forall m B x, fresh m B -> sname x -> fresh m (B ++ [x]).
Proof. intros m B x F S r R. rewrite <- app_assoc. apply F. constructor; auto. Qed.
Lemma idx_split : forall (B : list pstep) x r, (B ++ [x]) ++ r = B ++ x :: r.
Proof. intros. rewrite <- app_assoc. reflexivity. Qed.

Section KidVal.
  Variable pval : P cell.
  Hypothesis PV : vfault pval.
  Hypothesis RV : reads pval cell_src.
  Hypothesis NV : forall s i s' r c, pval s i = Ok (s', Done r c) -> r <> i.
  Hypothesis CV : pres calm pval.
  Hypothesis GV : pres errors_grow pval.
  Hypothesis WV : vput pval.
  Hypothesis WK : vkid pval.

  Lemma value_kid : forall h s i s' r a kc j, array_value_ pval s i = Ok (s', Done r a) -> tabs h s -> s.(p_array_error) = false ->
    s.(p_keychain) = kc ++ [KIndex j] -> wfk kc -> named (plc h kc) -> clean s' -> fresh s.(p_map) (plc h kc ++ [PIdx j]) ->
    knamed a.(av_val) /\ allheld s'.(p_map) (plc h kc ++ [PIdx j]) a.(av_val) /\ hget (tx (plc h kc)) s'.(p_map) = upd (hget (tx (plc h kc)) s.(p_map)) (KIndex j) /\
    frame s.(p_map) s'.(p_map) (plc h kc) (plc h kc ++ [PIdx j]).
  Proof.
    intros h s i s' r a kc j H T AE K W N C F. unfold array_value_ in H. apply bind_done in H as (s1 & i1 & c & E1 & H).
    apply bind_done in H as (s2 & i2 & sep & E2 & H). apply bind_done in H as (s3 & i3 & nls & E3 & H).
    apply act_done in H as (-> & H).
    assert (s2 = s1) by (eapply (pure_state (opt (complete array_sep))); [pure_tac; apply pure_sep|exact E2]). subst s2.
    apply complete_done in E3. apply cons_state in E3. subst s3.
    pose proof (CV _ _ _ _ E1) as C1. destruct PV as [D _]. destruct (D _ _ _ _ _ _ _ E1 K) as (K1 & _ & _ & _).
    pose proof H as HA. apply array_value_effect in HA as [EA _]. subst a. cbn [av_val].
    unfold array_value_act in H. apply rbind_ok in H as (ty & TY & H). apply rbind_ok in H as (s2 & M & H).
    apply rbind_ok in H as (s3 & I & H).
    assert (M2 : s2.(p_keychain) = s1.(p_keychain) /\ s2.(p_map) = s1.(p_map) /\ calm s1 s2 /\ errors_grow s1 s2).
    { unfold check_mixed in M. destruct (vlast (p_atypes s1)); [|inversion M; subst; split; auto; split; auto; split; [apply calm_same; auto|apply grow_same; auto]].
      destruct (_ && _); [|inversion M; subst; split; auto; split; auto; split; [apply calm_same; auto|apply grow_same; auto]].
      apply rbind_ok in M as ([[x fk] pk] & _ & M). destruct (match vlast (p_errors s1) with Some _ => _ | None => _ end); inversion M; subst; split; auto; split; auto;
        (split; [apply calm_same; auto|]); [eapply grow_push; reflexivity|apply grow_same; auto]. }
    destruct M2 as (K2 & MM & C2 & G2).
    match type of I with insert_keyval_into_map ?x _ = _ => set (s2' := x) in * end.
    assert (KK : s2'.(p_keychain) = kc ++ [KIndex j]) by (cbn; congruence).
    assert (T2 : tabs h s2') by (eapply tabs_calm; [|exact T]; eapply calm_trans; [exact C1|]; eapply calm_trans; [exact C2|apply calm_same; reflexivity]).
    assert (ES : s'.(p_map) = s3.(p_map) /\ s'.(p_errors) = s3.(p_errors)).
    { destruct (nth_error _ _) in H; inversion H; subst; split; reflexivity. }
    destruct ES as [ES1 ES2].
    assert (CL3 : clean s3) by (eapply clean_same; [|exact C]; congruence).
    assert (CL1 : clean s1).
    { eapply clean_back; [exact G2|]. apply (clean_same s2 s2'); [reflexivity|]. eapply clean_back; [|exact CL3]. eapply grow_insert; eauto. }
    assert (EQ : plc h (kc ++ [KIndex j]) = plc h kc ++ [PIdx j]) by apply plc_snoc.
    assert (W2 : wfk (kc ++ [KIndex j])) by (apply wfk_snoc; auto).
    assert (N2 : named (plc h (kc ++ [KIndex j]))) by (rewrite EQ; apply named_app; split; auto; repeat constructor).
    pose proof (WK h _ _ _ _ _ E1 T AE) as X. rewrite K in X. destruct X as (X1 & X2 & X3 & X4); auto; [rewrite EQ; auto|].
    assert (MS : s2'.(p_map) = s1.(p_map)) by exact MM. rewrite <- MS in X2, X3, X4. rewrite ES1.
    destruct (insert_all h _ _ _ _ _ s.(p_map) T2 I KK W2 N2 X2 X3 X4) as (Y1 & Y2 & Y3). rewrite EQ in Y1, Y3. auto.
  Qed.
  Lemma values_kid : forall n h s i s' r l kc j, many_loop n (array_value_ pval) s i = Ok (s', Done r l) ->
    (forall s s', array_value_ pval s r = Ok (s', Error) -> s' = s) -> tabs h s -> s.(p_array_error) = false ->
    s.(p_keychain) = kc ++ [KIndex j] -> wfk kc -> named (plc h kc) -> clean s' ->
    hget (tx (plc h kc)) s.(p_map) = cnt j -> (forall x, j <= x -> fresh s.(p_map) (plc h kc ++ [PIdx x])) ->
    (forall x a, nth_error l x = Some a -> knamed a.(av_val) /\ allheld s'.(p_map) (plc h kc ++ [PIdx (j + N.of_nat x)]) a.(av_val)) /\
    hget (tx (plc h kc)) s'.(p_map) = cnt (j + nlen l) /\
    forall z, z <> tx (plc h kc) -> (forall x r, j <= x -> x < j + nlen l -> named r -> z <> tx (plc h kc ++ PIdx x :: r)) -> hget z s'.(p_map) = hget z s.(p_map).
  Proof.
    induction n; intros h s i s' r l kc j H F T AE K W N C P FR; [discriminate|]. cbn [many_loop] in H.
    assert (Z : l = [] -> s'.(p_map) = s.(p_map) -> (forall x a, nth_error l x = Some a -> knamed a.(av_val) /\ allheld s'.(p_map) (plc h kc ++ [PIdx (j + N.of_nat x)]) a.(av_val)) /\
      hget (tx (plc h kc)) s'.(p_map) = cnt (j + nlen l) /\
      forall z, z <> tx (plc h kc) -> (forall x r, j <= x -> x < j + nlen l -> named r -> z <> tx (plc h kc ++ PIdx x :: r)) -> hget z s'.(p_map) = hget z s.(p_map)).
    { intros -> ->. split; [intros [|x] a X; discriminate|]. split; auto. cbn [nlen length N.of_nat]. change (nlen (@nil array_value)) with 0. rewrite N.add_0_r. exact P. }
    destruct i as [|c i]; [inversion H; subst; apply Z; auto|]. apply rbind_ok in H as ([s1 r1] & E & H).
    destruct r1 as [i1 a| |]; [|inversion H; subst; apply Z; auto; rewrite (F _ _ E); reflexivity|discriminate]. clear Z.
    destruct (Nat.eqb _ _) eqn:NB; [exfalso; apply Nat.eqb_eq in NB; eapply (value_moves pval RV NV); eauto|]. apply rbind_ok in H as ([s2 r2] & E2 & H). destruct r2 as [i0 l0| |]; [|discriminate H|discriminate H]. injection H as <- <- <-.
    assert (C1 : clean s1). { eapply clean_back; [|exact C]. eapply (pres_loop errors_grow); [intros; apply grow_same; auto|exact grow_trans|apply (grow_value pval GV)|exact E2]. }
    pose proof (calm_value pval CV _ _ _ _ E) as P0.
    destruct (value_put pval PV NV CV WV h _ _ _ _ _ _ _ E T AE K (wfk_chain _ _ W N) C1) as (K1 & _ & _).
    destruct (value_kid h _ _ _ _ _ kc j E T AE K W N C1 (FR j (N.le_refl j))) as (Y1 & Y2 & Y3 & Y4).
    set (B := plc h kc) in *. rewrite P, upd_cnt in Y3.
    assert (NI : forall x r, named r -> named (B ++ PIdx x :: r)) by (intros x r0 R; apply named_app; split; auto; constructor; auto; exact I).
    assert (TB : forall x r, named r -> tx (B ++ PIdx x :: r) <> tx B).
    { intros x r0 R. apply tx_ne; auto. intros Q. rewrite <- (app_nil_r B) in Q at 2. apply app_inv_head in Q. discriminate. }
    destruct (IHn h _ _ _ _ _ kc (j + 1) E2) as (A1 & A2 & A3); auto; [eapply tabs_calm; eauto|rewrite (ca_aerr _ _ P0); auto| |].
    { intros x X r0 R. rewrite idx_split. fold B. rewrite Y4; auto; [rewrite <- idx_split; apply FR; auto; lia|].
      intros r1 R1. rewrite idx_split. apply tx_ne; auto. intros Q. apply app_inv_head in Q. injection Q as Q _. lia. }
    fold B in A1, A2, A3. split; [|split].
    - intros [|x] b X; cbn [nth_error] in X.
      + injection X as <-. split; auto. rewrite N.add_0_r. intros r0 R. rewrite idx_split. rewrite A3; auto; [rewrite <- idx_split; auto|].
        intros x r1 L _ R1. apply tx_ne; auto. intros Q. apply app_inv_head in Q. injection Q as Q _. lia.
      + apply A1 in X. replace (j + N.of_nat (S x)) with (j + 1 + N.of_nat x) by lia. exact X.
    - rewrite A2. f_equal. unfold nlen. cbn [length]. lia.
    - assert (NLN : nlen (a :: l0) = 1 + nlen l0) by (unfold nlen; cbn [length]; lia). rewrite NLN.
      intros z Z1 Z2. rewrite A3; auto; [|intros; apply Z2; auto; lia]. apply Y4; auto. intros r0 R. rewrite idx_split. apply Z2; auto; lia.
  Qed.
  Lemma array_kid : forall h s i s' r t n, array_ pval s i = Ok (s', Done r t) -> tabs h s -> s.(p_array_error) = false ->
    wfk s.(p_keychain) -> named (plc h s.(p_keychain)) -> clean s' -> fresh s.(p_map) (plc h s.(p_keychain)) ->
    knamed (Cell n t) /\ outside s.(p_map) s'.(p_map) (plc h s.(p_keychain)) /\ hget (tx (plc h s.(p_keychain))) s'.(p_map) = pending t /\
    inheld s'.(p_map) (plc h s.(p_keychain)) (Cell n t).
  Proof.
    intros h s i s' r t n H T AE W N C FR.
    unfold array_ in H. apply rbind_ok in H as ([s1 r1] & E & H). inversion H; subst s' r1; clear H. unfold array_internal_ in E.
    apply bind_done in E as (s2 & i2 & u & E2 & E). apply bind_done in E as (s3 & i3 & n1 & E3 & E).
    apply bind_done in E as (s4 & i4 & vals & E4 & E). apply bind_done in E as (s5 & i5 & n2 & E5 & E).
    apply bind_done in E as (s6 & i6 & u2 & E6 & E). apply ret_done in E as (-> & -> & ->).
    apply cons_state in E3 as E3'. subst s3. apply cons_state in E5 as E5'. subst s5.
    apply tag_done in E2 as (-> & -> & ->). apply tag_done in E6 as (-> & -> & ->).
    assert (GH := gap_head _ _ _ _ _ E5 ltac:(unfold gap_chars; cbn; auto 8)).
    unfold array_values_, many0 in E4.
    apply (values_kid _ h _ _ _ _ _ s.(p_keychain) 0) in E4 as (A1 & A2 & A3); auto.
    - cbn [c_val]. split; [|split; [|split]].
      + intros r0 y Y. destruct r0 as [|[x|k] r0]; [constructor| |discriminate]. cbn [tat c_val] in Y. destruct (nth_error vals (N.to_nat x)) as [a|] eqn:Q; [|discriminate].
        apply A1 in Q as [Q _]. constructor; [exact I|]. eapply Q; eauto.
      + intros z Z. apply A3; [specialize (Z [] ltac:(constructor)); rewrite app_nil_r in Z; exact Z|]. intros x r0 _ _ R. apply Z. constructor; auto. exact I.
      + etransitivity; [exact A2|]. unfold cnt. destruct vals as [|v vals]; [reflexivity|]. cbn [pending tkids]. destruct (N.eqb_spec (0 + nlen (v :: vals)) 0) as [Q|_]; [exfalso; unfold nlen in Q; cbn [length] in Q; lia|].
        rewrite N.add_0_l. reflexivity.
      + intros r0 NE R. set (B := plc h (p_keychain s)) in *.
        assert (TB : tx (B ++ r0) <> tx B). { apply tx_ne; auto; [apply named_app; auto|]. intros Q. rewrite <- (app_nil_r B) in Q at 2. apply app_inv_head in Q. congruence. }
        destruct r0 as [|[x|k] r0]; [congruence| |].
        * unfold look. cbn [tat c_val]. inversion R as [|? ? _ R0]; subst. destruct (nth_error vals (N.to_nat x)) as [a|] eqn:Q.
          -- apply A1 in Q as [_ Q]. replace (0 + N.of_nat (N.to_nat x)) with x in Q by lia. rewrite <- idx_split. apply Q. exact R0.
          -- apply nth_error_None in Q. rewrite A3; [apply FR; auto|auto|]. intros y r1 _ L R1. apply tx_ne; try (apply named_app; split; auto); [constructor; auto; exact I|].
             intros X. apply app_inv_head in X. injection X as X _. unfold nlen in L. lia.
        * unfold look. cbn [tat c_val]. rewrite A3; [apply FR; auto|auto|]. intros x r1 _ _ R1. apply tx_ne; try (apply named_app; split; auto); [constructor; auto; exact I|].
          intros Q. apply app_inv_head in Q. discriminate.
    - intros s0 s0' X. unfold array_value_ in X. unfold bind at 1 in X. apply rbind_ok in X as ([s1 r1] & X1 & X).
      apply (stop_clean pval PV) in X1 as [X1 [-> | ->]]; [inversion X; subst; auto|inversion X|]. exact GH.
    - specialize (FR [] ltac:(constructor)). rewrite app_nil_r in FR. exact FR.
    - intros x _. apply (fresh_app _ _ (PIdx x)) in FR; [exact FR|exact I].
  Qed.
  Lemma keyval_kid : forall h s i s' r kv kc, keyval_p_ pval s i = Ok (s', Done r kv) -> tabs h s -> s.(p_array_error) = false ->
    s.(p_keychain) = kc -> (kc = [] \/ wfk kc) -> named (plc h kc) -> clean s' -> fresh s.(p_map) (plc h kc ++ [PKey kv.(kv_key)]) ->
    knamed kv.(kv_val) /\ allheld s'.(p_map) (plc h kc ++ [PKey kv.(kv_key)]) kv.(kv_val) /\
    hget (tx (plc h kc)) s'.(p_map) = upd (hget (tx (plc h kc)) s.(p_map)) (KStr kv.(kv_key)) /\ frame s.(p_map) s'.(p_map) (plc h kc) (plc h kc ++ [PKey kv.(kv_key)]).
  Proof.
    intros h s i s' r kv kc H T AE K W N C F. unfold keyval_p_ in H. apply bind_done in H as (s1 & i1 & k & E1 & H).
    apply bind_done in H as (s2 & i2 & sep & E2 & H). apply bind_done in H as (s3 & i3 & c & E3 & H).
    apply act_done in H as (-> & H). pose proof (key_text _ _ _ _ _ E1) as [_ NK]. apply key_pushed in E1. subst s1.
    assert (s2 = push_key (KStr k) s) by (eapply (pure_state keyval_sep); [apply pure_kvsep|exact E2]). subst s2.
    destruct PV as [D _]. destruct (D _ _ _ _ _ s.(p_keychain) (KStr k) E3 eq_refl) as (K3 & _ & _ & _).
    pose proof (CV _ _ _ _ E3) as C3. unfold keyval_act in H.
    assert (A3 : p_array_error s3 = false) by (rewrite (ca_aerr _ _ C3); exact AE). rewrite A3 in H.
    apply rbind_ok in H as (s4 & I & H). inversion H; subst s' kv; clear H. cbn [kv_key kv_val p_keychain p_map pop_key set_keychain] in *.
    cbn [push_key set_keychain p_keychain] in *. unfold vpush in *. rewrite K in *.
    assert (CL4 : clean s4) by (eapply clean_same; [|exact C]; reflexivity).
    assert (CL3 : clean s3) by (eapply clean_back; [eapply grow_insert; eauto|exact CL4]).
    assert (T2 : tabs h (push_key (KStr k) s)) by (destruct T; split; auto).
    assert (KP : p_keychain (push_key (KStr k) s) = kc ++ [KStr k]) by (cbn; unfold vpush; congruence).
    assert (EQ : plc h (kc ++ [KStr k]) = plc h kc ++ [PKey k]) by apply plc_snoc.
    assert (W2 : wfk (kc ++ [KStr k])) by (destruct W as [-> |W]; [exact Logic.I|apply wfk_snoc; auto]).
    assert (N2 : named (plc h (kc ++ [KStr k]))) by (rewrite EQ; apply named_app; split; auto; constructor; [exact NK|constructor]).
    pose proof (WK h _ _ _ _ _ E3 T2 AE) as X. rewrite KP in X. destruct X as (X1 & X2 & X3 & X4); auto; [rewrite EQ; auto|].
    cbn [p_map push_key set_keychain] in X2.
    destruct (insert_all h _ _ _ _ _ s.(p_map) (tabs_calm _ _ _ C3 T2) I K3 W2 N2 X2 X3 X4) as (Y1 & Y2 & Y3). rewrite EQ in Y1, Y3. auto.
  Qed.
  Lemma entries_kid : forall n h s i s' r l kc pre, many_loop n (table_keyval_p_ pval) s i = Ok (s', Done r l) ->
    (forall s s', table_keyval_p_ pval s r = Ok (s', Error) -> s' = s) ->
    tabs h s -> s.(p_array_error) = false -> s.(p_keychain) = kc -> wfk kc -> named (plc h kc) -> clean s' ->
    hget (tx (plc h kc)) s.(p_map) = nms pre -> (forall n, name_text n -> ~ In n pre -> fresh s.(p_map) (plc h kc ++ [PKey n])) ->
    (forall n, In n pre -> exists y, stored s.(p_map) (tx (plc h kc ++ [PKey n])) y) ->
    (forall t, In t l -> name_text t.(tk_kv).(kv_key) /\ ~ In t.(tk_kv).(kv_key) pre /\ knamed t.(tk_kv).(kv_val) /\
       allheld s'.(p_map) (plc h kc ++ [PKey t.(tk_kv).(kv_key)]) t.(tk_kv).(kv_val)) /\
    hget (tx (plc h kc)) s'.(p_map) = nms (pre ++ map (fun t => t.(tk_kv).(kv_key)) l) /\
    forall z, z <> tx (plc h kc) -> (forall t r, In t l -> named r -> z <> tx (plc h kc ++ PKey t.(tk_kv).(kv_key) :: r)) -> hget z s'.(p_map) = hget z s.(p_map).
  Proof.
    induction n; intros h s i s' r l kc pre H F T AE K W N C P FR ST; [discriminate|]. cbn [many_loop] in H.
    assert (Z : l = [] -> s'.(p_map) = s.(p_map) -> (forall t, In t l -> name_text t.(tk_kv).(kv_key) /\ ~ In t.(tk_kv).(kv_key) pre /\ knamed t.(tk_kv).(kv_val) /\
       allheld s'.(p_map) (plc h kc ++ [PKey t.(tk_kv).(kv_key)]) t.(tk_kv).(kv_val)) /\
       hget (tx (plc h kc)) s'.(p_map) = nms (pre ++ map (fun t => t.(tk_kv).(kv_key)) l) /\
       forall z, z <> tx (plc h kc) -> (forall t r, In t l -> named r -> z <> tx (plc h kc ++ PKey t.(tk_kv).(kv_key) :: r)) -> hget z s'.(p_map) = hget z s.(p_map)).
    { intros -> ->. split; [intros t []|]. split; auto. cbn [map]. rewrite app_nil_r. exact P. }
    destruct i as [|c i]; [inversion H; subst; apply Z; auto|]. apply rbind_ok in H as ([s1 r1] & E & H).
    destruct r1 as [i1 a| |]; [|inversion H; subst; apply Z; auto; rewrite (F _ _ E); reflexivity|discriminate]. clear Z.
    destruct (Nat.eqb _ _) eqn:NB.
    { exfalso. apply Nat.eqb_eq in NB. apply (reads_table_keyval pval RV) in E. apply (f_equal (@length BinNums.N)) in E.
      unfold tk_src, tk_src_, sep_src in E. rewrite !app_length in E. change (length (lit "=")) with 1%nat in E. lia. }
    apply rbind_ok in H as ([s2 r2] & E2 & H). destruct r2 as [i0 l0| |]; [|discriminate H|discriminate H]. injection H as <- <- <-.
    assert (C1 : clean s1). { eapply clean_back; [|exact C]. eapply (pres_loop errors_grow); [intros; apply grow_same; auto|exact grow_trans|apply (grow_entry pval GV)|exact E2]. }
    pose proof (calm_entry pval CV _ _ _ _ E) as P0.
    unfold table_keyval_p_ in E. apply bind_done in E as (s3 & i2 & kv & E1 & E).
    apply bind_done in E as (s4 & i3 & sep & E3 & E). apply bind_done in E as (s5 & i4 & nls & E4 & E). apply ret_done in E as (-> & -> & ->).
    apply sep_lf in E3 as [-> SP]. apply complete_done in E4. apply cons_state in E4. subst s5.
    destruct (keyval_put pval PV CV WV h _ _ _ _ _ kc E1 T AE K C1) as (K1 & _ & NK & WH & FRS).
    set (k := kv_key kv) in *. set (B := plc h kc) in *.
    assert (EQ : plc h (kc ++ [KStr k]) = B ++ [PKey k]) by apply plc_snoc.
    assert (NBK : named (B ++ [PKey k])) by (apply named_app; split; auto; constructor; [exact NK|constructor]).
    assert (TK : dpre h ++ chain (kc ++ [KStr k]) = tx (B ++ [PKey k])).
    { rewrite <- EQ. symmetry. apply tx_plc; [apply T|apply wfk_snoc; auto|rewrite EQ; auto]. }
    rewrite TK in *.
    assert (NI : ~ In k pre) by (intros X; destruct (ST _ X) as (y & Y); exact (FRS y Y)).
    destruct (keyval_kid h _ _ _ _ _ kc E1 T AE K (or_intror W) N C1 (FR _ NK NI)) as (Y1 & Y2 & Y3 & Y4).
    fold B k in Y2, Y3, Y4. rewrite P, upd_nms in Y3 by auto.
    assert (TB : forall n r, named (PKey n :: r) -> tx (B ++ PKey n :: r) <> tx B).
    { intros x r0 R. apply tx_ne; auto; [apply named_app; auto|]. intros Q. rewrite <- (app_nil_r B) in Q at 2. apply app_inv_head in Q. discriminate. }
    assert (TN : forall n m r r', n <> m -> named (PKey n :: r) -> named (PKey m :: r') -> tx (B ++ PKey n :: r) <> tx (B ++ PKey m :: r')).
    { intros x y r0 r1 NE R0 R1. apply tx_ne; try (apply named_app; auto). intros Q. apply app_inv_head in Q. congruence. }
    destruct (IHn h _ _ _ _ _ kc (pre ++ [k]) E2) as (A1 & A2 & A3); auto; [eapply tabs_calm; eauto|rewrite (ca_aerr _ _ P0); auto| | |].
    { intros x XN XI r0 R. rewrite idx_split. fold B. assert (x <> k) by (intros ->; apply XI; apply in_or_app; right; left; reflexivity).
      assert (RX : named (PKey x :: r0)) by (constructor; auto).
      rewrite Y4; auto; [rewrite <- idx_split; apply FR; auto; intros X; apply XI; apply in_or_app; auto|].
      intros r1 R1. rewrite idx_split. apply TN; auto. constructor; auto. }
    { intros x XI. apply in_app_or in XI as [XI|[<-|[]]].
      - destruct (ST _ XI) as (y & Y). exists y. apply (ca_map _ _ P0). exact Y.
      - exists (kv_val kv). specialize (WH [] _ eq_refl). unfold path_text in WH. cbn [map concat] in WH. rewrite app_nil_r in WH. exact WH. }
    fold B in A1, A2, A3. split; [|split].
    - intros t [<-|X]; cbn [tk_kv].
      + fold k. split; auto. split; auto. split; auto. intros r0 R. rewrite idx_split.
        assert (RX : named (PKey k :: r0)) by (constructor; auto).
        rewrite A3; auto; [rewrite <- idx_split; auto|]. intros t r1 TI R1. apply A1 in TI as (T1 & T2 & _). apply TN; auto; [|constructor; auto]. intros Q. apply T2. rewrite <- Q. apply in_or_app. right. left. reflexivity.
      + apply A1 in X as (X1 & X2 & X3 & X4). split; auto. split; auto. intros Q. apply X2. apply in_or_app. auto.
    - rewrite A2. cbn [map tk_kv]. fold k. rewrite <- app_assoc. reflexivity.
    - intros z Z1 Z2. rewrite A3; auto; [|intros t r0 I R; apply Z2; auto; right; exact I].
      apply Y4; auto. intros r0 R. rewrite idx_split. pose proof (Z2 _ r0 (or_introl eq_refl) R) as X. exact X.
  Qed.
  Lemma inline_kid : forall h s i s' r t n, inline_table_ pval s i = Ok (s', Done r t) -> tabs h s -> s.(p_array_error) = false ->
    wfk s.(p_keychain) -> named (plc h s.(p_keychain)) -> clean s' -> fresh s.(p_map) (plc h s.(p_keychain)) ->
    knamed (Cell n t) /\ outside s.(p_map) s'.(p_map) (plc h s.(p_keychain)) /\ hget (tx (plc h s.(p_keychain))) s'.(p_map) = pending t /\
    inheld s'.(p_map) (plc h s.(p_keychain)) (Cell n t).
  Proof.
    intros h s i s' r t n E T AE W N C FR. unfold inline_table_ in E.
    apply bind_done in E as (s2 & i2 & u & E2 & E). apply bind_done in E as (s3 & i3 & w1 & E3 & E).
    apply bind_done in E as (s4 & i4 & kvs & E4 & E). apply bind_done in E as (s5 & i5 & w2 & E5 & E).
    apply bind_done in E as (s6 & i6 & u2 & E6 & E). apply ret_done in E as (-> & -> & ->).
    apply tag_done in E2 as (-> & -> & ->). apply tag_done in E6 as (-> & -> & ->).
    apply ws_blanks in E3 as (-> & -> & B1). apply ws_blanks in E5 as (-> & -> & B2).
    assert (HD : exists c x, w2 ++ lit "}" ++ i6 = c :: x /\ (c = 32 \/ c = 9 \/ c = 125)).
    { destruct w2 as [|c w2]; cbn [app]; [exists 125, i6; auto|]. inversion B2; subst. exists c, (w2 ++ lit "}" ++ i6). split; auto. lia. }
    destruct HD as (c & x & HD & CC). rewrite HD in E4.
    apply opt_done in E4 as [(l & -> & E4)|(-> & E & E4)].
    - apply complete_done in E4. unfold inline_table_keyvals_, many0 in E4.
      apply (entries_kid _ h _ _ _ _ _ s.(p_keychain) []) in E4 as (A1 & A2 & A3); auto.
      + assert (FD : forall k tk, find (fun x => Spec.same_key k x.(tk_kv).(kv_key)) l = Some tk -> In tk l /\ k = tk.(tk_kv).(kv_key)).
        { intros k tk Q. apply find_some in Q as [Q1 Q2]. split; auto. unfold Spec.same_key in Q2. destruct (list_eq_dec _ _ _); auto. discriminate. }
        cbn [c_val app] in *. split; [|split; [|split]].
        * intros r0 y Y. destruct r0 as [|[j|k] r0]; [constructor|discriminate|]. cbn [tat c_val] in Y. destruct (find _ l) as [tk|] eqn:Q; [|discriminate].
          apply FD in Q as [Q ->]. apply A1 in Q as (Q1 & _ & Q2 & _). constructor; [exact Q1|]. eapply Q2; eauto.
        * intros z Z. apply A3; [specialize (Z [] ltac:(constructor)); rewrite app_nil_r in Z; exact Z|]. intros tk r0 TI R. apply Z. apply A1 in TI as (T1 & _). constructor; auto.
        * etransitivity; [exact A2|]. destruct l as [|a l]; reflexivity.
        * intros r0 NE R. set (B := plc h (p_keychain s)) in *.
          assert (TB : tx (B ++ r0) <> tx B). { apply tx_ne; auto; [apply named_app; auto|]. intros Q. rewrite <- (app_nil_r B) in Q at 2. apply app_inv_head in Q. congruence. }
          destruct r0 as [|[j|k] r0]; [congruence| |].
          -- unfold look. cbn [tat c_val]. rewrite A3; [apply FR; auto|auto|]. intros tk r1 TI R1. apply A1 in TI as (T1 & _). apply tx_ne; try (apply named_app; split; auto); [constructor; auto|].
             intros Q. apply app_inv_head in Q. discriminate.
          -- unfold look. cbn [tat c_val]. inversion R as [|? ? _ R0]; subst. destruct (find _ l) as [tk|] eqn:Q.
             ++ apply FD in Q as [Q ->]. apply A1 in Q as (_ & _ & _ & Q2). rewrite <- idx_split. apply Q2. exact R0.
             ++ rewrite A3; [apply FR; auto|auto|]. intros tk r1 TI R1. pose proof (find_none _ _ Q tk TI) as NF. apply A1 in TI as (T1 & _). apply tx_ne; try (apply named_app; split; auto); [constructor; auto|].
                intros X. apply app_inv_head in X. injection X as X _. cbv beta in NF. unfold Spec.same_key in NF. destruct (list_eq_dec _ _ _); [discriminate|congruence].
      + intros s0 s0' X. rewrite (tk_stop pval) in X by auto. inversion X. reflexivity.
      + specialize (FR [] ltac:(constructor)). rewrite app_nil_r in FR. exact FR.
      + intros k NK _. apply (fresh_app _ _ (PKey k)) in FR; [exact FR|exact NK].
      + intros k [].
    - exfalso. subst. unfold complete, inline_table_keyvals_, many0 in E4. cbn [length many_loop] in E4. rewrite (tk_stop pval) in E4 by auto.
      cbn [rbind] in E4. discriminate.
  Qed.
End KidVal.

Lemma vkid_val_ : forall p, vfault p -> reads p cell_src -> (forall s i s' r c, p s i = Ok (s', Done r c) -> r <> i) ->
  pres calm p -> pres errors_grow p -> vput p -> vkid p -> vkid (val_ p).
Proof.
  intros p PV RV NV CV GV WV WK h s i s' r c H T AE W N C F. unfold val_ in H. apply alt_done in H as [H|(s1 & E1 & H)].
  { apply pcell_map in H as (s1 & a & H & EC & M & EE). destruct c as [n t]. cbn [c_val] in *. subst t.
    rewrite M. eapply (array_kid p); eauto. eapply clean_same; [|exact C]. auto. }
  apply alt_done in H as [H|(s2 & E2 & H)].
  { assert (s1 = s).
    { destruct i as [|x i]; [|destruct (N.eq_dec x 91)].
      - rewrite arr_err in E1 by exact I. inversion E1. auto.
      - exfalso. subst x. rewrite inl_err in H by (cbn; lia). discriminate.
      - rewrite arr_err in E1 by (cbn; auto). inversion E1. auto. }
    subst s1. apply pcell_map in H as (s1 & a & H & EC & M & EE). destruct c as [n t]. cbn [c_val] in *. subst t.
    rewrite M. eapply (inline_kid p); eauto. eapply clean_same; [|exact C]. auto. }
  pose proof H as H0. pose proof (scalar_plain _ _ _ _ _ H) as [_ PL]. apply holds_scalar in H as (_ & _ & _ & _ & O). assert (head_not 91 i /\ head_not 123 i) as [O1 O2] by (destruct i; cbn in *; lia).
  rewrite arr_err in E1 by auto. inversion E1; subst. rewrite inl_err in E2 by auto. inversion E2; subst. apply scalar_map in H0. unfold mapsame in H0. rewrite H0.
  assert (Z : forall r y, r <> [] -> tat c r <> Some y). { intros [|[x|x] r0] y NE Y; [congruence| |]; cbn [tat] in Y; destruct (c_val c); try discriminate; contradiction. }
  split; [|split; [|split]].
  - intros r0 y Y. destruct r0; [constructor|]. exfalso. eapply Z; [|exact Y]. discriminate.
  - intros z _. reflexivity.
  - specialize (F [] ltac:(constructor)). rewrite app_nil_r in F. rewrite F. destruct (c_val c); try reflexivity; contradiction.
  - intros r0 NE R. unfold look. destruct (tat c r0) eqn:Q; [exfalso; eapply Z; eauto|]. apply F. exact R.
Qed.
Lemma vkid_val : forall f, vkid (val f).
Proof.
  induction f; [discriminate|]. apply vkid_val_; auto; [apply vfault_val|apply reads_val|apply val_moves|apply calm_val|apply grow_val|apply vput_val].
Qed.
Lemma vkid_val_p : vkid val_p.
Proof. intros h s i s' r c H. eapply vkid_val. exact H. Qed.

(** ** The map of a document *)
Definition tk (q : list str) : str := tx (map PKey q).
Definition lpl (x : list str * keyval) : list pstep := map PKey (line_path x).
Definition child (Tb : list str -> Prop) (L : list (list str * keyval)) (q : list str) (n : str) : Prop := Tb (q ++ [n]) \/ exists x, In x L /\ line_path x = q ++ [n].
Record good (m : vmap) (Tb : list str -> Prop) (L : list (list str * keyval)) : Prop := {
  g_root : Tb [];
  g_up : forall q n, Tb (q ++ [n]) -> Tb q;
  g_names : forall q, Tb q -> Forall name_text q;
  g_line : forall x, In x L -> Tb (fst x) /\ name_text (snd x).(kv_key) /\ ~ Tb (line_path x);
  g_none : forall z, (forall q, Tb q -> z <> tk q) -> (forall x r, In x L -> named r -> z <> tx (lpl x ++ r)) -> hget z m = None;
  g_kids : forall q, Tb q -> exists v l, hget (tk q) m = Some (HashValue v (Keys l)) /\ NoDup l /\ forall n, In n l <-> child Tb L q n;
  g_held : forall x, In x L -> knamed (snd x).(kv_val) /\ allheld m (lpl x) (snd x).(kv_val) }.
Lemma keys_inj : forall a b : list str, map PKey a = map PKey b -> a = b.
Proof. induction a as [|x a IH]; intros [|y b] E; try discriminate; auto. cbn [map] in E. injection E as -> E. f_equal. auto. Qed.
Lemma keys_pre : forall (a b : list str) l, map PKey a = map PKey b ++ l -> exists c, a = b ++ c.
Proof.
  intros a b. revert a. induction b as [|y b IH]; intros a l E; [exists a; reflexivity|]. destruct a as [|x a]; [discriminate|]. cbn [map app] in E. injection E as -> E.
  apply IH in E as (c & ->). exists c. reflexivity.
Qed.
Lemma up_all : forall m Tb L, good m Tb L -> forall b q, Tb (q ++ b) -> Tb q.
Proof.
  intros m Tb L G. induction b as [|n b IH] using rev_ind; intros q H; [rewrite app_nil_r in H; exact H|]. rewrite app_assoc in H. apply (g_up _ _ _ G) in H. auto.
Qed.
Lemma line_names : forall m Tb L x, good m Tb L -> In x L -> Forall name_text (line_path x).
Proof. intros m Tb L x G I. destruct (g_line _ _ _ G x I) as (A & B & _). unfold line_path. apply Forall_app. split; [eapply g_names; eauto|constructor; auto]. Qed.
Lemma line_named : forall m Tb L x, good m Tb L -> In x L -> named (lpl x).
Proof. intros m Tb L x G I. apply named_keys. eapply line_names; eauto. Qed.
Lemma tk_inj : forall m Tb L q q', good m Tb L -> Tb q -> Forall name_text q' -> tk q = tk q' -> q = q'.
Proof. intros m Tb L q q' G A B E. apply keys_inj. apply tx_inj; auto; apply named_keys; auto. eapply g_names; eauto. Qed.
(** a table is not at or under a key/value *)
Lemma table_apart : forall m Tb L q A r, good m Tb L -> Tb q -> ~ Tb A -> Forall name_text A -> named r -> tk q <> tx (map PKey A ++ r).
Proof.
  intros m Tb L q A r G T NT F R E. apply tx_inj in E; [|apply named_keys; eapply g_names; eauto|apply named_app; split; auto; apply named_keys; auto].
  apply keys_pre in E as (c & ->). apply NT. eapply up_all; eauto.
Qed.
(** nor is a key/value at or under another one *)
Lemma lines_apart : forall m Tb L h k h' k' r r', good m Tb L -> Tb h -> Tb h' -> name_text k -> name_text k' -> ~ Tb (h ++ [k]) -> ~ Tb (h' ++ [k']) ->
  h ++ [k] <> h' ++ [k'] -> named r -> named r' -> tx (map PKey (h ++ [k]) ++ r) <> tx (map PKey (h' ++ [k']) ++ r').
Proof.
  intros m Tb L h k h' k' r r' G T T' K K' NT NT' NE R R' E.
  assert (X : forall h k, Tb h -> name_text k -> named (map PKey (h ++ [k]))). { intros a b A B. apply named_keys. apply Forall_app. split; [eapply g_names; eauto|constructor; auto]. }
  apply tx_inj in E; [|apply named_app; split; auto..].
  assert (Y : forall h k h' k' l, Tb h -> ~ Tb (h' ++ [k']) -> h ++ [k] <> h' ++ [k'] -> map PKey (h ++ [k]) <> map PKey (h' ++ [k']) ++ l).
  { clear - G. intros h k h' k' l T NT' NE E. destruct l as [|y l] using rev_ind; [rewrite app_nil_r in E; apply keys_inj in E; auto|].
    rewrite map_app in E at 1. cbn [map] in E. rewrite app_assoc in E. apply app_inj_tail in E as [E _]. apply keys_pre in E as (c & ->). apply NT'. eapply up_all; eauto. }
  apply app_eq_app in E as (l & [[E _]|[E _]]); revert E; apply Y; auto.
Qed.
Lemma line_fresh : forall m Tb L h k, good m Tb L -> Tb h -> name_text k -> ~ Tb (h ++ [k]) -> (forall x, In x L -> line_path x <> h ++ [k]) -> fresh m (map PKey (h ++ [k])).
Proof.
  intros m Tb L h k G T K NT NL r R. apply (g_none _ _ _ G).
  - intros q TQ E. symmetry in E. revert E. eapply table_apart; eauto. apply Forall_app. split; [eapply g_names; eauto|constructor; auto].
  - intros x r' I R'. destruct (g_line _ _ _ G x I) as (A & B & C). unfold lpl, line_path. eapply lines_apart; eauto. intros E. apply (NL x I). symmetry. exact E.
Qed.
Lemma vinsert_in : forall l k n, In n (fst (vinsert l k)) <-> In n l \/ n = k.
Proof.
  intros l k n. unfold vinsert. destruct (vcontains l k) eqn:Q; cbn [fst]; [apply vcontains_in in Q; split; [auto|intros [H| ->]; auto]|].
  unfold vpush. rewrite in_app_iff. cbn [In]. intuition.
Qed.
Lemma vinsert_nodup : forall l k, NoDup l -> NoDup (fst (vinsert l k)).
Proof.
  intros l k N. unfold vinsert. destruct (vcontains l k) eqn:Q; cbn [fst]; auto. unfold vpush. apply NoDup_Add with (a := k) (l := l).
  - clear. induction l as [|x l IH]; cbn [app]; constructor; auto.
  - split; auto. intros I. apply vcontains_in in I. congruence.
Qed.
Lemma good_line : forall m m' Tb L h kv, good m Tb L -> Tb h -> name_text kv.(kv_key) -> ~ Tb (h ++ [kv.(kv_key)]) -> (forall x, In x L -> line_path x <> h ++ [kv.(kv_key)]) ->
  knamed kv.(kv_val) -> allheld m' (map PKey h ++ [PKey kv.(kv_key)]) kv.(kv_val) -> hget (tk h) m' = upd (hget (tk h) m) (KStr kv.(kv_key)) ->
  frame m m' (map PKey h) (map PKey h ++ [PKey kv.(kv_key)]) -> good m' Tb (L ++ [(h, kv)]).
Proof.
  intros m m' Tb L h kv G T K NT NL KN AH UP FRM.
  assert (EQ : map PKey h ++ [PKey kv.(kv_key)] = map PKey (h ++ [kv.(kv_key)])) by (rewrite map_app; reflexivity). rewrite EQ in *. set (k := kv_key kv) in *.
  assert (FN : Forall name_text (h ++ [k])) by (apply Forall_app; split; [eapply g_names; eauto|constructor; auto]).
  constructor.
  - apply (g_root _ _ _ G).
  - apply (g_up _ _ _ G).
  - apply (g_names _ _ _ G).
  - intros x I. apply in_app_or in I as [I|[<-|[]]]; [apply (g_line _ _ _ G); auto|auto].
  - intros z Z1 Z2. rewrite FRM.
    + apply (g_none _ _ _ G); auto. intros x r I R. apply Z2; auto. apply in_or_app. auto.
    + apply Z1. auto.
    + intros r R. apply (Z2 (h, kv)); auto. apply in_or_app. right. left. reflexivity.
  - intros q TQ. destruct (g_kids _ _ _ G q TQ) as (v & l & E & ND & M). destruct (list_eq_dec (list_eq_dec N.eq_dec) q h) as [->|NE].
    + rewrite E in UP. cbn [upd] in UP. eexists _, _. split; [exact UP|]. split; [apply vinsert_nodup; auto|]. intros n. rewrite vinsert_in, M. unfold child. split.
      * intros [[H|(x & I & X)]| ->]; [auto|right; exists x; split; auto; apply in_or_app; auto|]. right. exists (h, kv). split; [apply in_or_app; right; left; reflexivity|reflexivity].
      * intros [H|(x & I & X)]; [auto|]. apply in_app_or in I as [I|[<-|[]]]; [left; right; eauto|]. right. unfold line_path in X. cbn [fst snd] in X. apply app_inj_tail in X as [_ X]. symmetry. exact X.
    + exists v, l. split; [|split; auto].
      * rewrite FRM; auto; [|intros r R; eapply table_apart; eauto]. intros X. apply NE. eapply tk_inj; eauto. eapply g_names; eauto.
      * intros n. rewrite M. unfold child. split; (intros [H|(x & I & X)]; [auto|]); right.
        -- exists x. split; auto. apply in_or_app. auto.
        -- apply in_app_or in I as [I|[<-|[]]]; [eauto|]. exfalso. unfold line_path in X. cbn [fst snd] in X. apply app_inj_tail in X as [X _]. congruence.
  - intros x I. apply in_app_or in I as [I|[<-|[]]]; [|auto]. destruct (g_held _ _ _ G x I) as [A B]. split; auto. intros r R.
    destruct (g_line _ _ _ G x I) as (A1 & A2 & A3). rewrite FRM; auto.
    + intros E. symmetry in E. revert E. eapply (table_apart m Tb L h (line_path x)); eauto. eapply line_names; eauto.
    + intros r' R'. unfold lpl, line_path. eapply lines_apart; eauto.
Qed.
Lemma good_head : forall m m' Tb L q k v l v', good m Tb L -> Tb q -> name_text k -> (forall x, In x L -> line_path x <> q ++ [k]) ->
  hget (tk q) m = Some (HashValue v (Keys l)) -> hget (tk q) m' = Some (HashValue v (Keys (fst (vinsert l k)))) ->
  hget (tk (q ++ [k])) m' = Some (HashValue v' (match hget (tk (q ++ [k])) m with Some hv => hv.(hv_subkeys) | None => Keys [] end)) ->
  (forall z, z <> tk q -> z <> tk (q ++ [k]) -> hget z m' = hget z m) -> good m' (fun p => Tb p \/ p = q ++ [k]) L.
Proof.
  intros m m' Tb L q k v l v' G T K NL E1 E2 E3 FRM.
  assert (FN : Forall name_text (q ++ [k])) by (apply Forall_app; split; [eapply g_names; eauto|constructor; auto]).
  destruct (g_kids _ _ _ G q T) as (v0 & l0 & E0 & ND & M). rewrite E1 in E0. injection E0 as <- <-.
  assert (ST : forall p n, (Tb (p ++ [n]) \/ p ++ [n] = q ++ [k]) -> Tb p) by (intros p n [H|H]; [eapply g_up; eauto|apply app_inj_tail in H as [-> _]; auto]).
  assert (NEQ : q <> q ++ [k]) by (intros X; apply (f_equal (@length str)) in X; rewrite app_length in X; cbn [length] in X; lia).
  constructor.
  - left. apply (g_root _ _ _ G).
  - intros p n H. left. eapply ST; eauto.
  - intros p [H| ->]; [eapply g_names; eauto|auto].
  - intros x I. destruct (g_line _ _ _ G x I) as (A & B & C). split; auto. split; auto. intros [H|H]; [auto|]. apply (NL x I H).
  - intros z Z1 Z2. rewrite FRM; [apply (g_none _ _ _ G); auto|apply Z1; auto|apply Z1; auto].
  - intros p TP. destruct (list_eq_dec (list_eq_dec N.eq_dec) p (q ++ [k])) as [->|NP].
    + destruct (hget (tk (q ++ [k])) m) as [hv|] eqn:Q.
      * assert (TQ : ~ ~ Tb (q ++ [k])).
        { intros NT. assert (N : hget (tk (q ++ [k])) m = None); [|congruence].
          pose proof (line_fresh _ _ _ _ _ G T K NT NL [] ltac:(constructor)) as X. rewrite app_nil_r in X. exact X. }
        assert (TQ2 : Tb (q ++ [k])).
        { destruct (in_dec (list_eq_dec N.eq_dec) k l) as [I|I]; [apply M in I as [I|(x & I & X)]; auto; destruct (NL x I X)|]. exfalso. apply TQ. intros X. apply I, M. left. exact X. }
        destruct (g_kids _ _ _ G _ TQ2) as (v1 & l1 & E & ND1 & M1). rewrite Q in E. injection E as ->. cbn [hv_subkeys] in E3. exists v', l1. split; auto. split; auto.
        intros n. rewrite M1. unfold child. split; (intros [H|H]; [|auto]); [auto|]. destruct H as [H|H]; [auto|]. exfalso. apply (f_equal (@length str)) in H. rewrite app_length in H. cbn [length] in H. lia.
      * exists v', []. split; auto. split; [constructor|]. intros n. split; [intros []|].
        assert (NT : ~ Tb (q ++ [k])). { intros H. destruct (g_kids _ _ _ G _ H) as (v1 & l1 & E & _). congruence. }
        intros [[H|H]|(x & I & X)].
        -- apply NT. eapply g_up; eauto.
        -- apply (f_equal (@length str)) in H. rewrite app_length in H. cbn [length] in H. lia.
        -- apply NT. destruct (g_line _ _ _ G x I) as (A & _). unfold line_path in X. apply app_inj_tail in X as [<- _]. exact A.
    + assert (TP' : Tb p) by (destruct TP; auto; congruence). destruct (list_eq_dec (list_eq_dec N.eq_dec) p q) as [->|NQ].
      * exists v, (fst (vinsert l k)). split; auto. split; [apply vinsert_nodup; auto|]. intros n. rewrite vinsert_in, M. unfold child. split.
        -- intros [[H|H]| ->]; auto.
        -- intros [[H|H]|H]; auto. apply app_inj_tail in H as [_ ->]. auto.
      * destruct (g_kids _ _ _ G p TP') as (v1 & l1 & E & ND1 & M1). exists v1, l1. split; [|split; auto].
        -- rewrite FRM; auto; intros X; [apply NQ|apply NP]; eapply tk_inj; eauto. eapply g_names; eauto.
        -- intros n. rewrite M1. unfold child. split; [intros [H|H]; auto|]. intros [[H|H]|H]; auto. apply app_inj_tail in H as [H _]. congruence.
  - intros x I. destruct (g_held _ _ _ G x I) as [A B]. split; auto. intros r R. destruct (g_line _ _ _ G x I) as (A1 & A2 & A3).
    pose proof (line_names _ _ _ _ G I) as LN. rewrite FRM; auto.
    + intros E. symmetry in E. revert E. eapply (table_apart m Tb L q (line_path x)); eauto.
    + intros E. apply tx_inj in E; [|apply named_app; split; auto; eapply line_named; eauto|apply named_keys; auto].
      destruct r as [|y0 r] using rev_ind; [rewrite app_nil_r in E; apply keys_inj in E; exact (NL x I E)|]. rewrite map_app in E. cbn [map] in E. rewrite app_assoc in E. apply app_inj_tail in E as [E _].
      symmetry in E. apply keys_pre in E as (c & E). apply A3. apply (up_all _ _ _ G c). rewrite <- E. exact T.
Qed.
Lemma good_ext : forall m (Tb Tb' : list str -> Prop) L, (forall q, Tb q <-> Tb' q) -> good m Tb L -> good m Tb' L.
Proof.
  intros m Tb Tb' L X G. assert (CH : forall q n, child Tb L q n <-> child Tb' L q n) by (intros q n; unfold child; rewrite X; tauto).
  constructor.
  - apply X. apply (g_root _ _ _ G).
  - intros q n H. apply X. apply X in H. eapply g_up; eauto.
  - intros q H. apply X in H. eapply g_names; eauto.
  - intros x I. destruct (g_line _ _ _ G x I) as (A & B & C). rewrite <- !X. auto.
  - intros z Z1 Z2. apply (g_none _ _ _ G); auto. intros q H. apply Z1. apply X. exact H.
  - intros q H. apply X in H. destruct (g_kids _ _ _ G q H) as (v & l & E & ND & M). exists v, l. split; auto. split; auto. intros n. rewrite M. apply CH.
  - apply (g_held _ _ _ G).
Qed.
Lemma good_same : forall m m' Tb L, (forall z, hget z m' = hget z m) -> good m Tb L -> good m' Tb L.
Proof.
  intros m m' Tb L X G. destruct G as [A1 A2 A3 A4 A5 A6 A7]. constructor; auto.
  - intros z Z1 Z2. rewrite X. auto.
  - intros q H. rewrite X. auto.
  - intros x I. destruct (A7 x I) as [B1 B2]. split; auto. intros r R. rewrite X. auto.
Qed.

(** ** Headers *)
Lemma tk_snoc : forall q k, tk (q ++ [k]) = if str_eqb (tk q) root_key then k else tk q ++ lit "." ++ k.
Proof. intros q k. unfold tk. rewrite map_app. cbn [map]. rewrite tx_snoc. reflexivity. Qed.
Lemma ait_good : forall ks m first q m' Tb L, good m Tb L -> Tb q -> Forall name_text (map wk_key ks) -> ks <> [] ->
  (forall x a b, In x L -> map wk_key ks = a ++ b -> line_path x <> q ++ a) -> ait_loop m ks first (tk q) = Ok m' ->
  exists m1 v l, good m1 (fun p => Tb p \/ exists a b, removelast (map wk_key ks) = a ++ b /\ p = q ++ a) L /\
    hget (tk (q ++ removelast (map wk_key ks))) m1 = Some (HashValue v (Keys l)) /\
    m' = hput (tk (q ++ removelast (map wk_key ks))) (HashValue v (Keys (fst (vinsert l (last (map wk_key ks) []))))) m1.
Proof.
  induction ks as [|k ks IH]; intros m first q m' Tb L G T F NE NL H; [congruence|]. clear NE. cbn [ait_loop] in H.
  destruct (g_kids _ _ _ G q T) as (v & l & E & ND & M). rewrite E in H. cbn [hv_subkeys hv_value] in H. inversion F as [|? ? NK F']; subst.
  assert (NLK : forall x, In x L -> line_path x <> q ++ [wk_key k]) by (intros x I; apply (NL x [wk_key k] (map wk_key ks)); auto).
  destruct ks as [|k2 ks].
  - exists m, v, l. cbn [map removelast last]. rewrite app_nil_r. split; [|split; auto].
    + eapply good_ext; [|exact G]. intros p. split; [auto|]. intros [X|(a & b & X & ->)]; auto. symmetry in X. apply app_eq_nil in X as [-> _]. rewrite app_nil_r. exact T.
    + destruct (vinsert l (wk_key k)) as [l' ins]. cbn [rbind] in H. inversion H. reflexivity.
  - destruct (vinsert l (wk_key k)) as [l' ins] eqn:VI. cbn [rbind] in H.
    set (nk := if str_eqb (tk q) root_key then wk_key k else tk q ++ lit "." ++ wk_key k) in H.
    assert (NKE : nk = tk (q ++ [wk_key k])) by (rewrite tk_snoc; reflexivity). clearbody nk. subst nk.
    set (m1 := if ins then hput (tk (q ++ [wk_key k])) hv_none_keys (hput (tk q) (HashValue v (Keys l')) m) else hput (tk q) (HashValue v (Keys l')) m) in H.
    assert (FN : Forall name_text (q ++ [wk_key k])) by (apply Forall_app; split; [eapply g_names; eauto|constructor; auto]).
    assert (DQ : tk q <> tk (q ++ [wk_key k])).
    { intros X. apply (tk_inj _ _ _ _ _ G) in X; auto. apply (f_equal (@length str)) in X. rewrite app_length in X. cbn [length] in X. lia. }
    assert (G1 : good m1 (fun p => Tb p \/ p = q ++ [wk_key k]) L).
    { assert (VL : l' = fst (vinsert l (wk_key k))) by (rewrite VI; reflexivity).
      unfold vinsert in VI. destruct (vcontains l (wk_key k)) eqn:VC.
      - injection VI as <- <-. apply vcontains_in in VC. apply M in VC as [VC|(x & I & X)]; [|destruct (NLK x I X)].
        destruct (g_kids _ _ _ G _ VC) as (v1 & l1 & E1 & _). eapply (good_head m m1 Tb L q _ v l v1); eauto.
        + subst m1. rewrite hget_hput_same, <- VL. reflexivity.
        + subst m1. rewrite hget_hput_other by auto. rewrite E1. reflexivity.
        + intros z Z1 Z2. subst m1. apply hget_hput_other. auto.
      - injection VI as <- <-. assert (NT : ~ Tb (q ++ [wk_key k])). { intros X. assert (I : In (wk_key k) l) by (apply M; left; exact X). apply vcontains_in in I. congruence. }
        pose proof (line_fresh _ _ _ _ _ G T NK NT NLK [] ltac:(constructor)) as X. rewrite app_nil_r in X. fold (tk (q ++ [wk_key k])) in X.
        eapply (good_head m m1 Tb L q _ v l None); eauto.
        + subst m1. rewrite hget_hput_other by auto. rewrite hget_hput_same, <- VL. reflexivity.
        + subst m1. rewrite hget_hput_same, X. reflexivity.
        + intros z Z1 Z2. subst m1. rewrite !hget_hput_other by auto. reflexivity. }
    assert (NL2 : forall x a b, In x L -> map wk_key (k2 :: ks) = a ++ b -> line_path x <> (q ++ [wk_key k]) ++ a).
    { intros x a b I X. rewrite <- app_assoc. apply (NL x (wk_key k :: a) b); auto. cbn [app]. rewrite <- X. reflexivity. }
    destruct (IH _ _ _ _ _ _ G1 (or_intror eq_refl) F' ltac:(discriminate) NL2 H) as (m2 & v2 & l2 & G2 & E2 & EM).
    assert (RL : removelast (map wk_key (k :: k2 :: ks)) = wk_key k :: removelast (map wk_key (k2 :: ks))) by reflexivity.
    assert (LL : last (map wk_key (k :: k2 :: ks)) [] = last (map wk_key (k2 :: ks)) []) by reflexivity.
    rewrite RL, LL. replace (q ++ wk_key k :: removelast (map wk_key (k2 :: ks))) with ((q ++ [wk_key k]) ++ removelast (map wk_key (k2 :: ks))) by (rewrite <- app_assoc; reflexivity).
    exists m2, v2, l2. split; [|auto]. eapply good_ext; [|exact G2]. intros p. split.
    + intros [[X| ->]|(a & b & X & ->)]; [auto| |]; right.
      * exists [wk_key k], (removelast (map wk_key (k2 :: ks))). auto.
      * exists (wk_key k :: a), b. rewrite X. split; auto. rewrite <- app_assoc. reflexivity.
    + intros [X|(a & b & X & ->)]; [auto|]. destruct a as [|y a]; [rewrite app_nil_r; auto|]. cbn [app] in X. injection X as <- X. right. exists a, b. split; auto.
      rewrite <- app_assoc. reflexivity.
Qed.
Lemma gatk_std_pk : forall m names q v pk v' fk pk', Forall not_root names -> names <> [] -> gatk_std m names v (dpre q) pk = (v', fk, pk') ->
  pk' = match removelast names with [] => pk | r => dpar (q ++ r) end.
Proof.
  intros m. induction names as [|n names IH]; intros q v pk v' fk pk' F NE H; [congruence|]. inversion F as [|? ? B F']; subst. destruct names as [|n2 names].
  - cbn [gatk_std] in H. inversion H; subst. reflexivity.
  - rewrite gatk_std_eq, B in H.
    assert (E : dpre q ++ n = dotted_name (q ++ [n])) by (rewrite dotted_snoc; auto). rewrite E in H.
    assert (E2 : dotted_name (q ++ [n]) ++ lit "." = dpre (q ++ [n])) by (unfold dpre; destruct (q ++ [n]) eqn:Q; auto; destruct q; discriminate).
    rewrite E2 in H. apply IH in H; auto; [|discriminate]. rewrite H. clear. destruct names as [|n3 names].
    + cbn [removelast]. rewrite dpar_snoc. reflexivity.
    + change (removelast (n :: n2 :: n3 :: names)) with (n :: removelast (n2 :: n3 :: names)). destruct (removelast (n2 :: n3 :: names)) eqn:R; [discriminate|].
      rewrite <- app_assoc. reflexivity.
Qed.
Lemma gatk_pk : forall ovf m t v fk pk, Forall not_root (map wk_key t) -> t <> [] -> get_array_table_key ovf m [TStandard t] [0] = Ok (v, fk, pk) -> pk = dpar (removelast (map wk_key t)).
Proof.
  intros ovf m t v fk pk F N H. unfold get_array_table_key in H. cbn [length gatk_loop vindex nth_error rbind skipn] in H.
  destruct (table_steps m t N) as (SK & LK & NM & D). rewrite SK, LK in H.
  destruct (gatk_std m (map wk_key t) true [] root_key) as [[v1 fk1] pk1] eqn:E. apply (gatk_std_pk m _ []) in E; auto.
  cbn [gatk_loop] in H. inversion H; subst. cbn [app]. destruct (removelast (map wk_key t)); reflexivity.
Qed.
Lemma vinsert_twice : forall l k, fst (vinsert (fst (vinsert l k)) k) = fst (vinsert l k).
Proof.
  intros l k. unfold vinsert at 1. destruct (vcontains (fst (vinsert l k)) k) eqn:Q; [reflexivity|]. exfalso.
  assert (I : In k (fst (vinsert l k))) by (apply vinsert_in; auto). apply vcontains_in in I. congruence.
Qed.
Lemma step_ne : forall x q, sname x -> tstep q x <> [].
Proof.
  intros [i|n] q S E; cbn [tstep] in E; [unfold idx_str in E; apply app_eq_nil in E as [_ E]; discriminate|]. rewrite under_pre in E. apply app_eq_nil in E as [_ E]. exact (name_ne _ S E).
Qed.
Lemma tx_nil : forall p, named p -> [] <> tx p.
Proof.
  intros p N. destruct p as [|x p] using rev_ind; [discriminate|]. rewrite tx_snoc. apply named_app in N as [_ N]. inversion N; subst. intros E. symmetry in E. revert E. apply step_ne. auto.
Qed.
Lemma std_good : forall w1 w2 k l s s' t h Tb L, std_table_act w1 w2 k l s = Ok (s', t) -> length s.(p_keychain) = S (length l) -> htabs h s ->
  Forall name_text (k :: map wk_key l) -> clean s' -> good s.(p_map) Tb L -> (forall x a b, In x L -> k :: map wk_key l = a ++ b -> line_path x <> a) ->
  good s'.(p_map) (fun p => Tb p \/ exists b, k :: map wk_key l = p ++ b) L.
Proof.
  intros w1 w2 k l s s' t h Tb L H KL T F C GD NL. unfold std_table_act in H. apply rbind_ok in H as (s1 & K & H).
  unfold keychain_drop in K. rewrite KL, Nat.ltb_irrefl, Nat.sub_diag in K. cbn [firstn] in K. inversion K; subst s1; clear K.
  set (tb := table_new {| ws1 := w1; ws2 := w2 |} k l) in *. cbn [p_tables p_tindex p_map p_ovf set_keychain] in H.
  assert (MT : map wk_key tb = k :: map wk_key l) by reflexivity. assert (NT : tb <> []) by discriminate. clearbody tb. rewrite <- MT in *.
  match type of H with (let '(_, _) := ?x in _) = _ => assert (E0 : x = ([], [])) end.
  { destruct h as [|n h]; [destruct T as (_ & -> & ->); reflexivity|]. destruct T as (t0 & _ & -> & -> & _). reflexivity. }
  rewrite E0 in H. clear E0. unfold vlast in H at 1 2. cbn [rev] in H. cbv iota beta zeta in H. unfold vpush in H at 1 2 3 4. cbn [app] in H.
  destruct (get_array_table_key (p_ovf s) (p_map s) [TStandard tb] [0]) as [[[v tk0] pk]| |] eqn:G; cbn [rbind] in H; [|discriminate..].
  destruct v; cbn [negb] in H.
  2:{ exfalso. cbn [rbind] in H. inversion H; subst. unfold clean, all_taken in C. cbn [p_errors set_array_error push_error set_errors] in C.
      apply Forall_app in C as [_ C]. inversion C; subst. assumption. }
  pose proof (gatk_pk _ _ _ _ _ _ (names_not _ F) NT G) as EP. apply gatk_valid in G as [-> _]; [|apply names_not; auto|exact NT].
  destruct (key_has_children_with_values (p_map s) pk) as [b| |]; cbn [rbind] in H; [|discriminate..].
  destruct b; cbn [rbind] in H.
  { exfalso. inversion H; subst. unfold clean, all_taken in C. cbn [p_errors set_array_error push_error set_errors] in C.
    apply Forall_app in C as [_ C]. inversion C; subst. assumption. }
  match type of H with (if ?b then _ else _) = _ => destruct b end.
  { exfalso. inversion H; subst. unfold clean, all_taken in C. cbn [p_errors set_array_error push_error set_errors] in C.
    apply Forall_app in C as [_ C]. inversion C; subst. assumption. }
  apply rbind_ok in H as (m & M1 & H). apply rbind_ok in H as (m2 & M2 & H).
  unfold new_cell in H. apply rbind_ok in H as (m3 & M3 & H). inversion H; subst s' t. clear H.
  cbn [p_map set_last_table set_array_error set_map].
  unfold add_implicit_tables in M1. unfold get_array_table_key in M1. cbn [length gatk_loop rbind negb] in M1.
  unfold vlast in M1. cbn [rev app] in M1. change (str_eqb root_key root_key) with true in M1. cbn [Nat.sub skipn tt_table] in M1.
  change root_key with (tk []) in M1. apply (ait_good _ _ _ [] _ Tb L) in M1 as (m1 & v & l0 & G1 & E1 & EM); auto; [|eapply g_root; eauto].
  cbn [app] in G1, E1, EM. assert (NM : map wk_key tb <> []) by (destruct tb; [congruence|discriminate]).
  set (A := map wk_key tb) in *. set (q := removelast A) in *. set (n := last A []) in *. assert (SPL : A = q ++ [n]) by (exact (app_removelast_last [] NM)). clearbody q n.
  assert (NN : Forall name_text q /\ name_text n). { rewrite SPL in F. apply Forall_app in F as [F1 F2]. split; [exact F1|]. inversion F2. assumption. } destruct NN as [NQ NN].
  assert (TQ : Tb q \/ exists a b, q = a ++ b /\ q = a) by (right; exists q, []; rewrite app_nil_r; auto).
  assert (KP : pk = tk q) by (rewrite EP; unfold tk; rewrite tx_keys; auto).
  assert (KA : dotted_name A = tk (q ++ [n])) by (rewrite SPL, <- dpar_snoc; unfold tk; symmetry; apply tx_keys; rewrite <- SPL; auto).
  rewrite KA, KP in M3.
  assert (DQ : tk q <> tk (q ++ [n])).
  { unfold tk. intros X. apply tx_inj in X; [|apply named_keys; auto|apply named_keys; rewrite <- SPL; auto]. apply keys_inj in X. apply (f_equal (@length str)) in X. rewrite app_length in X. cbn [length] in X. lia. }
  assert (m2 = m).
  { unfold add_to_table_set in M2. unfold get_key_parent in M2. cbn [length gkp_loop rbind] in M2. assert (X : hget [] m = None); [|rewrite X in M2; inversion M2; reflexivity].
    rewrite EM, hget_hput_other by (apply tx_nil, named_keys; auto).
    apply (g_none _ _ _ G1); [intros p X; apply tx_nil, named_keys; eapply (g_names _ _ _ G1); exact X|].
    intros x r I R. apply tx_nil, named_app. split; auto. eapply line_named; eauto. }
  subst m2. clear M2.
  set (c := {| c_id := p_next (set_keychain [] s); c_val := TTable |}) in *.
  assert (E2 : hget (tk q) m = Some (HashValue v (Keys (fst (vinsert l0 n))))) by (rewrite EM; apply hget_hput_same).
  assert (E3 : forall z, z <> tk q -> hget z m = hget z m1) by (intros z Z; rewrite EM; apply hget_hput_other; auto).
  match type of M3 with match hget _ ?x with _ => _ end = _ => set (m4 := x) in * end.
  assert (E4 : hget (tk (q ++ [n])) m4 = Some (HashValue (Some c) (match hget (tk (q ++ [n])) m1 with Some hv => hv.(hv_subkeys) | None => Keys [] end)) /\
    forall z, z <> tk (q ++ [n]) -> hget z m4 = hget z m).
  { subst m4. rewrite <- (E3 (tk (q ++ [n]))) by auto. destruct (hget (tk (q ++ [n])) m); (split; [rewrite hget_hput_same; reflexivity|intros z Z; apply hget_hput_other; auto]). }
  destruct E4 as [E4 E5]. clearbody m4. rewrite (E5 _ DQ), E2 in M3. cbn [hv_subkeys hv_value] in M3. rewrite vinsert_twice in M3. injection M3 as <-.
  assert (GG : good (hput (tk q) (HashValue v (Keys (fst (vinsert l0 n)))) m4) (fun p => (Tb p \/ exists a b, q = a ++ b /\ p = a) \/ p = q ++ [n]) L).
  { eapply (good_head m1 _ _ L q n v l0 (Some c) G1); auto.
    - intros x I. rewrite <- SPL. apply (NL x A []); auto. rewrite app_nil_r. reflexivity.
    - apply hget_hput_same.
    - rewrite hget_hput_other by auto. exact E4.
    - intros z Z1 Z2. rewrite hget_hput_other by auto. rewrite E5, E3 by auto. reflexivity. }
  eapply good_ext; [|exact GG]. intros p. split.
  - intros [[X|(a & b & X & ->)]| ->]; [auto| |]; right; [exists (b ++ [n])|exists []; rewrite app_nil_r; exact SPL]. rewrite SPL, X, <- app_assoc. reflexivity.
  - intros [X|(b & X)]; [auto|]. destruct b as [|y b] using rev_ind; [right; rewrite app_nil_r in X; congruence|]. left. right. exists p, b. split; auto.
    rewrite SPL, app_assoc in X. apply app_inj_tail in X as [X _]. exact X.
Qed.
Lemma table_good : forall h s i s' r t Tb L, table_p s i = Ok (s', Done r t) -> inv h s -> clean s' -> match t with TArrayOf _ => False | _ => True end ->
  good s.(p_map) Tb L -> (forall x a b, In x L -> map wk_key (tt_table t) = a ++ b -> line_path x <> a) ->
  good s'.(p_map) (fun p => Tb p \/ exists b, map wk_key (tt_table t) = p ++ b) L.
Proof.
  intros h s i s' r t Tb L H [T K AE] C NA GD NL. unfold table_p in H. apply alt_done in H as [H|(s1 & E1 & H)]; apply complete_done in H.
  - exfalso. unfold array_table in H. do 6 (apply bind_done in H as (? & ? & ? & _ & H)). apply act_done in H as (_ & H).
    apply array_table_effect in H as [-> _]. exact NA.
  - unfold std_table in H. apply bind_done in H as (s2 & i1 & u & E2 & H). apply bind_done in H as (s3 & i2 & w1 & E3 & H).
    apply bind_done in H as (s4 & i3 & k & E4 & H). apply bind_done in H as (s5 & i4 & l & E5 & H). apply bind_done in H as (s6 & i5 & w2 & E6 & H).
    apply bind_done in H as (s7 & i6 & u2 & E7 & H). apply act_done in H as (-> & H).
    apply tag_done in E2 as (-> & _ & EI). pose proof (ws_blanks _ _ _ _ _ E3) as (-> & -> & B1). pose proof (key_heads _ _ _ _ _ E4) as HN.
    assert (s1 = s).
    { unfold complete in E1. apply rbind_ok in E1 as ([s8 r8] & E8 & E1). inversion E1; subst. unfold array_table in E8. unfold bind at 1 in E8.
      apply rbind_ok in E8 as ([s9 r9] & E9 & E8). assert (s9 = s) by (eapply (pure_state (tag (lit "[["))); [pure_tac|exact E9]). subst s9.
      destruct r9; [|inversion E8; subst; auto..]. exfalso. apply tag_done in E9 as (_ & _ & E9). 
      destruct w1 as [|c w1]; [|inversion B1; subst; inversion E9; subst; lia]. cbn [app] in E9. inversion E9; subst. apply HN. reflexivity. }
    subst s1. pose proof (key_text _ _ _ _ _ E4) as [_ NK]. pose proof (subkeys_names _ _ _ _ _ E5) as NLK. apply key_pushed in E4. subst s4.
    unfold table_subkeys, many0 in E5. apply subkeys_push in E5. subst s5. apply ws_blanks in E6 as (-> & _ & _). apply tag_done in E7 as (-> & _ & _).
    pose proof H as H0. apply (std_head _ _ _ _ _ _ _ h) in H0 as (-> & _); auto.
    + cbn [tt_table] in *. change (map wk_key (table_new {| ws1 := w1; ws2 := w2 |} k l)) with (k :: map wk_key l) in *.
      apply (std_good _ _ _ _ _ _ _ h Tb L) in H; auto.
      * cbn [p_keychain set_keychain push_key]. unfold vpush. rewrite K. cbn [app length]. rewrite map_length. reflexivity.
      * destruct T as [T _]. exact T.
    + cbn [p_keychain set_keychain push_key]. unfold vpush. rewrite K. cbn [app length]. rewrite map_length. reflexivity.
    + destruct T as [T _]. exact T.
Qed.

(** ** Expressions and documents *)
Definition grown (Tb : list str -> Prop) (e : expression) (p : list str) : Prop :=
  Tb p \/ match e.(e_table) with Some t => exists b, map wk_key (tt_table t) = p ++ b | None => False end.
Lemma expr_good : forall h s i s' r e Tb L, expression_p s i = Ok (s', Done r e) -> inv h s -> clean s' -> not_array e -> void_head r \/ ~ idle e ->
  good s.(p_map) Tb L -> Tb h -> (forall x p, In x (L ++ own h e) -> grown Tb e p -> line_path x <> p) -> NoDup (map line_path (L ++ own h e)) ->
  good s'.(p_map) (grown Tb e) (L ++ own h e).
Proof.
  intros h s i s' r e Tb L H IV C NA V GD TH AP ND. pose proof H as H0. unfold expression_p in H. apply alt_done in H as [H|(s1 & E1 & H)].
  - clear H0. apply complete_done in H. unfold table_comment in H.
    apply bind_done in H as (s1 & i1 & w1 & E1 & H). apply bind_done in H as (s2 & i2 & t & E2 & H).
    apply bind_done in H as (s3 & i3 & w2 & E3 & H). apply bind_done in H as (s4 & i4 & c & E4 & H). apply ret_done in H as (-> & _ & ->).
    apply ws_blanks in E1 as (-> & _ & _). apply ws_blanks in E3 as (-> & _ & _).
    assert (s4 = s2) by (eapply (pure_state (opt (complete comment))); [unfold comment; pure_tac|exact E4]). subst s4.
    unfold own, grown in *. cbn [e_keyval e_table] in *. rewrite app_nil_r in *. apply (table_good h _ _ _ _ _ Tb L) in E2; auto.
    intros x a b I X. apply AP; auto. right. exists b. exact X.
  - apply alt_done in H as [H|(s2 & E2 & H)].
    + clear H0. apply complete_done in H. unfold keyval_comment in H.
      apply bind_done in H as (s2 & i1 & w1 & W1 & H). apply bind_done in H as (s3 & i2 & kv & E2 & H).
      apply bind_done in H as (s4 & i3 & w2 & E3 & H). apply bind_done in H as (s5 & i4 & c & E4 & H). apply ret_done in H as (-> & -> & ->).
      assert (HN : head_not 91 i1). { unfold keyval_p, keyval_p_ in E2. apply bind_done in E2 as (? & ? & ? & E2 & _). eapply key_heads; eauto. }
      assert (s1 = s).
      { unfold complete in E1. apply rbind_ok in E1 as ([s6 r6] & E6 & E1). assert (s6 = s). { eapply table_not; [|exact HN|exact E6]. rewrite ws_eq in W1 |- *. inversion W1. reflexivity. }
        inversion E1. congruence. }
      subst s1. apply ws_blanks in W1 as (-> & _ & _). apply ws_blanks in E3 as (-> & _ & _).
      assert (s5 = s3) by (eapply (pure_state (opt (complete comment))); [unfold comment; pure_tac|exact E4]). subst s5.
      unfold keyval_p in E2. destruct IV as [T K AE]. unfold own, grown, under_head in *. cbn [e_keyval e_table] in *.
      destruct (keyval_put val_p vfault_val_p calm_val_p vput_val_p h _ _ _ _ _ [] E2 T AE K C) as (_ & _ & NK & _ & _).
      assert (NT : ~ Tb (h ++ [kv_key kv])). { intros X. apply (AP (h, kv) (h ++ [kv_key kv])); [apply in_or_app; right; left; reflexivity|left; exact X|reflexivity]. }
      assert (NX : forall x, In x L -> line_path x <> h ++ [kv_key kv]).
      { intros x I X. rewrite map_app in ND. cbn [map] in ND. apply NoDup_remove_2 in ND. apply ND. rewrite app_nil_r. change (line_path (h, kv)) with (h ++ [kv_key kv]). rewrite <- X. apply in_map. exact I. }
      assert (EQ : plc h [] = map PKey h) by (unfold plc; apply app_nil_r).
      assert (FR : fresh s.(p_map) (plc h [] ++ [PKey (kv_key kv)])).
      { rewrite EQ. replace (map PKey h ++ [PKey (kv_key kv)]) with (map PKey (h ++ [kv_key kv])) by (rewrite map_app; reflexivity). eapply line_fresh; eauto. }
      destruct (keyval_kid val_p vfault_val_p calm_val_p vkid_val_p h _ _ _ _ _ [] E2 T AE K) as (Y1 & Y2 & Y3 & Y4); auto; [rewrite EQ; apply named_keys; eapply g_names; eauto|].
      rewrite EQ in Y2, Y3, Y4. eapply good_ext; [|eapply (good_line s.(p_map)); eauto]. intros q. tauto.
    + assert (ID : idle e).
      { apply alt_done in H as [H|(s3 & E3 & H)]; apply complete_done in H; [unfold ws_comment in H|unfold ws_expr in H].
        * apply bind_done in H as (s3 & i1 & w & W & H). apply bind_done in H as (s4 & i2 & c & E3 & H).
          apply ret_done in H as (_ & _ & ->). split; reflexivity.
        * apply bind_done in H as (s4 & i1 & w & W & H). apply ret_done in H as (_ & _ & ->). split; reflexivity. }
      destruct (idle_step _ _ _ _ _ H0 ID) as (_ & _ & VS). destruct V as [V|V]; [|contradiction]. rewrite (VS V). destruct ID as [I1 I2].
      unfold own, grown in *. rewrite I1, I2 in *. rewrite app_nil_r. eapply good_ext; [|exact GD]. intros q. tauto.
Qed.
Lemma nodup_left : forall A (a b : list A), NoDup (a ++ b) -> NoDup a.
Proof. intros A a b H. induction a as [|x a IH]; [constructor|]. inversion H; subst. constructor; auto. intros I. apply H2. apply in_or_app. auto. Qed.
Definition tabled (Tb : list str -> Prop) (d : toml) (p : list str) : Prop := Tb p \/ exists a b, In a (heads d) /\ a = p ++ b.
Lemma tabled_cons : forall Tb nl e l p, tabled Tb ({| ne_nl := nl; ne_expr := e |} :: l) p <-> tabled (grown Tb e) l p.
Proof.
  intros Tb nl e l p. unfold tabled, grown, heads. cbn [flat_map ne_expr]. split.
  - intros [H|(a & b & I & ->)]; [auto|]. apply in_app_or in I as [I|I]; [|right; eauto]. destruct (e_table e); [|destruct I]. destruct I as [I|[]]. left. right. eauto.
  - intros [[H|H]|(a & b & I & ->)]; [auto| |right; exists (p ++ b), b; split; auto; apply in_or_app; auto].
    destruct (e_table e); [|destruct H]. destruct H as (b & H). right. exists (p ++ b), b. split; auto. apply in_or_app. left. left. exact H.
Qed.
Lemma under_grown : forall (Tb : list str -> Prop) h e, Tb h -> grown Tb e (under_head h e).
Proof. intros Tb h e T. unfold grown, under_head. destruct (e_table e); [right; exists []; rewrite app_nil_r; reflexivity|auto]. Qed.
Definition fits (Tb : list str -> Prop) (L : list (list str * keyval)) (h : list str) (d : toml) : Prop :=
  (forall x p, In x (L ++ keyed h d) -> tabled Tb d p -> line_path x <> p) /\ NoDup (map line_path (L ++ keyed h d)).
Lemma fits_cons : forall Tb L h nl e l, fits Tb L h ({| ne_nl := nl; ne_expr := e |} :: l) ->
  (forall x p, In x (L ++ own h e) -> grown Tb e p -> line_path x <> p) /\ NoDup (map line_path (L ++ own h e)) /\ fits (grown Tb e) (L ++ own h e) (under_head h e) l.
Proof.
  intros Tb L h nl e l [A B]. rewrite keyed_own, app_assoc in A, B. split; [|split; [|split; auto]].
  - intros x p I P. apply A; [apply in_or_app; auto|]. apply tabled_cons. left. exact P.
  - rewrite map_app in B. apply nodup_left in B. exact B.
  - intros x p I P. apply A; auto. apply tabled_cons. exact P.
Qed.
Lemma loop_good : forall n h s i s' r l Tb L, many_loop n nl_expression_p s i = Ok (s', Done r l) -> (void_head i -> inv h s) -> clean s' -> plain_tables l -> void_head r ->
  good s.(p_map) Tb L -> Tb h -> fits Tb L h l -> good s'.(p_map) (tabled Tb l) (L ++ keyed h l).
Proof.
  induction n; intros h s i s' r l Tb L H IV C PT V GD TH FT; [discriminate|]. cbn [many_loop] in H.
  assert (Z : l = [] -> s' = s -> good s'.(p_map) (tabled Tb l) (L ++ keyed h l)).
  { intros -> ->. cbn [keyed]. rewrite app_nil_r. eapply good_ext; [|exact GD]. intros q. unfold tabled. cbn [heads flat_map In]. split; [auto|]. intros [X|(a & b & [] & _)]. exact X. }
  destruct i as [|c i]; [inversion H; subst; apply Z; auto|].
  apply rbind_ok in H as ([s1 r1] & E & H). unfold nl_expression_p in E at 1. unfold bind at 1 in E.
  apply rbind_ok in E as ([s2 r2] & E2 & E). pose proof (newline_quiet _ _ _ _ E2) as C2.
  destruct r2 as [i2 nl| |]; [|inversion E; subst; inversion H; subst; apply Z; auto|inversion E; subst; inversion H]. clear Z.
  destruct C2 as (VH & _ & _). destruct (newline_map _ _ _ _ E2) as [M2 I2]. apply newline_short in E2. unfold bind at 1 in E. apply rbind_ok in E as ([s3 r3] & E3 & E).
  destruct (expression_done _ _ _ _ E3) as (i3 & e & ->). inversion E; subst. clear E. pose proof (reads_expression _ _ _ _ _ E3) as RE.
  match type of H with (if ?b then _ else _) = _ => destruct b eqn:NB end.
  { exfalso. apply Nat.eqb_eq in NB. subst i2. rewrite app_length in E2. lia. }
  apply rbind_ok in H as ([s4 r4] & E4 & H). destruct r4 as [r4 l4| |]; inversion H; subst. inversion PT as [|? ? NA PT']; subst. rewrite <- M2 in GD.
  assert (C1 : clean s1). { eapply clean_back; [|exact C]. eapply (pres_loop errors_grow); [intros; apply grow_same; auto|exact grow_trans| |exact E4].
    apply ClashFacts.loop_pres; [intros; apply grow_same; auto|exact grow_trans|intros; apply grow_same; reflexivity|exact grow_expression]. }
  destruct (expr_step h _ _ _ _ _ E3 (I2 _ (IV VH)) C1 NA) as (_ & IV1 & _).
  assert (VI : void_head i3). { apply (loop_adds _ (under_head h e)) in E4 as [[-> _]|[X _]]; auto. }
  destruct (fits_cons _ _ _ _ _ _ FT) as (F1 & F2 & F3).
  apply (expr_good h _ _ _ _ _ Tb L) in E3; auto.
  apply (IHn (under_head h e) _ _ _ _ _ (grown Tb e) (L ++ own h e)) in E4; auto; [|apply under_grown; auto].
  rewrite keyed_own, app_assoc. eapply good_ext; [|exact E4]. intros q. symmetry. apply tabled_cons.
Qed.
Lemma toml_good : forall h s i s' r t Tb L, toml_p s i = Ok (s', Done r t) -> inv h s -> clean s' -> plain_tables t -> void_head r ->
  good s.(p_map) Tb L -> Tb h -> fits Tb L h t -> good s'.(p_map) (tabled Tb t) (L ++ keyed h t).
Proof.
  intros h s i s' r t Tb L T IV C PT V GD TH FT. unfold toml_p in T. apply bind_done in T as (s2 & i1 & e & E1 & T). apply bind_done in T as (s3 & i2 & l & E2 & T).
  apply ret_done in T as (-> & -> & ->). unfold nl_expressions, many0 in E2. inversion PT as [|? ? NA PT']; subst.
  assert (C1 : clean s2). { eapply clean_back; [|exact C]. eapply (pres_loop errors_grow); [intros; apply grow_same; auto|exact grow_trans| |exact E2].
    apply ClashFacts.loop_pres; [intros; apply grow_same; auto|exact grow_trans|intros; apply grow_same; reflexivity|exact grow_expression]. }
  destruct (expr_step h _ _ _ _ _ E1 IV C1 NA) as (_ & IV1 & _).
  assert (VI : void_head i1). { pose proof E2 as E3. apply (loop_adds _ (under_head h e)) in E3 as [[-> _]|[X _]]; auto. }
  destruct (fits_cons _ _ _ _ _ _ FT) as (F1 & F2 & F3).
  apply (expr_good h _ _ _ _ _ Tb L) in E1; auto.
  apply (loop_good _ (under_head h e) _ _ _ _ _ (grown Tb e) (L ++ own h e)) in E2; auto; [|apply under_grown; auto].
  rewrite keyed_own, app_assoc. eapply good_ext; [|exact E2]. intros q. symmetry. apply tabled_cons.
Qed.
Lemma good_new : forall ovf, good (new_parser ovf).(p_map) (fun q => q = []) [].
Proof.
  intros ovf. cbn [p_map new_parser]. constructor; auto.
  - intros q n H. destruct q; discriminate.
  - intros q ->. constructor.
  - intros x [].
  - intros z Z _. rewrite hget_hput_other; [reflexivity|]. exact (Z [] eq_refl).
  - intros q ->. exists None, []. split; [reflexivity|]. split; [constructor|]. intros n. split; [intros []|]. intros [H|(x & [] & _)]. discriminate.
  - intros x [].
Qed.
Lemma kids_good : forall ovf i s r, parse (new_parser ovf) i = Ok (s, r) -> plain_tables s.(p_root) -> all_taken s.(p_errors) -> s.(p_leftover) = [] -> apart s.(p_root) ->
  good s.(p_map) (table_of s.(p_root)) (keyed [] s.(p_root)).
Proof.
  intros ovf i s r H PT C LO AP. destruct (found_all _ _ _ _ H PT C) as [ND _]. destruct (parse_inv _ _ _ _ H) as (s1 & rest & t & T & EI & -> & L).
  cbn [p_root p_leftover p_errors p_map set_leftover set_root] in *. subst rest.
  apply (toml_good [] _ _ _ _ _ (fun q => q = []) []) in T; auto.
  - constructor; [|reflexivity..]; split; [|constructor]; cbn; auto.
  - exact I.
  - apply good_new.
  - split; cbn [app].
    + intros x p I P E. apply (AP x I). rewrite E. exact P.
    + unfold line_name in ND.
      apply (NoDup_map_inv dotted_name). rewrite map_map. exact ND.
Qed.

(** ** What get_children says *)
Lemma tx_path : forall p B, named (B ++ p) -> B <> [] -> tx (B ++ p) = tx B ++ path_text p.
Proof.
  induction p as [|x p IH] using rev_ind; intros B N NE; [unfold path_text; cbn [map concat]; rewrite !app_nil_r; reflexivity|].
  rewrite app_assoc in *. rewrite tx_snoc. pose proof N as N0. apply named_app in N0 as [N0 _].
  assert (E : tx (B ++ p) <> root_key) by (apply tx_root; auto; destruct B; [congruence|discriminate]). rewrite IH in * by auto.
  unfold path_text. rewrite map_app, concat_app. cbn [map concat]. rewrite app_nil_r. destruct x as [i|n]; cbn [tstep step_text]; [unfold idx_str; rewrite <- !app_assoc; reflexivity|].
  change (concat (map step_text p)) with (path_text p). unfold AfterFacts.under. destruct (str_eqb_spec (tx B ++ path_text p) root_key) as [X|_]; [contradiction|]. rewrite <- !app_assoc. reflexivity.
Qed.
Lemma line_key : forall h k, Forall name_text (h ++ [k]) -> tx (map PKey (h ++ [k])) = dotted_name (h ++ [k]).
Proof. intros h k F. rewrite tx_keys by auto. apply dpar_snoc. Qed.
Lemma kids_values : forall ovf i s r x u p w, parse (new_parser ovf) i = Ok (s, r) -> plain_tables s.(p_root) -> all_taken s.(p_errors) -> s.(p_leftover) = [] -> apart s.(p_root) ->
  In x (keyed [] s.(p_root)) -> denotes (snd x).(kv_val).(c_val) u -> at_path u p = Some w -> get_children s (line_name x ++ path_text p) = Some (kids_of w).
Proof.
  intros ovf i s r x u p w H PT C LO AP I D A. pose proof (kids_good _ _ _ _ H PT C LO AP) as G. pose proof (denotes_val _ _ D) as TV.
  pose proof (tat_at p _ _ TV) as Y. rewrite A in Y. destruct Y as (y & Y & TY). destruct (g_held _ _ _ G x I) as [KN AH]. pose proof (KN _ _ Y) as NP. pose proof (AH _ NP) as HY. unfold look in HY. rewrite Y in HY.
  pose proof (line_names _ _ _ _ G I) as LN. pose proof (line_named _ _ _ _ G I) as LNM.
  assert (NB : named (lpl x ++ p)) by (apply named_app; auto).
  assert (E : tx (lpl x ++ p) = line_name x ++ path_text p).
  { rewrite tx_path; auto; [|unfold lpl, line_path; rewrite map_app; destruct (map PKey (fst x)); discriminate]. f_equal. apply line_key. exact LN. }
  pose proof (tx_nil _ NB) as NN. rewrite E in HY, NN. unfold get_children. destruct (line_name x ++ path_text p); [congruence|]. rewrite HY. cbn [held hv_subkeys]. f_equal. apply tkids_of. exact TY.
Qed.
Lemma kids_tables : forall ovf i s r q, parse (new_parser ovf) i = Ok (s, r) -> plain_tables s.(p_root) -> all_taken s.(p_errors) -> s.(p_leftover) = [] -> apart s.(p_root) ->
  table_of s.(p_root) q -> exists l, get_children s (dotted_name q) = Some (Keys l) /\ NoDup l /\
    forall n, In n l <-> table_of s.(p_root) (q ++ [n]) \/ exists x, In x (keyed [] s.(p_root)) /\ line_path x = q ++ [n].
Proof.
  intros ovf i s r q H PT C LO AP T. pose proof (kids_good _ _ _ _ H PT C LO AP) as G. destruct (g_kids _ _ _ G q T) as (v & l & E & ND & M). exists l. split; [|auto].
  pose proof (g_names _ _ _ G q T) as F. unfold tk in E. rewrite tx_keys in E by auto. unfold get_children. destruct q as [|n q]; [cbn [dotted_name dpar] in *; rewrite E; reflexivity|].
  pose proof (tx_nil _ (named_keys _ F)) as NN. rewrite tx_keys in NN by auto. cbn [dpar] in E, NN. destruct (dotted_name (n :: q)); [congruence|]. rewrite E. reflexivity.
Qed.
(** no other name has children *)
Lemma kids_only : forall ovf i s r k, parse (new_parser ovf) i = Ok (s, r) -> plain_tables s.(p_root) -> all_taken s.(p_errors) -> s.(p_leftover) = [] -> apart s.(p_root) ->
  k <> root_key -> (forall q, table_of s.(p_root) q -> k <> dotted_name q) ->
  (forall x u p w, In x (keyed [] s.(p_root)) -> denotes (snd x).(kv_val).(c_val) u -> at_path u p = Some w -> k <> line_name x ++ path_text p) -> get_children s k = None.
Proof.
  intros ovf i s r k H PT C LO AP X0 X1 X2. pose proof (kids_good _ _ _ _ H PT C LO AP) as G. destruct (found_all _ _ _ _ H PT C) as [_ FA].
  unfold get_children. destruct k as [|c k]; [exfalso; apply (X1 [] (g_root _ _ _ G)); reflexivity|].
  destruct (hget (c :: k) (p_map s)) as [hv|] eqn:E; [|reflexivity]. exfalso.
  rewrite (g_none _ _ _ G) in E; [discriminate| |].
  - intros q T Q. pose proof (g_names _ _ _ G q T) as F. unfold tk in Q. rewrite tx_keys in Q by auto. destruct q; [auto|]. exact (X1 _ T Q).
  - intros x p I NP Q. pose proof (line_names _ _ _ _ G I) as LN. pose proof (line_named _ _ _ _ G I) as LNM. destruct (FA x I) as (u & D & _).
    destruct (g_held _ _ _ G x I) as [_ AH]. pose proof (AH p NP) as HY. rewrite <- Q, E in HY. pose proof (tat_at p _ _ (denotes_val _ _ D)) as TA. unfold look in HY.
    destruct (at_path u p) as [w|] eqn:A; [|rewrite TA in HY; discriminate]. apply (X2 x u p w I D A). rewrite Q.
    rewrite tx_path; [|apply named_app; auto|unfold lpl, line_path; rewrite map_app; destruct (map PKey (fst x)); discriminate]. f_equal. apply line_key. exact LN.
Qed.
