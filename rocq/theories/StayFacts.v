(** Updates with values of the form of TOML leave the document in that form. *)
From Coq Require Import Lia ZifyBool ZifyNat ZifyN.
From Verif Require Import Str Regex Types Ast State Nom Keys Grammar Api Facts Spec.
From Verif Require Import RegexFacts NomFacts TypesFacts DateFacts NumFacts StringFacts ScalarFacts.
From Verif Require Import LineFacts FlatFacts RoundTrip ParseFacts ApiFacts DocSpec DotSpec TreeSpec MixSpec PathFacts NestFacts SectFacts DotFacts BlindFacts CtorFacts WholeSpec WholeFacts StaySpec.

(** ** Trees of this form print as values of this form *)
Lemma elems_src : forall vals e, Forall (fun av : array_value => tform av.(av_val).(c_val) -> exists v, to_val av.(av_val).(c_val) = Ok v /\ denotes v (tsrc av.(av_val).(c_val))) vals ->
  fold_right (fun (av : array_value) P => tform av.(av_val).(c_val) /\ P) True vals -> seps_ok e (map asep vals) ->
  exists vs, rmap (fun av : array_value => to_val av.(av_val).(c_val)) vals = Ok vs /\ delems vs (concat (map av_src vals) ++ e).
Proof.
  induction vals as [|[[i x] sep nls] vals IH]; intros e F T S.
  - cbn [map seps_ok] in S. subst e. exists []. split; [reflexivity|constructor].
  - inversion F as [|? ? X F']; subst. destruct T as [T TL]. cbn [av_val c_val] in *. destruct (X T) as (v & E & D).
    assert (R : exists vs, rmap (fun av : array_value => to_val av.(av_val).(c_val)) vals = Ok vs /\
      delems (v :: vs) (av_src (ArrayValue (Cell i x) sep nls) ++ concat (map av_src vals) ++ e)).
    { unfold av_src at 1, av_src_. cbn [av_val c_val av_sep av_nls]. destruct vals as [|a2 vals].
      - exists []. split; [reflexivity|]. cbn [map concat app]. cbn [map seps_ok] in S. unfold sep_is, asep in S. cbn [fst snd av_sep av_nls] in S.
        destruct sep as [p|]; cbn [show_sep].
        + destruct S as [W G]. rewrite <- !app_assoc. rewrite <- (app_nil_r e) at 1.
          replace (tsrc x ++ ws1 p ++ lit "," ++ ws2 p ++ show_cons nls ++ e ++ []) with (tsrc x ++ ws1 p ++ lit "," ++ (ws2 p ++ show_cons nls ++ e) ++ []) by (rewrite <- !app_assoc; reflexivity).
          apply De_cons; auto. constructor.
        + destruct S as [_ G]. cbn [app]. rewrite <- app_assoc. apply De_last; auto.
      - change (map asep (ArrayValue (Cell i x) sep nls :: a2 :: vals)) with ((sep, nls) :: asep a2 :: map asep vals) in S.
        change (sep_is false [] (sep, nls) /\ seps_ok e (asep a2 :: map asep vals)) in S. destruct S as [S SL].
        destruct (IH e F' TL SL) as (vs & EV & DV). exists vs. split; [exact EV|]. unfold sep_is in S. cbn [fst snd] in S.
        destruct sep as [p|]; [|destruct S; discriminate]. destruct S as [W G]. rewrite app_nil_r in G. cbn [show_sep].
        replace ((tsrc x ++ (ws1 p ++ lit "," ++ ws2 p) ++ show_cons nls) ++ concat (map av_src (a2 :: vals)) ++ e)
          with (tsrc x ++ ws1 p ++ lit "," ++ (ws2 p ++ show_cons nls) ++ concat (map av_src (a2 :: vals)) ++ e) by (rewrite <- !app_assoc; reflexivity).
        apply De_cons; auto. }
    destruct R as (vs & EV & DV). exists (v :: vs). split; [apply rmap_eq; auto|]. cbn [map concat]. rewrite <- app_assoc. exact DV.
Qed.
Lemma fields_src : forall kvs e, Forall (fun tk : table_keyval => tform (fval tk).(c_val) -> exists v, to_val (fval tk).(c_val) = Ok v /\ denotes v (tsrc (fval tk).(c_val))) kvs ->
  fold_right (fun tk P => fform tk /\ P) True kvs -> seps_ok e (map fsep kvs) ->
  exists vs, map fkey kvs = map fst vs /\ Forall2 (fun tk kv => to_val (fval tk).(c_val) = Ok (snd kv)) kvs vs /\ dfields vs (concat (map tk_src kvs) ++ e).
Proof.
  induction kvs as [|[[k [w1 w2] [i x]] sep nls] kvs IH]; intros e F T S.
  - cbn [map seps_ok] in S. subst e. exists []. split; [reflexivity|]. split; constructor.
  - inversion F as [|? ? X F']; subst. destruct T as [T TL]. unfold fform in T. unfold fval in X. cbn [tk_kv kv_key kv_sep kv_val ws1 ws2 c_val] in *.
    destruct T as (K & W1 & W2 & T). destruct (X T) as (v & E & D).
    assert (R : exists vs, map fkey kvs = map fst vs /\ Forall2 (fun tk kv => to_val (fval tk).(c_val) = Ok (snd kv)) kvs vs /\
      dfields ((k, v) :: vs) (tk_src (TableKeyVal (KeyVal k {| ws1 := w1; ws2 := w2 |} (Cell i x)) sep nls) ++ concat (map tk_src kvs) ++ e)).
    { unfold tk_src at 1, tk_src_, sep_src. cbn [tk_kv kv_key kv_sep kv_val c_val tk_sep tk_nls ws1 ws2]. destruct kvs as [|a2 kvs].
      - exists []. split; [reflexivity|]. split; [constructor|]. cbn [map concat app]. cbn [map seps_ok] in S. unfold sep_is, fsep in S. cbn [fst snd tk_sep tk_nls] in S.
        destruct sep as [p|]; cbn [show_sep].
        + destruct S as [W G]. rewrite <- !app_assoc. rewrite <- (app_nil_r e) at 1.
          replace (k ++ w1 ++ lit "=" ++ w2 ++ tsrc x ++ ws1 p ++ lit "," ++ ws2 p ++ show_cons nls ++ e ++ [])
            with (k ++ w1 ++ lit "=" ++ w2 ++ tsrc x ++ ws1 p ++ lit "," ++ (ws2 p ++ show_cons nls ++ e) ++ []) by (rewrite <- !app_assoc; reflexivity).
          apply Df_cons; auto. constructor.
        + destruct S as [_ G]. cbn [app]. rewrite <- !app_assoc. apply Df_last; auto.
      - change (map fsep (TableKeyVal (KeyVal k {| ws1 := w1; ws2 := w2 |} (Cell i x)) sep nls :: a2 :: kvs)) with ((sep, nls) :: fsep a2 :: map fsep kvs) in S.
        change (sep_is false [] (sep, nls) /\ seps_ok e (fsep a2 :: map fsep kvs)) in S. destruct S as [S SL].
        destruct (IH e F' TL SL) as (vs & EK & EV & DV). exists vs. split; [exact EK|]. split; [exact EV|]. unfold sep_is in S. cbn [fst snd] in S.
        destruct sep as [p|]; [|destruct S; discriminate]. destruct S as [W G]. rewrite app_nil_r in G. cbn [show_sep].
        replace (((k ++ w1 ++ lit "=" ++ w2 ++ tsrc x) ++ (ws1 p ++ lit "," ++ ws2 p) ++ show_cons nls) ++ concat (map tk_src (a2 :: kvs)) ++ e)
          with (k ++ w1 ++ lit "=" ++ w2 ++ tsrc x ++ ws1 p ++ lit "," ++ (ws2 p ++ show_cons nls) ++ concat (map tk_src (a2 :: kvs)) ++ e) by (rewrite <- !app_assoc; reflexivity).
        apply Df_cons; auto. }
    destruct R as (vs & EK & EV & DV). exists ((k, v) :: vs). split; [cbn [map fst]; f_equal; exact EK|]. split; [constructor; auto|]. cbn [map concat]. rewrite <- app_assoc. exact DV.
Qed.
Lemma tform_src : forall x, tform x -> exists v, to_val x = Ok v /\ denotes v (tsrc x).
Proof.
  induction x as [s|s|b|d|vals n1 n2 IH|s t|kvs w IH|] using tval_ind'; intros T; try exact T; try contradiction.
  - cbn [tform] in T. destruct T as (G & S & TL). destruct (elems_src vals (show_cons n2) IH TL S) as (vs & E & D).
    exists (VArray vs). split; [cbn [to_val]; rewrite E; reflexivity|]. cbn [tsrc]. fold av_src.
    replace (concat (map av_src vals) ++ show_cons n2 ++ lit "]") with ((concat (map av_src vals) ++ show_cons n2) ++ lit "]") by (rewrite <- app_assoc; reflexivity).
    apply Dn_array; auto.
  - cbn [tform] in T. destruct T as (G & S & TL). destruct kvs as [|k0 kvs].
    { exists (VInlineTable []). split; [reflexivity|]. cbn [tsrc map concat app].
      replace (lit "{" ++ ws1 w ++ ws2 w ++ lit "}") with (lit "{" ++ (ws1 w ++ ws2 w) ++ [] ++ lit "}") by (rewrite <- !app_assoc; reflexivity).
      apply Dn_inline; [apply Forall_app; auto|constructor]. }
    revert IH S TL. generalize (k0 :: kvs). clear k0 kvs. intros kvs IH S TL. destruct (fields_src kvs (ws2 w) IH TL S) as (vs & EK & E & D).
    exists (VInlineTable vs). split; [apply fields_to_val; auto|]. cbn [tsrc]. fold tk_src.
    replace (concat (map tk_src kvs) ++ ws2 w ++ lit "}") with ((concat (map tk_src kvs) ++ ws2 w) ++ lit "}") by (rewrite <- app_assoc; reflexivity).
    apply Dn_inline; auto.
Qed.

(** ** Writing *)
Lemma tform_upd : forall id nv x, tform nv -> tform x -> tform (upd_tval id nv x).
Proof.
  intros id nv x N. assert (U : forall c : cell, (tform c.(c_val) -> tform (upd_tval id nv c.(c_val))) -> tform c.(c_val) -> tform (upd_cell (upd_tval id nv) id nv c).(c_val)).
  { intros c H T. unfold upd_cell. destruct (c_id c =? id); cbn [c_val]; auto. }
  induction x as [s|s|b|d|vals n1 n2 IH|s t|kvs w IH|] using tval_ind'; intros T; try exact T.
  - cbn [tform upd_tval] in *. destruct T as (G & S & TL). split; [exact G|]. split.
    + rewrite map_map. cbn [asep av_sep av_nls]. exact S.
    + clear S. induction IH as [|[c sep nls] vals X IH IHL]; [exact I|]. cbn [map fold_right av_val] in *. destruct TL as [T TL]. split; [apply U; auto|auto].
  - cbn [tform upd_tval] in *. destruct T as (G & S & TL). split; [exact G|]. split.
    + destruct kvs as [|k0 kvs]; [exact S|]. cbn [map] in *. rewrite map_map. exact S.
    + clear S. induction IH as [|[[k sp c] sep nls] kvs X IH IHL]; [exact I|]. cbn [map fold_right tk_kv kv_key kv_sep kv_val] in *.
      destruct TL as [(K & W1 & W2 & T) TL]. split; [|auto]. split; [auto|]. split; [auto|]. split; [auto|]. apply U; auto.
Qed.

(** ** Values that are spelled well *)
Fixpoint wsp (v : value) : Prop :=
  match v with
  | VArray l => fold_right (fun x P => wsp x /\ P) True l
  | VInlineTable l => fold_right (fun x P => (key_name (fst x) /\ wsp (snd x)) /\ P) True l
  | _ => tform (tval_of v)
  end.
Lemma denotes_wsp : forall v t, denotes v t -> wsp v.
Proof.
  apply (denotes_mut (fun v t => wsp v) (fun vs t => wsp (VArray vs)) (fun kvs t => wsp (VInlineTable kvs))); cbn [wsp fold_right fst snd]; auto.
  - intros v t S. pose proof (leaf_scalar v t S) as L. destruct S; exact L.
  - intros d D. exists (VDateTime d). split; [reflexivity|]. cbn [tval_of tsrc]. rewrite <- datetime_src_show. apply Dn_date; auto.
Qed.
Lemma spelled_wsp : forall v, well_spelled v -> wsp v.
Proof. intros v (t & D). eapply denotes_wsp; eauto. Qed.

Lemma rzip_forall : forall A B C (f : A -> B -> res (list C)) (Q : C -> Prop) l l2 ws,
  Forall (fun x => forall y w, In y l2 -> f x y = Ok w -> Forall Q w) l -> rzip f l l2 = Ok ws -> Forall Q ws.
Proof.
  intros A B C f Q. induction l as [|x l IH]; intros l2 ws F E; [inversion E; constructor|].
  inversion F as [|? ? X F']; subst. destruct l2 as [|y l2]; [discriminate|]. cbn [rzip] in E.
  apply rbind_ok in E as (a & E1 & E). apply rbind_ok in E as (b & E2 & E). inversion E; subst. apply Forall_app. split.
  - eapply X; eauto. left; auto.
  - eapply IH with (l2 := l2); eauto. apply Forall_impl with (2 := F'). intros z H y' w I. apply H. right; auto.
Qed.
Lemma fold_and_in : forall A (Q : A -> Prop) l x, fold_right (fun y P => Q y /\ P) True l -> In x l -> Q x.
Proof. induction l as [|y l IH]; intros x F I; [destruct I|]. destruct F as [H F]. destruct I as [->|I]; auto. Qed.
Lemma replace_form : forall t id v ws, wsp v -> replace_values id t v = Ok ws -> Forall (fun w => tform (snd w)) ws.
Proof.
  assert (L : forall id t v ws, match t with TArray _ _ _ | TInlineTable _ _ => False | _ => True end -> wsp v -> replace_values id t v = Ok ws -> Forall (fun w => tform (snd w)) ws).
  { intros id t v ws N W E. destruct t; try contradiction; destruct v; cbn [replace_values] in E; try discriminate E; inversion E; subst; constructor; auto; exact W. }
  induction t as [s|s|b|d|vals n1 n2 IH|s st|kvs w IH|] using tval_ind'; intros id v ws W E; try solve [eapply L; [|exact W|exact E]; exact I].
  - destruct v as [s|s|b|d|s st|l|l]; cbn [replace_values] in E; try discriminate E; try solve [inversion E; subst; constructor; auto; exact W].
    eapply rzip_forall; [|exact E]. apply Forall_impl with (2 := IH). intros av H y w I R. eapply H; [|exact R].
    eapply (fold_and_in _ wsp l y); auto.
  - destruct v as [s|s|b|d|s st|l|l]; cbn [replace_values] in E; try discriminate E; try solve [inversion E; subst; constructor; auto; exact W].
    eapply rzip_forall; [|exact E]. apply Forall_impl with (2 := IH). intros av H y w0 I R. eapply H; [|exact R].
    eapply (fold_and_in _ (fun x => key_name (fst x) /\ wsp (snd x)) l y); auto.
Qed.

Lemma convert_form : forall v n nv m, wsp v -> convert_vector v n = Ok (Some nv, m) -> tform nv.
Proof.
  induction v as [s|s|b|d|s st|l IH|l IH] using CtorFacts.value_ind'; intros n nv m W E; cbn [convert_vector] in E;
    (destruct (negb (validate _)); [discriminate E|]); try solve [inversion E; subst; exact W].
  - apply rbind_ok in E as ([o n2] & E1 & E). destruct o as [vs|]; [|discriminate]. inversion E; subst. clear E. cbn [tform]. split; [apply (G_ws [] BL_nil)|].
    assert (X : forall l n vs m, Forall (fun v => forall n nv m, wsp v -> convert_vector v n = Ok (Some nv, m) -> tform nv) l -> wsp (VArray l) ->
      conv_array convert_vector l n = Ok (Some vs, m) -> (l = [] <-> vs = []) /\ seps_ok [] (map asep vs) /\ fold_right (fun (av : array_value) P => tform av.(av_val).(c_val) /\ P) True vs).
    { clear. induction l as [|x l IH]; intros n vs m F W E.
      - inversion E; subst. split; [tauto|]. split; reflexivity || exact I.
      - inversion F as [|? ? X F']; subst. destruct W as [W WL]. cbn [conv_array] in E.
        apply rbind_ok in E as ([o n2] & E1 & E). destruct o as [t|]; [|discriminate]. apply rbind_ok in E as ([r n3] & E2 & E).
        destruct r as [vs'|]; [|discriminate]. inversion E; subst. clear E. destruct (IH _ _ _ F' WL E2) as (NN & S & T). split; [split; discriminate|]. split.
        + destruct l as [|y l].
          * destruct NN as [NN _]. rewrite (NN eq_refl). cbn [map seps_ok]. unfold sep_is. cbn. split; [reflexivity|apply (G_ws [] BL_nil)].
          * destruct vs' as [|v2 vs']; [destruct NN as [_ NN]; discriminate (NN eq_refl)|]. split; [|exact S]. unfold sep_is. cbn.
            split; [constructor|]. apply G_ws. apply BL_char; [lia|apply BL_nil].
        + split; [|exact T]. destruct l; cbn [av_val av_last av_default c_val]; eapply X; eauto. }
    destruct (X l n vs m IH W E1) as (_ & S & T). split; [exact S|exact T].
  - apply rbind_ok in E as ([kvs n2] & E1 & E). inversion E; subst. clear E. cbn [tform ws1 ws2]. split; [repeat constructor; lia|].
    assert (X : forall l n vs m, Forall (fun kv : str * value => forall n nv m, wsp (snd kv) -> convert_vector (snd kv) n = Ok (Some nv, m) -> tform nv) l -> wsp (VInlineTable l) ->
      conv_table convert_vector l n = Ok (vs, m) -> (l = [] <-> vs = []) /\ match vs with [] => blanks [32] | _ => seps_ok [32] (map fsep vs) end /\ fold_right (fun tk P => fform tk /\ P) True vs).
    { clear. induction l as [|[k x] l IH]; intros n vs m F W E.
      - inversion E; subst. split; [tauto|]. split; [repeat constructor; lia|exact I].
      - inversion F as [|? ? X F']; subst. destruct W as [[K W] WL]. cbn [fst snd] in *. cbn [conv_table fst snd] in E.
        apply rbind_ok in E as ([o n2] & E1 & E). destruct o as [t|]; [|discriminate]. apply rbind_ok in E as ([vs' n3] & E2 & E).
        inversion E; subst. clear E. destruct (IH _ _ _ F' WL E2) as (NN & S & T). split; [split; discriminate|]. split.
        + destruct l as [|y l].
          * destruct NN as [NN _]. rewrite (NN eq_refl). cbn [map seps_ok]. unfold sep_is. cbn. split; [reflexivity|apply G_ws; apply BL_char; [lia|apply BL_nil]].
          * destruct vs' as [|v2 vs']; [destruct NN as [_ NN]; discriminate (NN eq_refl)|]. split; [|exact S]. unfold sep_is. cbn.
            split; [constructor|]. apply G_ws. apply BL_char; [lia|apply BL_nil].
        + split; [|exact T]. assert (TT : tform t) by (eapply X; eauto). destruct l; unfold fform; cbn [tk_kv tkv_last tkv_default kv_key kv_sep kv_val ws1 ws2 c_val]; repeat split; auto; repeat constructor; lia. }
    destruct (X l n kvs m IH W E1) as (_ & S & T). split; [exact S|exact T].
Qed.

(** ** The document *)
Definition rform (t : toml) : Prop := Forall (fun e => eform e.(ne_expr)) t.
(** the same but for the contents of cells *)
Definition ealike (a b : nl_expression) : Prop :=
  a.(ne_nl) = b.(ne_nl) /\ a.(ne_expr).(e_ws) = b.(ne_expr).(e_ws) /\ a.(ne_expr).(e_table) = b.(ne_expr).(e_table) /\
  a.(ne_expr).(e_comment) = b.(ne_expr).(e_comment) /\
  match a.(ne_expr).(e_keyval), b.(ne_expr).(e_keyval) with
  | None, None => True
  | Some x, Some y => x.(kv_key) = y.(kv_key) /\ x.(kv_sep) = y.(kv_sep)
  | _, _ => False
  end.
Lemma ealike_refl : forall t, Forall2 ealike t t.
Proof. induction t as [|[nl [w [kv|] tb c]] t IH]; constructor; auto; unfold ealike; cbn; repeat split; auto. Qed.
Lemma ealike_trans : forall a b, Forall2 ealike a b -> forall c, Forall2 ealike b c -> Forall2 ealike a c.
Proof.
  induction 1 as [|x y a b X F IH]; intros c G; inversion G as [|? z ? ? Y G']; subst; constructor; auto.
  destruct X as (A1 & A2 & A3 & A4 & A5), Y as (B1 & B2 & B3 & B4 & B5). repeat split; try congruence.
  destruct (e_keyval (ne_expr x)), (e_keyval (ne_expr y)), (e_keyval (ne_expr z)); try contradiction; auto.
  destruct A5, B5; split; congruence.
Qed.
Lemma write_form : forall s w, tform (snd w) -> rform s.(p_root) -> rform (write s w).(p_root) /\ Forall2 ealike s.(p_root) (write s w).(p_root).
Proof.
  intros s [id nv] N R. cbn [write snd] in *. cbn [p_root set_root]. unfold upd_toml. split.
  - unfold rform in *. apply Forall_map. apply Forall_impl with (2 := R). intros [nl [ws0 [kv|] tb c]] H; unfold eform in *; cbn in *; [|exact I].
    unfold upd_c, upd_cell. destruct (c_id (kv_val kv) =? id); cbn [c_val]; [exact N|apply tform_upd; auto].
  - clear R. induction (p_root s) as [|[nl [w [kv|] tb c]] t IH]; constructor; auto; unfold ealike; cbn; repeat split; auto.
Qed.
Lemma writes_form : forall ws s, Forall (fun w => tform (snd w)) ws -> rform s.(p_root) ->
  rform (fold_left write ws s).(p_root) /\ Forall2 ealike s.(p_root) (fold_left write ws s).(p_root).
Proof.
  induction ws as [|w ws IH]; intros s F R; [split; [exact R|apply ealike_refl]|]. inversion F; subst. cbn [fold_left].
  destruct (write_form s w) as [A B]; auto. destruct (IH (write s w)) as [C D]; auto. split; [exact C|]. eapply ealike_trans; eauto.
Qed.
Lemma set_form : forall s k v s' b, well_spelled v -> set_value s k v = Ok (s', b) -> rform s.(p_root) -> rform s'.(p_root) /\ Forall2 ealike s.(p_root) s'.(p_root).
Proof.
  intros s k v s' b W E R. apply spelled_wsp in W. pose proof (ealike_refl (p_root s)) as RF. unfold set_value in E.
  destruct (hget k (p_map s)) as [hv|]; [|inversion E; subst; auto]. destruct (hv_value hv) as [c|]; [|inversion E; subst; auto].
  destruct (same_structure (c_val c) v).
  - apply rbind_ok in E as (ws & E1 & E). inversion E; subst. apply writes_form; auto. eapply replace_form; eauto.
  - apply rbind_ok in E as (ks & _ & E). apply rbind_ok in E as ([o n] & E2 & E). destruct o as [nv|]; [|inversion E; subst; auto].
    pose proof (convert_form _ _ _ _ W E2) as N.
    revert E. set (s0 := set_next n (set_map (fold_left (fun m k => hremove k m) ks (p_map s)) s)). intros E.
    assert (X : exists s1, p_root s' = p_root s1 /\ (s1 = s0 \/ exists id, s1 = write s0 (id, nv))).
    { assert (Y : forall x : res pst, (let? s1 := x in let (s2, c2) := new_cell s1 nv in let? m := rebuild_vector c2.(c_val) c2.(c_id) k true s2.(p_map) in Ok (set_map m s2, true)) = Ok (s', b) ->
        exists s1, x = Ok s1 /\ p_root s' = p_root s1).
      { intros x H. apply rbind_ok in H as (s1 & -> & H). cbn [new_cell] in H. apply rbind_ok in H as (m & _ & H). inversion H; subst. exists s1. split; reflexivity. }
      assert (Z : exists s1, match hget k s0.(p_map) with Some hv => match hv.(hv_value) with Some c => Ok (write s0 (c.(c_id), nv)) | None => Panic end | None => Ok s0 end = Ok s1 /\ p_root s' = p_root s1).
      { destruct nv; try discriminate E; apply Y; exact E. }
      destruct Z as (s1 & Z & P). exists s1. split; [exact P|]. destruct (hget k (p_map s0)) as [hv2|]; [|inversion Z; auto].
      destruct (hv_value hv2) as [c2|]; [|discriminate Z]. inversion Z; subst. right. eexists. reflexivity. }
    assert (R0 : p_root s0 = p_root s) by reflexivity. destruct X as (s1 & P & [->|(id & ->)]); rewrite P; [auto|].
    rewrite <- R0 in *. apply (write_form s0 (id, nv)); auto.
Qed.
Lemma updates_form : forall s us s', updates s us s' -> Forall (fun u => well_spelled (snd u)) us -> rform s.(p_root) -> rform s'.(p_root) /\ Forall2 ealike s.(p_root) s'.(p_root).
Proof.
  induction 1 as [s|s k v s1 b us s2 E U IH]; intros F R; [split; [exact R|apply ealike_refl]|]. inversion F as [|? ? W F']; subst.
  destruct (set_form s k v s1 b W E R) as [A B]. destruct (IH F' A) as [C D]. split; [exact C|]. eapply ealike_trans; eauto.
Qed.

(** ** Lines *)
Lemma more_src : forall m, concat (map show_wskey (map (fun x : str * str * str => {| wk_ws := {| ws1 := fst (fst x); ws2 := snd (fst x) |}; wk_key := snd x |}) m)) = concat (map more_text m).
Proof. intros m. rewrite map_map. reflexivity. Qed.
Lemma line_src : forall d e, stands_for d e -> match d with TPlain (HPair _ _ _ _ _ _ _ _) => True | _ => ex_src e = tline_text d end.
Proof.
  intros [[w c|w0 k w1 w2 v t w3 c|w0 w1 n m w2 w3 c]|w0 w1 n m w2 w3 c] e S; try exact I; cbn [stands_for] in S; subst e;
    unfold ex_src; cbn [e_ws e_keyval e_table e_comment ws1 ws2 tline_text hline_text app show_table_type show_table head_keys wk_ws wk_key];
    rewrite ?more_src, <- ?app_assoc; reflexivity.
Qed.
Lemma line_again : forall d e e', formed d -> stands_for d e.(ne_expr) -> ealike e e' -> eform e'.(ne_expr) ->
  exists d', formed d' /\ same_but_value d d' /\ stands_for d' e'.(ne_expr) /\ ex_src e'.(ne_expr) = tline_text d'.
Proof.
  intros d [nl e] [nl' [w' kv' tb' c']] F S A T. unfold ealike in A. cbn [ne_nl ne_expr e_ws e_keyval e_table e_comment] in *. destruct A as (-> & EW & ET & EC & EK).
  assert (Q : match d with TPlain (HPair _ _ _ _ _ _ _ _) => True | _ => stands_for d {| e_ws := w'; e_keyval := kv'; e_table := tb'; e_comment := c' |} end).
  { destruct d as [[w c|w0 k w1 w2 v t w3 c|w0 w1 n m w2 w3 c]|w0 w1 n m w2 w3 c]; try exact I; cbn [stands_for] in *; subst e; cbn [e_ws e_keyval e_table e_comment] in *;
      destruct kv'; try contradiction; subst; reflexivity. }
  destruct d as [[w c|w0 k w1 w2 v t w3 c|w0 w1 n m w2 w3 c]|w0 w1 n m w2 w3 c].
  - eexists. split; [exact F|]. split; [reflexivity|]. split; [exact Q|]. exact (line_src _ _ Q).
  - clear Q. cbn [stands_for] in S. destruct S as (x & TV & ->). cbn [e_ws e_keyval e_table e_comment] in *. destruct kv' as [[k' sp' [i' x']]|]; [|contradiction].
    cbn [kv_key kv_sep] in EK. destruct EK as [<- <-]. subst w' tb' c'. unfold eform in T. cbn [e_keyval kv_val c_val] in T. destruct (tform_src x' T) as (v' & TV' & D').
    exists (TPlain (HPair w0 k w1 w2 v' (tsrc x') w3 c)). cbn [formed] in *. destruct F as (W0 & K & W1 & W2 & D & W3 & C). split; [auto 10|].
    split; [repeat split|]. split; [exists (Cell i' x'); split; [exact TV'|reflexivity]|].
    unfold ex_src, kv_src, sep_src. cbn [e_ws e_keyval e_table e_comment ws1 ws2 kv_key kv_sep kv_val c_val tline_text hline_text app]. rewrite <- !app_assoc. reflexivity.
  - eexists. split; [exact F|]. split; [reflexivity|]. split; [exact Q|]. exact (line_src _ _ Q).
  - eexists. split; [exact F|]. split; [reflexivity|]. split; [exact Q|]. exact (line_src _ _ Q).
Qed.
Lemma lines_again : forall (P : str -> Prop) l t, Forall2 lsays l t -> Forall (fun x : str * tline => P (fst x) /\ formed (snd x)) l ->
  forall t', Forall2 ealike t t' -> rform t' ->
  exists l', Forall (fun x => P (fst x) /\ formed (snd x)) l' /\ Forall2 (fun x y => fst x = fst y /\ same_but_value (snd x) (snd y)) l l' /\
    Forall2 (fun x e => e.(ne_nl) = fst x /\ stands_for (snd x) e.(ne_expr)) l' t' /\ toml_src t' = tdoc_text l'.
Proof.
  intros P l t H. induction H as [|[nl d] e l t (A & B & _) H IH]; intros F t' G R; inversion G as [|? e' ? t2 Y G']; subst.
  - exists []. repeat split; constructor.
  - inversion F as [|? ? [PN FD] F']; subst. inversion R as [|? ? RE R']; subst. cbn [fst snd] in *.
    destruct (line_again d e e' FD B Y RE) as (d' & F1 & F2 & F3 & F4). destruct (IH F' t2 G' R') as (l' & L1 & L2 & L3 & L4).
    assert (NE : ne_nl e' = nl) by (destruct Y as (Y1 & _); congruence).
    exists ((nl, d') :: l'). split; [constructor; auto|]. split; [constructor; auto|]. split; [constructor; auto|].
    unfold toml_src, tdoc_text in *. cbn [map concat fst snd]. unfold ne_src at 1. rewrite NE, F4, L4. reflexivity.
Qed.
Lemma stands_shape : forall d e, stands_for d e -> expr_shape e.
Proof.
  intros [[w c|w0 k w1 w2 v t w3 c|w0 w1 n m w2 w3 c]|w0 w1 n m w2 w3 c] e S; cbn [stands_for] in S; try (subst e; unfold expr_shape; cbn; auto; fail).
  destruct S as (x & _ & ->). exact I.
Qed.
Lemma show_again : forall l s t, l <> [] -> Forall2 (fun (x : str * tline) e => e.(ne_nl) = fst x /\ stands_for (snd x) e.(ne_expr)) l s.(p_root) ->
  show_parser s = Ok t -> t = toml_src s.(p_root).
Proof.
  intros l s t N F E. unfold show_parser in E. apply show_toml_iff in E; [tauto|]. split.
  - intros Z. rewrite Z in F. inversion F; subst; congruence.
  - clear - F. induction F as [|x e l t [_ S] F IH]; constructor; auto. eapply stands_shape; eauto.
Qed.
Lemma doc_stays : forall s0 l s r us s', formed_doc l -> parse s0 (tdoc_text l) = Ok (s, r) -> updates s us s' ->
  Forall (fun u => well_spelled (snd u)) us ->
  exists l', formed_doc l' /\ Forall2 (fun x y => fst x = fst y /\ same_but_value (snd x) (snd y)) l l' /\
    Forall2 (fun x e => e.(ne_nl) = fst x /\ stands_for (snd x) e.(ne_expr)) l' s'.(p_root) /\
    (forall t, show_parser s' = Ok t -> t = tdoc_text l') /\
    (forall s2 s3 r3, parse s2 (tdoc_text l') = Ok (s3, r3) ->
       r3 = match s3.(p_errors) with [] => Full | es => FullError es end /\ s3.(p_leftover) = [] /\
       Forall2 (fun x e => e.(ne_nl) = fst x /\ stands_for (snd x) e.(ne_expr)) l' s3.(p_root)).
Proof.
  intros s0 l s r us s' F E U W. pose proof (doc_form s0 l s r F E) as H.
  assert (R : rform s.(p_root)) by (clear - H; induction H as [|? ? ? ? (_ & _ & A) H IH]; constructor; auto).
  destruct (updates_form s us s' U W R) as [R' A].
  destruct l as [|[nl d] l]; [destruct F|]. destruct F as (-> & FD & F). inversion H as [|? e ? t (H1 & H2 & _) HL Q1 Q2]; subst.
  rewrite <- Q2 in A. inversion A as [|? e' ? t' Y AL Q3 Q4]; subst. unfold rform in R'. rewrite <- Q4 in R'. inversion R' as [|? ? RE R2]; subst.
  destruct (line_again d e e' FD H2 Y RE) as (d' & F1 & F2 & F3 & F4).
  destruct (lines_again line_end l t HL F t' AL R2) as (l' & L1 & L2 & L3 & L4). cbn [fst snd] in *.
  assert (NE : ne_nl e' = []) by (destruct Y as (Y1 & _); congruence).
  assert (FL : formed_doc (([], d') :: l')) by (split; [reflexivity|]; split; auto).
  assert (ST : Forall2 (fun x e => e.(ne_nl) = fst x /\ stands_for (snd x) e.(ne_expr)) (([], d') :: l') s'.(p_root)) by (rewrite <- Q4; constructor; auto).
  exists (([], d') :: l'). split; [exact FL|]. split; [constructor; auto|]. split; [constructor; auto|]. split.
  - intros t0 S. assert (Z : t0 = toml_src (p_root s')) by (apply (show_again (([], d') :: l') s' t0); [discriminate|exact ST|exact S]). rewrite Z, <- Q4. unfold toml_src, tdoc_text in *. cbn [map concat fst snd app]. unfold ne_src at 1. rewrite NE, F4, L4. reflexivity.
  - intros s2 s3 r3 P. eapply doc_whole; eauto.
Qed.
