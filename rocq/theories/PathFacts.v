(** Paths, and the gaps between the elements of arrays and inline tables. *)
From Coq Require Import Lia ZifyBool ZifyNat ZifyN.
From Verif Require Import Str Regex Types Ast State Nom Keys Grammar Api Facts Spec.
From Verif Require Import RegexFacts NomFacts TypesFacts DateFacts NumFacts StringFacts ScalarFacts.
From Verif Require Import LineFacts FlatFacts ApiSpec DocSpec.

(** ** Paths *)

(** the end, a dot or an opening bracket *)
Definition stop_head (r : str) : Prop := match r with [] => True | c :: _ => c = 46 \/ c = 91 end.

Lemma forall_split : forall (Q : N -> Prop) a b r r', Forall Q a -> Forall Q b ->
  match r with [] => True | c :: _ => ~ Q c end -> match r' with [] => True | c :: _ => ~ Q c end ->
  a ++ r = b ++ r' -> a = b /\ r = r'.
Proof.
  intros Q a. induction a as [|x a IH]; intros b r r' A B R R' E.
  - destruct b as [|y b]; auto. cbn [app] in E. subst r. inversion B; subst. contradiction.
  - inversion A; subst. destruct b as [|y b].
    + cbn [app] in E. subst r'. contradiction.
    + cbn [app] in E. inversion E; subst. inversion B; subst. destruct (IH b r r') as [-> ->]; auto.
Qed.

Lemma bare_split : forall k k' r r', key_name k -> key_name k' -> stop_head r -> stop_head r' ->
  k ++ r = k' ++ r' -> k = k' /\ r = r'.
Proof.
  intros k k' r r' A B R R' E. pose proof (key_head k A) as (a & u & EA & CA). pose proof (key_head k' B) as (b & v & EB & CB).
  destruct A as [[NA A]|(x & _ & X & ->)], B as [[NB B]|(y & _ & Y & ->)].
  - apply (forall_split bare_char k k' r r'); auto.
    + destruct r; auto. simpl in R. unfold bare_char. lia.
    + destruct r'; auto. simpl in R'. unfold bare_char. lia.
  - exfalso. subst k. inversion A; subst. cbn [app] in E. injection E as -> _. unfold bare_char in *. lia.
  - exfalso. subst k'. inversion B; subst. cbn [app] in E. injection E as <- _. unfold bare_char in *. lia.
  - rewrite <- !app_assoc in E. cbn [app] in E. injection E as E. apply quoted_split in E as [-> ->]; auto.
Qed.

Lemma dec_split : forall i j r r', dec i ++ lit "]" ++ r = dec j ++ lit "]" ++ r' -> i = j /\ r = r'.
Proof.
  intros i j r r' E. destruct (dec_spec i) as (A & _). destruct (dec_spec j) as (B & _).
  rewrite forallb_forall in A, B.
  destruct (forall_split (fun c => is_ascii_digit c = true) (dec i) (dec j) (lit "]" ++ r) (lit "]" ++ r')) as [X Y]; auto;
    try (apply Forall_forall; auto); try (intros H; discriminate H).
  split; [apply dec_inj; auto|]. apply app_inv_head in Y. auto.
Qed.

Lemma path_cons : forall x p, path_text (x :: p) = step_text x ++ path_text p.
Proof. reflexivity. Qed.
Lemma path_app : forall p q, path_text (p ++ q) = path_text p ++ path_text q.
Proof. intros. unfold path_text. rewrite map_app, concat_app. auto. Qed.
Lemma path_stop : forall p, stop_head (path_text p).
Proof. intros [|[i|k] p]; simpl; auto. Qed.
Lemma path_stop_app : forall p r, stop_head r -> stop_head (path_text p ++ r).
Proof. intros [|[i|k] p] r R; simpl; auto. Qed.

Lemma path_prefix : forall p q r, good_path p -> good_path q -> stop_head r -> path_text q = path_text p ++ r ->
  exists q', q = p ++ q' /\ r = path_text q'.
Proof.
  induction p as [|x p IH]; intros q r P Q R E.
  - exists q. auto.
  - inversion P; subst. rewrite path_cons, <- app_assoc in E. destruct q as [|y q].
    { destruct x; discriminate E. }
    inversion Q; subst. rewrite path_cons in E.
    assert (x = y /\ path_text q = path_text p ++ r) as [-> E2].
    { destruct x as [i|k], y as [j|k'].
      - cbn [step_text] in E. rewrite <- !app_assoc in E. apply app_inv_head in E. apply dec_split in E as [-> E]. auto.
      - discriminate E.
      - discriminate E.
      - cbn [step_text] in E. rewrite <- !app_assoc in E. apply app_inv_head in E.
        apply bare_split in E as [-> E]; auto using path_stop, path_stop_app. }
    destruct (IH q r) as (q' & -> & ->); auto. exists q'. auto.
Qed.

(** ** Addresses: a key and a path *)
Definition addr := (str * list pstep)%type.
Definition atext (a : addr) : str := fst a ++ path_text (snd a).
Definition good_addr (a : addr) : Prop := key_name (fst a) /\ good_path (snd a).
Definition ext (a : addr) (p : list pstep) : addr := (fst a, snd a ++ p).

Lemma atext_ext : forall a p, atext (ext a p) = atext a ++ path_text p.
Proof. intros. unfold atext, ext. cbn [fst snd]. rewrite path_app, app_assoc. auto. Qed.
Lemma ext_nil : forall a, ext a [] = a.
Proof. intros [k p]. unfold ext. cbn [fst snd]. rewrite app_nil_r. auto. Qed.
Lemma ext_ext : forall a p q, ext (ext a p) q = ext a (p ++ q).
Proof. intros. unfold ext. cbn [fst snd]. rewrite app_assoc. auto. Qed.
Lemma good_ext : forall a p, good_addr a -> good_path p -> good_addr (ext a p).
Proof. intros a p [A B] P. split; auto. apply Forall_app; auto. Qed.

Lemma addr_prefix : forall a b r, good_addr a -> good_addr b -> stop_head r -> atext b = atext a ++ r ->
  exists p, b = ext a p /\ r = path_text p.
Proof.
  intros [k p] [k' q] r [A B] [C D] R E. unfold atext in E. cbn [fst snd] in *. rewrite <- app_assoc in E.
  apply bare_split in E as [-> E]; auto using path_stop, path_stop_app.
  apply path_prefix in E as (q' & -> & ->); auto. exists q'. auto.
Qed.
Lemma atext_inj : forall a b, good_addr a -> good_addr b -> atext a = atext b -> a = b.
Proof.
  intros a b A B E. destruct (addr_prefix a b []) as (p & -> & H); auto. { exact I. } { rewrite app_nil_r. auto. }
  destruct p as [|[i|k] p]; try discriminate H. symmetry. apply ext_nil.
Qed.
Lemma atext_ne : forall a, good_addr a -> atext a <> [].
Proof. intros [k p] [A _]. unfold atext. cbn [fst snd] in *. apply key_head in A as (c & t & -> & _). discriminate. Qed.
Lemma atext_root : forall a, good_addr a -> atext a <> root_key.
Proof.
  intros [k p] [A _] E. unfold atext in E. cbn [fst snd] in *. apply key_head in A as (c & t & -> & C).
  change root_key with (36 :: lit "Root$") in E. cbn [app] in E. injection E as -> E. unfold bare_char in *. lia.
Qed.

(** at an address or below it *)
Definition under (a x : str) : Prop := x = a \/ below a x.
Lemma below_stop : forall a x, below a x <-> exists r, r <> [] /\ stop_head r /\ x = a ++ r.
Proof.
  intros a x. split.
  - intros (c & r & -> & H). exists (c :: r). split; [discriminate|]. auto.
  - intros ([|c r] & N & H & ->); [congruence|]. exists c, r. auto.
Qed.
Lemma under_stop : forall a x, under a x <-> exists r, stop_head r /\ x = a ++ r.
Proof.
  intros a x. unfold under. rewrite below_stop. split.
  - intros [->|(r & _ & H & ->)]; [|eauto]. exists []. rewrite app_nil_r. split; auto. exact I.
  - intros (r & H & ->). destruct r; [left; apply app_nil_r|]. right. eexists. split; [|eauto]. discriminate.
Qed.
Lemma under_ext : forall a b, good_addr a -> good_addr b -> under (atext a) (atext b) -> exists p, b = ext a p.
Proof.
  intros a b A B U. apply under_stop in U as (r & R & E). apply addr_prefix in E as (p & -> & _); eauto.
Qed.
Lemma under_path : forall a p, under a (a ++ path_text p).
Proof. intros. apply under_stop. eexists. split; [apply path_stop|auto]. Qed.
Lemma below_path : forall a p, p <> [] -> below a (a ++ path_text p).
Proof.
  intros a p N. apply below_stop. eexists. split; [|split; [apply path_stop|auto]].
  destruct p as [|[i|k] p]; [congruence|discriminate|discriminate].
Qed.
Lemma under_trans : forall a p x, under (a ++ path_text p) x -> under a x.
Proof.
  intros a p x U. apply under_stop in U as (r & R & ->). rewrite <- app_assoc. apply under_stop.
  eexists. split; [|reflexivity]. apply path_stop_app; auto.
Qed.
Lemma below_trans : forall a p x, p <> [] -> under (a ++ path_text p) x -> below a x.
Proof.
  intros a p x N U. apply under_stop in U as (r & R & ->). rewrite <- app_assoc. apply below_stop.
  eexists. split; [|split; [|reflexivity]]; [|apply path_stop_app; auto].
  destruct p as [|[i|k] p]; [congruence|discriminate|discriminate].
Qed.
Lemma below_not_self : forall a, ~ below a a.
Proof. intros a (c & r & E & _). rewrite <- app_nil_r in E at 1. apply app_inv_head in E. discriminate. Qed.

Lemma step_disjoint : forall a x y z, good_step x -> good_step y -> under (a ++ step_text x) z -> under (a ++ step_text y) z -> x = y.
Proof.
  intros a x y z X Y U V. apply under_stop in U as (r & R & ->). apply under_stop in V as (r' & R' & E).
  rewrite <- !app_assoc in E. apply app_inv_head in E. destruct x as [i|k], y as [j|k']; cbn [step_text] in E.
  - rewrite <- !app_assoc in E. apply app_inv_head in E. apply dec_split in E as [-> _]. auto.
  - discriminate E.
  - discriminate E.
  - rewrite <- !app_assoc in E. apply app_inv_head in E. apply bare_split in E as [-> _]; auto.
Qed.
Lemma under_step_below : forall a x z, under (a ++ step_text x) z -> below a z.
Proof.
  intros a x z U. replace (step_text x) with (path_text [x]) in U.
  - apply below_trans in U; auto. discriminate.
  - unfold path_text. cbn [map concat]. apply app_nil_r.
Qed.

(** ** Gaps *)
(** what can follow a gap *)
Definition solid (r : str) : Prop := match r with [] => True | c :: _ => ~ In c [9; 10; 13; 32; 35] end.

Definition wsn_step (s : str) : option str :=
  match s with
  | [] => None
  | c :: s' => if (c =? 32) || (c =? 9) || (c =? 10) then Some s'
               else if c =? 13 then match s' with d :: s2 => if d =? 10 then Some s2 else None | [] => None end
               else None
  end.
Lemma det_wsn : det (RAlts [RChr 32; RChr 9; RChr 10; RStr [13;10]]) wsn_step.
Proof.
  intros s k. cbn [RAlts rm RChr RStr]. destruct s as [|c s]; [reflexivity|]. unfold wsn_step, in_ranges.
  destruct (N.eqb_spec c 32); [subst; simpl; destruct (k s); auto|].
  destruct (N.eqb_spec c 9); [subst; simpl; destruct (k s); auto|].
  destruct (N.eqb_spec c 10); [subst; simpl; destruct (k s); auto|].
  assert ((32 <=? c) && (c <=? 32) || false = false) as -> by lia.
  assert ((9 <=? c) && (c <=? 9) || false = false) as -> by lia.
  assert ((10 <=? c) && (c <=? 10) || false = false) as -> by lia. cbn [orb].
  destruct (N.eqb_spec c 13).
  - subst. cbn. destruct s as [|d s]; auto. destruct (N.eqb_spec d 10).
    + subst. reflexivity.
    + assert ((10 <=? d) && (d <=? 10) || false = false) as -> by lia. auto.
  - assert ((13 <=? c) && (c <=? 13) || false = false) as -> by lia. auto.
Qed.
Lemma blank_lines_iter : forall w, blank_lines w -> forall r n, solid r \/ wsn_step r = None -> (length (w ++ r) <= n)%nat ->
  iter_step wsn_step n (w ++ r) = r.
Proof.
  induction 1 as [|c w C W IH|w W IH]; intros r n R L.
  - cbn [app] in *. assert (wsn_step r = None) as X.
    { destruct R as [R|R]; auto. destruct r as [|c r]; auto. cbn [solid In] in R. unfold wsn_step.
      assert ((c =? 32) || (c =? 9) || (c =? 10) = false) as -> by lia. assert (c =? 13 = false) as -> by lia. auto. }
    destruct n; cbn [iter_step]; auto. rewrite X. auto.
  - cbn [app length] in *. destruct n; [lia|]. cbn [iter_step wsn_step].
    assert ((c =? 32) || (c =? 9) || (c =? 10) = true) as -> by lia. apply IH; auto. lia.
  - cbn [app length] in *. destruct n; [lia|]. cbn [iter_step wsn_step]. apply IH; auto. lia.
Qed.
Lemma ws_newline_ok : forall w r s, blank_lines w -> solid r \/ wsn_step r = None -> ws_newline s (w ++ r) = Ok (s, Done r w).
Proof.
  intros w r s W R. unfold ws_newline. apply re_find_ok. apply re_match_rm; [reflexivity|].
  unfold re_ws_newline. rewrite rm_star, (star_greedy_det _ _ _ det_wsn) by discriminate.
  rewrite blank_lines_iter; auto.
Qed.

(** a piece of a gap *)
Lemma comment_piece : forall w c g r s, blank_lines w -> comment_text c -> forall nl, line_end nl -> blank_lines g ->
  solid r \/ wsn_step r = None ->
  comment_or_nl s (w ++ lit "#" ++ c ++ nl ++ g ++ r) =
  Ok (s, Done r (CComment {| cn_pre := w; cn_comment := c; cn_newlines := nl ++ g |})).
Proof.
  intros w c g r s W C nl NL G R. unfold comment_or_nl. apply alt_ok, pmap_ok, complete_ok. unfold comment_nl.
  erewrite bind_ok by (apply ws_newline_ok; auto; right; reflexivity).
  erewrite bind_ok.
  2:{ apply comment_ok; auto. right. exists nl, (g ++ r). auto. }
  erewrite bind_ok; [reflexivity|]. rewrite app_assoc. apply ws_newline_ok; auto.
  destruct NL as [->| ->]; [apply BL_char; auto|apply BL_crlf; auto].
Qed.
Lemma comment_solid : forall s r, solid r -> complete comment s r = Ok (s, Error).
Proof. intros s r R. apply comment_err. destruct r; simpl in *; auto. intros ->. apply R. tauto. Qed.
Lemma space_piece : forall w r s, blank_lines w -> solid r -> comment_or_nl s (w ++ r) = Ok (s, Done r (CNewLines w)).
Proof.
  intros w r s W R. unfold comment_or_nl. erewrite alt_err.
  - apply pmap_ok, complete_ok, ws_newline_ok; auto.
  - apply pmap_err, complete_err. unfold comment_nl. erewrite bind_ok by (apply ws_newline_ok; auto).
    pose proof (comment_solid s r R) as X. unfold complete in X. destruct (comment s r) as [[s1 [| |]]| |] eqn:E; cbn [rbind] in X;
      try discriminate; inversion X; subst; [left; apply bind_err; auto|right; apply bind_inc; auto].
Qed.

(** the first piece of a gap *)
Lemma gap_cut : forall g r s, gap g -> solid r -> exists x g2, comment_or_nl s (g ++ r) = Ok (s, Done (g2 ++ r) x) /\
  g = show_con x ++ g2 /\ gap g2 /\ (g = [] \/ (length g2 < length g)%nat).
Proof.
  intros g r s G R. destruct G as [w W|w c nl g W C NL G].
  - exists (CNewLines w), []. cbn [show_con]. rewrite app_nil_r. split; [apply space_piece; auto|]. split; auto.
    split; [apply G_ws; constructor|]. destruct w; auto. right. cbn [length]. lia.
  - assert (D : exists g1 g2, g = g1 ++ g2 /\ blank_lines g1 /\ gap g2 /\ (solid (g2 ++ r) \/ wsn_step (g2 ++ r) = None)).
    { destruct G as [w2 W2|w2 c2 nl2 g2 W2 C2 NL2 G2].
      - exists w2, []. rewrite app_nil_r. split; auto. split; auto. split; [apply G_ws; constructor|auto].
      - exists w2, (lit "#" ++ c2 ++ nl2 ++ g2). split; auto. split; auto. split; [|right; reflexivity].
        apply (G_com [] c2 nl2 g2); auto. constructor. }
    destruct D as (g1 & g2 & -> & G1 & G2 & D).
    exists (CComment {| cn_pre := w; cn_comment := c; cn_newlines := nl ++ g1 |}), g2.
    rewrite <- !app_assoc. split; [apply comment_piece; auto|]. cbn [show_con cn_pre cn_comment cn_newlines].
    unfold show_comment. change (lit "#") with [35]. rewrite <- !app_assoc. split; auto. split; auto. right.
    rewrite !app_length. cbn [length]. lia.
Qed.

Lemma gap_loop : forall k g, length g = k -> gap g -> forall r s n, solid r -> (length (g ++ r) < n)%nat ->
  exists l, many_loop n comment_or_nl s (g ++ r) = Ok (s, Done r l) /\ show_cons l = g.
Proof.
  induction k as [k IH] using lt_wf_ind. intros g K G r s n R L. destruct n; [lia|]. cbn [many_loop].
  destruct (gap_cut g r s G R) as (x & g2 & E & Q & G2 & D). destruct (g ++ r) as [|a b] eqn:GR.
  - destruct g; [|discriminate]. destruct r; [|discriminate]. exists []. auto.
  - rewrite E. cbn [rbind]. rewrite <- GR. destruct D as [D|D].
    + rewrite D in Q. symmetry in Q. apply app_eq_nil in Q as [D1 D2]. subst g g2. cbn [app]. rewrite Nat.eqb_refl. exists []. auto.
    + assert (Nat.eqb (length (g2 ++ r)) (length (g ++ r)) = false) as ->.
      { apply Nat.eqb_neq. rewrite !app_length. lia. }
      destruct (IH (length g2)) with (g := g2) (r := r) (s := s) (n := n) as (l & E2 & S); auto; [lia| |].
      { rewrite <- GR, app_length in L. rewrite app_length. lia. }
      rewrite E2. exists (x :: l). split; auto. unfold show_cons in *. cbn [map concat]. rewrite S. auto.
Qed.

Lemma gap_ok : forall g r s, gap g -> solid r -> exists l, comment_or_nls s (g ++ r) = Ok (s, Done r l) /\ show_cons l = g.
Proof.
  intros g r s G R. unfold comment_or_nls, many1.
  destruct (gap_cut g r s G R) as (x & g2 & E & Q & G2 & D). rewrite E. cbn [rbind].
  destruct (gap_loop (length g2) g2 eq_refl G2 r s (S (length (g2 ++ r))) R) as (l & E2 & S); [lia|].
  rewrite E2. exists (x :: l). split; auto. unfold show_cons in *. cbn [map concat]. rewrite S. auto.
Qed.

(** a gap starts with blanks *)
Lemma gap_blanks : forall g r, gap g -> solid r -> exists w g2, g = w ++ g2 /\ blanks w /\ gap g2 /\ no_blank (g2 ++ r).
Proof.
  assert (B : forall w, blank_lines w -> exists u v, w = u ++ v /\ blanks u /\ blank_lines v /\ match v with [] => True | c :: _ => c = 10 \/ c = 13 end).
  { induction 1 as [|c w C W (u & v & -> & U & V & H)|w W IH].
    - exists [], []. repeat split; constructor.
    - destruct (N.eq_dec c 10) as [->|N].
      + exists [], (10 :: u ++ v). repeat split; auto. constructor. apply BL_char; auto.
      + exists (c :: u), v. repeat split; auto. constructor; auto. lia.
    - exists [], (13 :: 10 :: w). repeat split; auto. constructor. apply BL_crlf; auto. }
  intros g r G R. destruct G as [w W|w c nl g W C NL G]; destruct (B w W) as (u & v & -> & U & V & H).
  - exists u, v. repeat split; auto. apply G_ws; auto.
    destruct v as [|x v]; [|simpl; lia]. cbn [app]. destruct r; simpl in *; auto. lia.
  - exists u, (v ++ lit "#" ++ c ++ nl ++ g). rewrite <- app_assoc. repeat split; auto. apply G_com; auto.
    destruct v as [|x v]; simpl; lia.
Qed.
Lemma gap_ends : forall g r, gap g -> ends_value r -> ends_value (g ++ r).
Proof.
  assert (B : forall w r, blank_lines w -> ends_value r -> ends_value (w ++ r)).
  { intros w r W R. destruct W as [|c w C W|w W]; auto; simpl; intuition. }
  intros g r G R. destruct G as [w W|w c nl g W C NL G]; [auto|]. rewrite <- app_assoc. apply B; auto. simpl. tauto.
Qed.
