(** Arrays of tables side by side. *)
From Coq Require Import Lia ZifyBool ZifyNat ZifyN.
From Verif Require Import Str Regex Types Ast State Nom Keys Grammar Api Facts Spec ApiSpec.
From Verif Require Import TypesFacts DateFacts NumFacts StringFacts ScalarFacts FlatFacts DocSpec SectFacts DotSpec DotFacts.
From Verif Require Import TreeSpec TreeView TreeFacts SibSpec.

Lemma side_front : forall a b, side_by_side (a ++ b) -> side_by_side a.
Proof. intros a b H l1 d l2 ->. apply (H l1 d (l2 ++ b)). rewrite <- app_assoc. reflexivity. Qed.
Lemma opened_snoc : forall l o d, opened_arrays o (l ++ [d]) =
  match d with
  | TArr _ _ n m _ _ _ => head_path n m
  | TPlain (HHead _ _ n m _ _ _) => removelast (head_path n m)
  | _ => opened_arrays o l
  end.
Proof.
  induction l as [|x l IH]; intros o d; [destruct d as [[| |]|]; reflexivity|].
  cbn [app]. destruct x as [[| |]|]; cbn [opened_arrays]; rewrite IH; destruct d as [[| |]|]; reflexivity.
Qed.
Lemma tops_snoc : forall l d, top_arrays (l ++ [d]) = top_arrays l ++ match d with TArr _ _ n [] _ _ _ => [n] | _ => [] end.
Proof. intros. unfold top_arrays. rewrite flat_map_app. cbn [flat_map]. rewrite app_nil_r. reflexivity. Qed.
(** the open array is the one of the last header of an array *)
Lemma side_open : forall l, side_by_side l ->
  (top_arrays l = [] /\ opened_arrays [] l = []) \/ (exists x f, top_arrays l = x ++ [f] /\ opened_arrays [] l = [f]).
Proof.
  intros l. induction l as [|d l IH] using rev_ind; intros H; [left; auto|].
  specialize (IH (side_front _ _ H)). specialize (H l d [] eq_refl). rewrite tops_snoc, opened_snoc.
  destruct d as [[w c|w0 k w1 w2 v t w3 c|w0 w1 n m w2 w3 c]|w0 w1 n m w2 w3 c].
  - rewrite app_nil_r. exact IH.
  - rewrite app_nil_r. exact IH.
  - rewrite app_nil_r. destruct H as [[-> T]|(x & T & L)]; [left; auto|]. right. exists x, n. split; auto.
    destruct m as [|y [|z m]]; cbn in L; try lia. reflexivity.
  - destruct H as [-> _]. right. eauto.
Qed.
Lemma side_edge : forall l v, says l = Some v -> side_by_side l -> along_edge l.
Proof.
  intros l v SY H l1 d l2 u -> SU. pose proof (side_open l1 (side_front _ _ H)) as O.
  specialize (H l1 d l2 eq_refl). pose proof (fun n => tops_count l1 u n SU) as TC.
  assert (SD : exists z, add_line u d = Some z).
  { change (d :: l2) with ([d] ++ l2) in SY. rewrite app_assoc in SY. apply says_front in SY as (z & SY). rewrite says_snoc, SU in SY. eauto. }
  destruct d as [[w c|w0 k w1 w2 x t w3 c|w0 w1 n m w2 w3 c]|w0 w1 n m w2 w3 c]; try exact I.
  - cbn [at_edge]. destruct H as [[-> T]|(x & T & L)].
    + destruct O as [[_ ->]|(x & f & E & _)]; [|rewrite T in E; destruct x; discriminate]. split; [|cbn; lia].
      exists []. split; [reflexivity|intros g z r E; discriminate E].
    + split; [|lia]. destruct O as [[E _]|(y & f & E & ->)]; [rewrite T in E; destruct x; discriminate|].
      rewrite T in E. apply app_inj_tail in E as [_ <-]. destruct m as [|y1 [|y2 m]]; cbn in L; try lia. exists []. split; [reflexivity|intros g z r E; discriminate E].
  - cbn [at_edge]. destruct H as [-> PF]. specialize (TC n). cbn [head_path map].
    assert (NI : elem_count [PKey n] u.(w_elems) = 0 -> ~ In ([], n) u.(w_names)).
    { intros Z. destruct SD as (z & SD). cbn [add_line head_path map removelast resolve last app] in SD. rewrite Z in SD. change (0 <? 0) with false in SD. cbv iota in SD.
      match type of SD with (if ?b then _ else _) = _ => destruct b end; [discriminate SD|auto]. }
    destruct O as [[T ->]|(x & f & T & ->)].
    + right. right. left. split; auto. rewrite T in TC. split; [|intros f x r E; discriminate]. apply NI. exact TC.
    + destruct (list_eq_dec N.eq_dec n f) as [->|NE]; [left; split; [exists []; reflexivity|auto]|].
      assert (NP : forall g y r, [f] = g :: y -> n <> g ++ r).
      { intros g y r E. injection E as <- <-. destruct (PF f x r T); auto. }
      right. right. destruct (N.eq_dec (elem_count [PKey n] u.(w_elems)) 0) as [Z|NZ]; [left|right].
      * split; auto.
      * split; auto. split; [lia|]. split; [discriminate|exact NP].
Qed.
