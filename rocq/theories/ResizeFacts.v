(** The names in an accepted document: which are taken, and how they start out. *)
From Coq Require Import Lia ZifyBool ZifyNat ZifyN.
From Verif Require Import TotalFacts.
From Verif Require Import Str Types Ast State Keys Api Spec NomFacts IdFacts ApiSpec ApiFacts DocSpec DotSpec HeadSpec ReachSpec KidsSpec.
From Verif Require NestFacts ReachFacts KidsFacts.
From Verif Require Import AboveFacts LinkFacts.

Section Doc.
Variables (ovf : bool) (i : str) (s : pst) (r : parse_result) (x : list str * keyval) (u : value).
Hypothesis P : parse (new_parser ovf) i = Ok (s, r).
Hypothesis PT : plain_tables s.(p_root).
Hypothesis AT : all_taken s.(p_errors).
Hypothesis LO : s.(p_leftover) = [].
Hypothesis AP : apart s.(p_root).
Hypothesis I : In x (keyed [] s.(p_root)).
Hypothesis D : denotes (snd x).(kv_val).(c_val) u.

Lemma path_named : forall p w, at_path u p = Some w -> KidsFacts.named p.
Proof.
  intros p w A. pose proof (KidsFacts.kids_good _ _ _ _ P PT AT LO AP) as G. pose proof (NestFacts.tat_at p _ _ (ReachFacts.denotes_val _ _ D)) as Y. rewrite A in Y. destruct Y as (y & Y & _).
  destruct (KidsFacts.g_held _ _ _ G x I) as [KN _]. exact (KN _ _ Y).
Qed.
Lemma named_line : forall p, KidsFacts.named p -> KidsFacts.tx (KidsFacts.lpl x ++ p) = line_name x ++ path_text p /\
  KidsFacts.named (KidsFacts.lpl x ++ p) /\ KidsFacts.lpl x <> [].
Proof.
  intros p NP. pose proof (KidsFacts.kids_good _ _ _ _ P PT AT LO AP) as G. pose proof (KidsFacts.line_names _ _ _ _ G I) as LN. pose proof (KidsFacts.line_named _ _ _ _ G I) as LNM.
  assert (NB : KidsFacts.named (KidsFacts.lpl x ++ p)) by (apply KidsFacts.named_app; auto).
  assert (NE : KidsFacts.lpl x <> []) by (unfold KidsFacts.lpl, line_path; rewrite map_app; destruct (map PKey (fst x)); discriminate).
  split; auto. rewrite KidsFacts.tx_path; auto. f_equal. apply KidsFacts.line_key. exact LN.
Qed.
Lemma name_fresh : forall p, KidsFacts.named p -> line_name x ++ path_text p <> [] /\ line_name x ++ path_text p <> root_key.
Proof.
  intros p NP. destruct (named_line p NP) as (E & NB & NE). rewrite <- E. split; [intros Z; exact (KidsFacts.tx_nil _ NB (eq_sym Z))|].
  apply KidsFacts.tx_root; auto. intros Z. apply app_eq_nil in Z as [Z _]. auto.
Qed.
(** a name below a key/value that leads to no part of its value has no children *)
Lemma name_none : forall p, KidsFacts.named p -> at_path u p = None -> get_children s (line_name x ++ path_text p) = None.
Proof.
  intros p NP A. pose proof (KidsFacts.kids_good _ _ _ _ P PT AT LO AP) as G. destruct (named_line p NP) as (E & NB & _). destruct (name_fresh p NP) as [NE _].
  destruct (KidsFacts.g_held _ _ _ G x I) as [_ AH]. pose proof (AH _ NP) as H. unfold KidsFacts.look in H. pose proof (NestFacts.tat_at p _ _ (ReachFacts.denotes_val _ _ D)) as Y. rewrite A in Y. rewrite Y, E in H.
  unfold get_children. destruct (line_name x ++ path_text p); [congruence|]. rewrite H. reflexivity.
Qed.
Lemma name_value : forall p w, at_path u p = Some w -> get_value s (line_name x ++ path_text p) = Ok (Some w).
Proof.
  intros p w A. destruct (doc_cell _ _ _ _ _ _ _ _ P PT AT LO AP I D A) as (y & _ & T & V). apply get_value_cell. eauto.
Qed.
End Doc.

(** ** [get_value] answers for every name that is not the name of a table *)
Lemma value_total : forall ovf i s r k, parse (new_parser ovf) i = Ok (s, r) -> plain_tables s.(p_root) -> all_taken s.(p_errors) -> s.(p_leftover) = [] -> apart s.(p_root) ->
  k <> root_key -> (forall q, q <> [] -> table_of s.(p_root) q -> k <> dotted_name q) -> exists o, get_value s k = Ok o.
Proof.
  intros ovf i s r k H PT AT LO AP NR NT. pose proof (KidsFacts.kids_good _ _ _ _ H PT AT LO AP) as G. destruct (ReachFacts.found_all _ _ _ _ H PT AT) as [_ FA].
  destruct (get_value s k) as [o| |] eqn:V; [eauto|exfalso..].
  all: assert (HN : hget k s.(p_map) <> None) by (intros Z; unfold get_value in V; rewrite Z in V; discriminate V); apply HN; apply (KidsFacts.g_none _ _ _ G).
  1,3: intros q T Q; pose proof (KidsFacts.g_names _ _ _ G q T) as F; unfold KidsFacts.tk in Q; rewrite KidsFacts.tx_keys in Q by auto; destruct q; [exact (NR Q)|];
    refine (NT _ _ T Q); discriminate.
  all: intros x p I NP Q; destruct (FA x I) as (u & D & FV); destruct (named_line _ _ _ _ _ H PT AT LO AP I _ NP) as (E & _); rewrite E in Q; subst k;
    destruct (at_path u p) as [w|] eqn:A; [rewrite (FV _ _ A) in V; discriminate V|];
    destruct (KidsFacts.g_held _ _ _ G x I) as [_ AH]; pose proof (AH _ NP) as HY; unfold KidsFacts.look in HY; pose proof (NestFacts.tat_at p _ _ (ReachFacts.denotes_val _ _ D)) as Y;
    rewrite A in Y; rewrite Y, E in HY; exact (HN HY).
Qed.
