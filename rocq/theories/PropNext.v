(** What one run of the tool sets the next run gets, on all documents. *)
From Coq Require Import Lia ZifyBool ZifyNat ZifyN.
From Verif Require Import Str Regex Types Ast State Nom Keys Grammar Api Cli Facts Spec ApiSpec.
From Verif Require Import CliSpec CliFacts NumFacts ScalarFacts FlatFacts PropTypes PropFlat DocSpec PropNest PropCli MixSpec NestFacts DotSpec TreeSpec WholeSpec WholeFacts PropWhole StaySpec KinSpec AgainSpec PropAgain NextSpec NextFacts RunSpec.

(** C86.  Every document of the form of TOML that is read without errors and can be
    printed; the new values have the types of the old ones.  The next run may ask for the
    keys that were set; and with any commands but set-value, where get-value is used for
    other scalars, it prints what it would have printed before. *)
Theorem C86_next_run : forall x g kvs out path l fs us s t0,
  formed_doc l -> parse (new_parser x.(x_ovf)) (tdoc_text l) = Ok (s, Full) -> show_parser s = Ok t0 ->
  g.(g_print) = false -> x.(x_split) kvs = Some fs -> fields fs us -> us <> [] ->
  Forall (fun u => well_spelled (snd u) /\ exists old, get_value s (fst u) = Ok (Some old) /\ same_types old (snd u)) us ->
  exists t, process_document x (new_options g) (set_values kvs out) path (tdoc_text l) =
      Finished (separated (separator g) (repeat (lit "Success") (length us)) ++ [10]) (Some (or_else out path, t)) /\
    (forall csv keys vs path', x.(x_split) csv = Some keys -> keys <> [] -> Forall2 (fun k v => set_to us k = Some v) keys vs ->
       exists ts, Forall2 (printed g.(g_strip)) vs ts /\
         process_document x (new_options g) (get_values csv) path' t = Finished (separated (separator g) ts ++ [10]) None) /\
    (forall m path', m.(m_set) = None ->
       (forall csv keys, m.(m_get) = Some csv -> x.(x_split) csv = Some keys -> Forall (left_alone s us) keys) ->
       process_document x (new_options g) m path' t = process_document x (new_options g) m path' (tdoc_text l)).
Proof. exact next_run. Qed.
Print Assumptions C86_next_run.

(** an array of tables that is opened again after a table, which C60 does not cover *)
Definition n_line (k : str) (v : value) (t : str) : tline := TPlain (HPair [] k [32] [32] v t [32] (Some (lit "c"))).
Definition n_x : tline := TArr [] [32] (lit "x") [] [] [] None.
Definition n_str (c : N) : value := VString [c] SBasic.
Definition n_lines : list (str * tline) :=
  [([], n_line (lit "a") (VInteger (lit "1")) (lit "1")); ([10], n_x); ([10], n_line (lit "b") (n_str 115) [34; 115; 34]);
   ([10], TPlain (HHead [] [] (lit "t") [([], [32], lit "u")] [] [32] None)); ([10], n_line (lit "c") (VArray [VInteger (lit "1"); VInteger (lit "2")]) (lit "[1,2]"));
   ([13; 10], n_x); ([10], n_line (lit "d") (n_str 114) [34; 114; 34])].
Lemma n_formed : formed_doc n_lines.
Proof.
  assert (E : line_end [10]) by (unfold line_end; auto). assert (E2 : line_end [13; 10]) by (unfold line_end; auto).
  assert (S : forall c, 97 <= c <= 122 -> denotes (n_str c) [34; c; 34]).
  { intros c C. apply Dn_scalar. apply (Sc_basic [c]). apply (BB_char c); [lia|lia|lia|constructor]. }
  assert (L : forall k v t, (exists c, k = [c] /\ 97 <= c <= 122) -> denotes v t -> formed (n_line k v t)).
  { intros k v t (c & -> & C) D. unfold n_line. cbn [formed]. repeat match goal with |- _ /\ _ => split end; try solve [chars|exact I|cbn [com_ok]; chars|exact D].
    all: bare. }
  assert (X : formed n_x).
  { unfold n_x. cbn [formed tline_ok hline_ok]. repeat match goal with |- _ /\ _ => split end; try solve [chars|bare|exact I]. }
  split; [reflexivity|]. split; [apply L; [exists 97; split; [reflexivity|lia]|dints]|]. repeat apply Forall_cons; try apply Forall_nil; cbn [fst snd]; split; auto.
  - apply L; [exists 98; split; [reflexivity|lia]|apply S; lia].
  - cbn [formed tline_ok hline_ok]. repeat match goal with |- _ /\ _ => split end; try solve [chars|bare|exact I].
    repeat apply Forall_cons; try apply Forall_nil. cbn [fst snd]. repeat match goal with |- _ /\ _ => split end; try solve [chars|bare].
  - apply L; [exists 99; split; [reflexivity|lia]|]. apply (Dn_array _ [] (lit "1,2")); [nogap|].
    apply (De_cons _ (lit "1") [] [] _ (lit "2")); [dints|chars|nogap|]. apply (De_last _ (lit "2") []); [dints|nogap].
  - apply L; [exists 100; split; [reflexivity|lia]|apply S; lia].
Qed.
Definition n_us : list (str * value) := [(lit "a", VInteger (lit "5")); (lit "x[0].b", n_str 122); (lit "t.u.c[1]", VInteger (lit "7")); (lit "a", VInteger (lit "6"))].
Example C86_next_run_ex : exists s, formed_doc n_lines /\ parse (new_parser true) (tdoc_text n_lines) = Ok (s, Full) /\ show_parser s = Ok (tdoc_text n_lines) /\
  commas (lit "a,5,int,x[0].b,z,bs,t.u.c[1],7,integer,a,6,int") <> [] /\
  fields (commas (lit "a,5,int,x[0].b,z,bs,t.u.c[1],7,integer,a,6,int")) n_us /\
  Forall (fun u => well_spelled (snd u) /\ exists old, get_value s (fst u) = Ok (Some old) /\ same_types old (snd u)) n_us /\
  Forall2 (fun k v => set_to n_us k = Some v) [lit "a"; lit "x[0].b"] [VInteger (lit "6"); n_str 122] /\ Forall (left_alone s n_us) [lit "t.u.c[0]"; lit "x[0].d"; lit "x[1].d"].
Proof.
  eexists. split; [exact n_formed|]. split; [vm_compute; reflexivity|]. split; [vm_compute; reflexivity|]. split; [vm_compute; discriminate|].
  split.
  { match goal with |- fields ?l _ => let l' := eval vm_compute in l in change l with l' end.
    apply Fi_cons; [exists TyInt; split; [right; left; reflexivity|vm_compute; reflexivity]|].
    apply Fi_cons; [exists TyBasic; split; [right; left; reflexivity|vm_compute; reflexivity]|].
    apply Fi_cons; [exists TyInt; split; [left; reflexivity|vm_compute; reflexivity]|].
    apply Fi_cons; [exists TyInt; split; [right; left; reflexivity|vm_compute; reflexivity]|]. apply Fi_nil. }
  split.
  { repeat apply Forall_cons; try apply Forall_nil; cbn [fst snd]; (split; [|eexists; split; [vm_compute; reflexivity|leafty]]).
    - exists (lit "5"). dints.
    - exists [34; 122; 34]. apply Dn_scalar. apply (Sc_basic [122]). apply (BB_char 122); [lia|lia|lia|constructor].
    - exists (lit "7"). dints.
    - exists (lit "6"). dints. }
  split.
  { repeat apply Forall2_cons; try apply Forall2_nil; vm_compute; reflexivity. }
  repeat apply Forall_cons; try apply Forall_nil.
  - right. split; [vm_compute; reflexivity|]. eexists. split; [vm_compute; reflexivity|exact I].
  - right. split; [vm_compute; reflexivity|]. eexists. split; [vm_compute; reflexivity|exact I].
  - left. vm_compute. reflexivity.
Qed.
