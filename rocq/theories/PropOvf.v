(** Properties of builds with and without overflow checks. *)
From Verif Require Import Str Regex Types Ast State Nom Keys Grammar Api Cli Main OvfSpec OvfFacts.

(** C77.  [ovf] says whether the build has overflow checks. *)
Theorem C77_same_parse : forall i s r, parse (new_parser true) i = Ok (s, r) -> parse (new_parser false) i = Ok (unchecked s, r).
Proof. exact (fun i s r => low_parse (new_parser true) i s r). Qed.
Print Assumptions C77_same_parse.

(** keys, dates, a mixed array, dotted headers, arrays of tables below arrays of
    tables, faults, and text that is not TOML *)
Definition o_text : str := lit "a = [1, {b = 'x'}]
c = [1, 2.0]
[[t]]
d = 2011-02-31
[t.u]
e = 5
[[t.v]]
f = 1
[[t.v]]
f = 2
[[t]]
[[t.v]]
f = 3
[x.y]
f = 4
[x.y]
f = 5
} no more".
Example C77_same_parse_ex : exists s r, parse (new_parser true) o_text = Ok (s, r) /\ s.(p_ovf) = true /\
  (exists es, r = PartialError [] 18 es /\ length es = 4%nat) /\
  get_value s (lit "t[1].v[0].f") = Ok (Some (VInteger (lit "3"))).
Proof. do 2 eexists. split; [vm_compute; reflexivity|]. repeat split; try (vm_compute; reflexivity). eexists. split; vm_compute; reflexivity. Qed.

(** what is asked and updated afterwards *)
Theorem C77_same_document : forall s,
  (forall k, get_value (unchecked s) k = get_value s k) /\
  (forall k, get_children (unchecked s) k = get_children s k) /\
  show_parser (unchecked s) = show_parser s /\
  (forall k v s' b, set_value s k v = Ok (s', b) -> set_value (unchecked s) k v = Ok (unchecked s', b)) /\
  (forall k v, set_value (unchecked s) k v = Panic <-> set_value s k v = Panic).
Proof. exact low_api. Qed.
Print Assumptions C77_same_document.

(** The tool: unless the run with checks crashes, output, files and ending are the same. *)
Theorem C77_same_run : forall x o m y f stdin, x.(x_ovf) = true -> (main x o m y f stdin).(f_end) <> Crashed ->
  main (with_checks false x) o m y f stdin = main x o m y f stdin.
Proof. exact low_main. Qed.
Print Assumptions C77_same_run.

Definition o_ext : ext := {| x_split := fun s => if str_eqb s (lit "t") then Some [lit "t[1].v[0].f"; lit "7"; lit "int"] else None;
  x_debug := fun s => s; x_errors := fun _ => []; x_ovf := true |}.
Definition o_doc : str := lit "a = 1
[[t]]
[[t]]
[[t.v]]
f = 3".
Definition o_doc_after : str := lit "a = 1
[[t]]
[[t]]
[[t.v]]
f = 7".
Definition o_sys : system := {| y_files := fun p => if str_eqb p (lit "d.toml") then Some o_doc else None; y_writable := fun _ => true; y_reason := fun _ => [] |}.
Definition o_cmd : commands := {| m_get := None; m_has := None; m_children := None; m_any := None; m_set := Some (lit "t"); m_out := None |}.
Example C77_same_run_ex : let a := main o_ext default_options o_cmd o_sys (Some (lit "d.toml")) [] in
  a.(f_end) = Ended /\ a.(f_files) (lit "d.toml") = Some o_doc_after.
Proof. vm_compute. auto. Qed.

(** With checks there are panics where a build without them goes on: the last
    element of an array of tables that has none. *)
Theorem C77_panic_refuted : exists i s r, parse (new_parser true) i = Panic /\ parse (new_parser false) i = Ok (s, r).
Proof. exact overflow_witness. Qed.
Print Assumptions C77_panic_refuted.
