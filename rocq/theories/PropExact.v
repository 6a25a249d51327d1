(** * What is found is exactly what is written: theorems *)
From Coq Require Import Lia.
From Verif Require Import Str Types Ast State Keys Api DocSpec DotSpec ReachSpec ReachFacts ExactFacts.

(** ** C93: for every text whose tables are all standard tables, that is read to its end
    and of which neither a key nor a table was refused: get_value finds a value if and
    only if a key/value of the document, or what is inside it, has that name and that
    value. C92 is the direction from right to left, also for texts that are read in
    part only. *)
Theorem C93_exact : forall ovf i s r k v, parse (new_parser ovf) i = Ok (s, r) -> plain_tables s.(p_root) -> all_taken s.(p_errors) -> s.(p_leftover) = [] ->
  (get_value s k = Ok (Some v) <-> exists n u p, writes s.(p_root) n u /\ at_path u p = Some v /\ k = n ++ path_text p).
Proof. exact found_exact. Qed.
Print Assumptions C93_exact.

(** so the order of lines and sections, comments and layout mean nothing: two such texts
    that write the same values under the same names cannot be told apart by get_value *)
Theorem C93_same : forall o1 i1 s1 r1 o2 i2 s2 r2, parse (new_parser o1) i1 = Ok (s1, r1) -> parse (new_parser o2) i2 = Ok (s2, r2) ->
  plain_tables s1.(p_root) -> all_taken s1.(p_errors) -> s1.(p_leftover) = [] -> plain_tables s2.(p_root) -> all_taken s2.(p_errors) -> s2.(p_leftover) = [] ->
  (forall n u, writes s1.(p_root) n u <-> writes s2.(p_root) n u) ->
  forall k v, get_value s1 k = Ok (Some v) <-> get_value s2 k = Ok (Some v).
Proof. exact found_same. Qed.
Print Assumptions C93_same.

(** and a document writes one value under a name *)
Theorem C93_one : forall ovf i s r n u v, parse (new_parser ovf) i = Ok (s, r) -> plain_tables s.(p_root) -> all_taken s.(p_errors) ->
  writes s.(p_root) n u -> writes s.(p_root) n v -> u = v.
Proof. exact one_value. Qed.
Print Assumptions C93_one.

(** the same sections in two orders and layouts *)
Definition order_one : str := lit "t = 'x' # first
[a.b]
c = { d = [ 1, 2 ] }
[a]
""n m"" = true
[f]
g = 2015-01-02
h = 1.5
".
Definition order_two : str := lit "# comment
  t='x'

[ f ] # f
h = 1.5
g = 2015-01-02
  [a . b]
c=  { d = [ 1, 2 ] }
[a]
""n m""=true".
Definition read (i : str) : pst := match parse (new_parser true) i with Ok (s, _) => s | _ => new_parser true end.
Definition good (i : str) : Prop := (exists r, parse (new_parser true) i = Ok (read i, r)) /\
  plain_tables (read i).(p_root) /\ all_taken (read i).(p_errors) /\ (read i).(p_leftover) = [].
Example C93_ex : good order_one /\ good order_two /\
  map line_name (keyed [] (read order_one).(p_root)) = [lit "t"; lit "a.b.c"; lit "a.""n m"""; lit "f.g"; lit "f.h"] /\
  map line_name (keyed [] (read order_two).(p_root)) = [lit "t"; lit "f.h"; lit "f.g"; lit "a.b.c"; lit "a.""n m"""] /\
  (forall n u, writes (read order_one).(p_root) n u <-> writes (read order_two).(p_root) n u) /\
  get_value (read order_one) (lit "a.b.c.d[1]") = Ok (Some (VInteger (lit "2"))) /\
  get_value (read order_two) (lit "a.b.c.d[1]") = Ok (Some (VInteger (lit "2"))) /\
  get_value (read order_one) (lit "a.b.c.d[2]") = Ok None.
Proof.
  assert (G : forall i, parse (new_parser true) i <> Panic -> parse (new_parser true) i <> Fuel -> exists r, parse (new_parser true) i = Ok (read i, r)).
  { intros i A B. unfold read. destruct (parse (new_parser true) i) as [[s r]| |]; [eauto|congruence|congruence]. }
  split; [|split].
  - split; [apply G; vm_compute; discriminate|]. split; [vm_compute; repeat constructor|]. split; [vm_compute; repeat constructor|vm_compute; reflexivity].
  - split; [apply G; vm_compute; discriminate|]. split; [vm_compute; repeat constructor|]. split; [vm_compute; repeat constructor|vm_compute; reflexivity].
  - split; [vm_compute; reflexivity|]. split; [vm_compute; reflexivity|]. split; [|repeat split; vm_compute; reflexivity].
    set (f := fun x : list str * keyval => (line_name x, to_val (snd x).(kv_val).(c_val))).
    assert (W : forall d e, incl (map f (keyed [] d)) (map f (keyed [] e)) -> forall n u, writes d n u -> writes e n u).
    { intros d e H n u (x & I & E & D). apply (in_map f), H, in_map_iff in I as (y & Q & I). exists y. split; auto. inversion Q as [[Q1 Q2]].
      split; [congruence|]. apply val_denotes. rewrite Q2. apply denotes_val. exact D. }
    intros n u. split; apply W.
    + assert (X : map f (keyed [] (read order_one).(p_root)) = map (fun j => nth j (map f (keyed [] (read order_two).(p_root))) ([], Panic)) [0; 3; 4; 2; 1]%nat)
        by (vm_compute; reflexivity).
      rewrite X. intros y I. apply in_map_iff in I as (j & <- & I). apply nth_In. cbn [In] in I. rewrite map_length.
      replace (length (keyed [] (p_root (read order_two)))) with 5%nat by (vm_compute; reflexivity). lia.
    + assert (X : map f (keyed [] (read order_two).(p_root)) = map (fun j => nth j (map f (keyed [] (read order_one).(p_root))) ([], Panic)) [0; 4; 3; 1; 2]%nat)
        by (vm_compute; reflexivity).
      rewrite X. intros y I. apply in_map_iff in I as (j & <- & I). apply nth_In. cbn [In] in I. rewrite map_length.
      replace (length (keyed [] (p_root (read order_one)))) with 5%nat by (vm_compute; reflexivity). lia.
Qed.
