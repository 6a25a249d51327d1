(** Bookkeeping of full keys and of the hash map:
    /repo/src/internals/primitives.rs:45-422 and objects.rs:29-194. *)
From Verif Require Import Str Types Ast State.

(** `c.get() - 1` on usize (primitives.rs:159): with overflow checks an
    underflow panics, otherwise it wraps. *)
Definition dec_usize (ovf : bool) (n : N) : res N :=
  if n =? 0 then (if ovf then Panic else Ok u64_max) else Ok (n - 1).

(** `contains` on `Vec<String>`; /repo/src/internals/objects.rs:39-46 *)
Fixpoint vcontains (l : list str) (k : str) : bool :=
  match l with [] => false | x :: l' => str_eqb x k || vcontains l' k end.

(** /repo/src/internals/objects.rs:29-37 (new vector, was inserted) *)
Definition vinsert (l : list str) (k : str) : list str * bool :=
  if vcontains l k then (l, false) else (vpush l k, true).

(** format!("[{}]", i) *)
(* cites: primitives.rs:71, primitives.rs:106, primitives.rs:166 *)
Definition idx_str (i : N) : str := lit "[" ++ dec i ++ lit "]".

(** body of the inner loop of get_key_parent,
    /repo/src/internals/primitives.rs:59-67, for j = 0 .. [j >= prev_end] *)
Fixpoint gkp_keys (keys : list str) (len j : nat) (kp : str) : str :=
  match keys with
  | [] => kp
  | k :: keys' =>
      let kp' := if str_eqb k root_key then kp
                 else kp ++ k ++ (if Nat.ltb j (len - 1) then lit "." else []) in
      gkp_keys keys' len (S j) kp'
  end.

(** loop of get_key_parent over i, /repo/src/internals/primitives.rs:52-74;
    [n] iterations remain *)
Fixpoint gkp_loop (tables : list table_type) (tindex : list N) (n i prev_end : nat) (kp : str)
  : res str :=
  match n with
  | O => Ok kp
  | S n' =>
      let? t := vindex tables i in
      match t with
      | TStandard _ => gkp_loop tables tindex n' (S i) prev_end kp
      | TArrayOf t =>
          let kp := match kp with [] => [] | _ => kp ++ lit "." end in
          let keys := get_last_keys t in
          let kp := gkp_keys (skipn prev_end keys) (length keys) prev_end kp in
          let? index := vindex tindex i in
          let kp := if Nat.ltb i (length tindex - 1) then kp ++ idx_str index else kp in
          gkp_loop tables tindex n' (S i) (length keys) kp
      end
  end.

(** /repo/src/internals/primitives.rs:46-77 *)
Definition get_key_parent (tables : list table_type) (tindex : list N) : res str :=
  gkp_loop tables tindex (length tindex) 0 0 [].

(** /repo/src/internals/primitives.rs:196-212 *)
Definition key_has_value (m : vmap) (k : str) : bool :=
  match hget k m with
  | Some hv => match hv.(hv_value) with
               | Some c => match c.(c_val) with TTable => false | _ => true end
               | None => false
               end
  | None => false
  end.

(** inner loop for an array of tables, /repo/src/internals/primitives.rs:94-124;
    [ks] are the keys from index j on, the last key of the table included.
    Returns full_key extended by the intermediate keys. *)
Fixpoint gatk_arr (m : vmap) (ks : list str) (fk : str) : res str :=
  match ks with
  | [] => Ok fk
  | [_] => Ok fk
  | k :: ((k1 :: rest) as ks') =>
      let fk := fk ++ k in
      match hget fk m with
      | None => Panic
      | Some hv =>
          let? fk :=
            match hv.(hv_subkeys) with
            | Count c => if str_eqb fk root_key then Ok [] else Ok (fk ++ idx_str c ++ lit ".")
            | Keys l =>
                if vcontains l k1 || match rest with [] => true | _ => false end
                then (if str_eqb fk root_key then Ok [] else Ok (fk ++ lit "."))
                else Panic
            end in
          gatk_arr m ks' fk
      end
  end.

(** inner loop for a standard table, /repo/src/internals/primitives.rs:176-186:
    (valid, full_key, parent_key) *)
Fixpoint gatk_std (m : vmap) (ks : list str) (valid : bool) (fk pk : str) : bool * str * str :=
  match ks with
  | [] => (valid, fk, pk)
  | [_] => (valid, fk, pk)
  | k :: ((_ :: rest) as ks') =>
      if str_eqb k root_key then gatk_std m ks' valid fk pk
      else
        let fk := fk ++ k in
        let valid := valid && negb (key_has_value m fk) in
        let pk := match rest with [] => fk | _ => pk end in
        gatk_std m ks' valid (fk ++ lit ".") pk
  end.

(** loop of get_array_table_key over i, /repo/src/internals/primitives.rs:88-191.
    Lines 130-152: an existing entry is a conflict if it has a value (whatever
    it is) or if its children are named. *)
Fixpoint gatk_loop (ovf : bool) (m : vmap) (tables : list table_type) (tindex : list N)
  (n i prev_end : nat) (valid : bool) (fk pk : str) : res (bool * str * str) :=
  match n with
  | O => Ok (valid, fk, pk)
  | S n' =>
      let? t := vindex tables i in
      match t with
      | TArrayOf t =>
          let keys := get_last_keys t in
          let? fk := gatk_arr m (skipn prev_end keys) fk in
          let fk := fk ++ last keys [] in
          let valid :=
            match hget fk m with
            | Some hv => match hv.(hv_value), hv.(hv_subkeys) with
                         | Some _, _ => false
                         | None, Keys _ => false
                         | None, Count _ => valid
                         end
            | None => valid
            end in
          let? index :=
            match hget fk m with
            | Some hv => match hv.(hv_subkeys) with
                         | Count c => dec_usize ovf c
                         | Keys _ => vindex tindex i
                         end
            | None => vindex tindex i
            end in
          if Nat.ltb i (length tindex - 1)
          then gatk_loop ovf m tables tindex n' (S i) (length keys) valid
                 (fk ++ idx_str index ++ lit ".") pk
          else gatk_loop ovf m tables tindex n' (S i) (length keys) valid
                 (fk ++ idx_str index) fk
      | TStandard t =>
          let keys := get_last_keys t in
          let '(valid, fk, pk) := gatk_std m (skipn prev_end keys) valid fk pk in
          let fk := fk ++ last keys [] in
          let valid := valid && negb (key_has_value m fk) in
          gatk_loop ovf m tables tindex n' (S i) prev_end valid fk pk
      end
  end.

(** /repo/src/internals/primitives.rs:80-194: (valid, full_key, parent_key) *)
Definition get_array_table_key (ovf : bool) (m : vmap) (tables : list table_type)
  (tindex : list N) : res (bool * str * str) :=
  gatk_loop ovf m tables tindex (length tindex) 0 0 true [] root_key.

(** /repo/src/internals/primitives.rs:214-240 *)
Definition key_has_children_with_values (m : vmap) (k : str) : res bool :=
  if str_eqb k root_key then Ok false
  else match hget k m with
       | Some hv =>
           match hv.(hv_subkeys) with
           | Count c => if 0 <? c then Panic else Ok false
           | Keys l => Ok (existsb (fun ck => key_has_value m (k ++ lit "." ++ ck)) l)
           end
       | None => Ok false
       end.

(** /repo/src/internals/primitives.rs:246-259, one element of the keychain *)
Definition chain_step (acc : str) (k : key) : str :=
  match k with
  | KStr s => (match acc with [] => [] | _ => acc ++ lit "." end) ++ s
  | KIndex i => acc ++ idx_str i
  end.

(** /repo/src/internals/primitives.rs:242-261: (key, parent_key); the parent is
    the key of all but the last element, empty for fewer than two elements *)
Definition get_keychain_key (kc : list key) : str * str :=
  (fold_left chain_step kc [],
   match kc with
   | [] | [_] => []
   | _ => fold_left chain_step (removelast kc) []
   end).

(** /repo/src/internals/primitives.rs:263-284 *)
Definition get_full_key (ovf : bool) (m : vmap) (tables : list table_type) (tindex : list N)
  (kc : list key) : res (bool * str * str) :=
  let? (valid, array_key, _) := get_array_table_key ovf m tables tindex in
  let (chain_key, parent_chain_key) := get_keychain_key kc in
  match array_key with
  | [] => Ok (valid, chain_key, parent_chain_key)
  | _ => Ok (valid, array_key ++ lit "." ++ chain_key,
             array_key ++ (match parent_chain_key with [] => [] | _ => lit "." end)
                       ++ parent_chain_key)
  end.

(** update of the parent entry, /repo/src/internals/primitives.rs:393-420 *)
Definition update_parent (m : vmap) (parent_key : str) (kc : list key) : res vmap :=
  match hget parent_key m with
  | Some hv =>
      match hv.(hv_subkeys) with
      | Count c => Ok (hput parent_key (HashValue hv.(hv_value) (Count (c + 1))) m)
      | Keys l =>
          match vlast kc with
          | None => Panic
          | Some (KStr s) =>
              Ok (hput parent_key (HashValue hv.(hv_value) (Keys (fst (vinsert l s)))) m)
          | Some (KIndex _) => Ok m
          end
      end
  | None =>
      match vlast kc with
      | None => Panic
      | Some (KIndex _) => Ok (hput parent_key hv_one_count m)
      | Some (KStr s) => Ok (hput parent_key (hv_one_keys s) m)
      end
  end.

(** full and parent key of the value being inserted,
    /repo/src/internals/primitives.rs:294-366.  In the standard table case the
    table is pushed on `last_array_tables` (and popped again) but not on
    `last_array_tables_index`. *)
Definition keyval_keys (s : pst) : res (str * str) :=
  match s.(p_last_table) with
  | None =>
      let (fk, pk) := get_keychain_key s.(p_keychain) in
      Ok (fk, match pk with [] => root_key | _ => pk end)
  | Some (TStandard t) =>
      let? (_, fk, pk) := get_full_key s.(p_ovf) s.(p_map)
                            (vpush s.(p_tables) (TStandard t)) s.(p_tindex) s.(p_keychain) in
      Ok (fk, pk)
  | Some (TArrayOf _) =>
      let? (_, fk, pk) := get_full_key s.(p_ovf) s.(p_map)
                            s.(p_tables) s.(p_tindex) s.(p_keychain) in
      Ok (fk, pk)
  end.

(** /repo/src/internals/primitives.rs:286-422 *)
Definition insert_keyval_into_map (s : pst) (c : cell) : res pst :=
  let? (full_key, parent_key) := keyval_keys s in
  match hget full_key s.(p_map) with
  | Some (HashValue (Some _) _) =>
      let? v := to_val c.(c_val) in
      Ok (push_error (EDuplicateKey full_key s.(p_line) v) s)
  | Some (HashValue None sub) =>
      let m := hput full_key (HashValue (Some c) sub) s.(p_map) in
      let? m := update_parent m parent_key s.(p_keychain) in
      Ok (set_map m s)
  | None =>
      let hv := match c.(c_val) with
                | TInlineTable _ _ => hv_new_keys c
                | _ => hv_new_count c
                end in
      let m := hput full_key hv s.(p_map) in
      let? m := update_parent m parent_key s.(p_keychain) in
      Ok (set_map m s)
  end.

(** /repo/src/internals/objects.rs:48-59 *)
Definition is_top_std_table (tables : list table_type) : bool :=
  match vlast tables with Some (TStandard _) => true | _ => false end.

(** /repo/src/internals/objects.rs:61-76 *)
Definition equal_key_length (t : table_type) (tables : list table_type) : bool :=
  match vlast tables with
  | Some t2 => Nat.eqb (length (tt_table t)) (length (tt_table t2))
  | None => false
  end.

(** loop of add_implicit_tables, /repo/src/internals/objects.rs:108-148, over
    the keys [ks] of the table from index `start` on.  Lines 137-143: the branch
    for the last key is unreachable under `i < tb.keys.len() - 1`. *)
Fixpoint ait_loop (m : vmap) (ks : list wskey) (first : bool) (last_key : str) : res vmap :=
  match ks with
  | [] => Ok m
  | k :: ks' =>
      let? (m, insert, first) :=
        match hget last_key m with
        | Some hv =>
            match hv.(hv_subkeys) with
            | Keys l =>
                let (l', ins) := vinsert l k.(wk_key) in
                Ok (hput last_key (HashValue hv.(hv_value) (Keys l')) m, ins, false)
            | Count c =>
                if first
                then Ok (hput last_key (HashValue hv.(hv_value) (Count (c + 1))) m, true, false)
                else Panic
            end
        | None => Ok (m, false, first)
        end in
      match ks' with
      | [] => Ok m
      | _ =>
          let last_key := if str_eqb last_key root_key then k.(wk_key)
                          else last_key ++ lit "." ++ k.(wk_key) in
          let m := if (insert : bool) then hput last_key hv_none_keys m else m in
          ait_loop m ks' first last_key
      end
  end.

(** /repo/src/internals/objects.rs:78-157 *)
Definition add_implicit_tables (ovf : bool) (m : vmap) (tables : list table_type)
  (tindex : list N) (t : table_type) : res vmap :=
  let? (valid, last_key, _) := get_array_table_key ovf m tables tindex in
  if negb valid then Ok m
  else
    let (last_len, last_key) :=
      match vlast tables with
      | None => (1%nat, last_key ++ root_key)
      | Some l => (length (tt_table l), last_key)
      end in
    let start := if str_eqb last_key root_key then (last_len - 1)%nat else last_len in
    ait_loop m (skipn start (tt_table t)) true last_key.

(** /repo/src/internals/objects.rs:159-173: (map, tables_index) *)
Definition increment_array_table_index (m : vmap) (tables : list table_type) (tindex : list N)
  : res (vmap * list N) :=
  let? pk := get_key_parent tables tindex in
  let m := match hget pk m with
           | Some hv => match hv.(hv_subkeys) with
                        | Count c => hput pk (HashValue hv.(hv_value) (Count (c + 1))) m
                        | Keys _ => m
                        end
           | None => m
           end in
  match vlast tindex with
  | None => Panic
  | Some x => Ok (m, vpush (vpop tindex) (x + 1))
  end.

(** /repo/src/internals/objects.rs:175-194; the result is ignored by the caller *)
Definition add_to_table_set (m : vmap) (tables : list table_type) (tindex : list N) (k : str)
  : res vmap :=
  let? pk := get_key_parent tables tindex in
  match hget pk m with
  | Some hv => match hv.(hv_subkeys) with
               | Keys l => Ok (hput pk (HashValue hv.(hv_value) (Keys (fst (vinsert l k)))) m)
               | Count _ => Ok m
               end
  | None => Ok m
  end.

(** pop until the top is a super-table, /repo/src/internals/objects.rs:252-261;
    the vectors are given reversed (top first) *)
Fixpoint pop_until_sub (res_t : table_type) (rt : list table_type) (ri : list N)
  : list table_type * list N :=
  match rt with
  | [] => ([], ri)
  | _ :: rt' =>
      let ri' := tl ri in
      match rt' with
      | [] => ([], ri')
      | t :: _ => if is_subtable_of res_t t then (rt', ri') else pop_until_sub res_t rt' ri'
      end
  end.

(** pop until the top has the given key, /repo/src/internals/objects.rs:385-390 *)
Fixpoint pop_until_key (k : str) (rt : list table_type) (ri : list N)
  : list table_type * list N :=
  match rt with
  | [] => ([], ri)
  | t :: rt' => if str_eqb k (format_tt_keys t) then (rt, ri) else pop_until_key k rt' (tl ri)
  end.

(** `truncate(len - n)` on the keychain, objects.rs:232-233, 356-357.  The
    subtraction cannot underflow (every parsed key was pushed); the model says
    Panic there. *)
Definition keychain_drop (n : nat) (s : pst) : res pst :=
  let len := length s.(p_keychain) in
  if Nat.ltb len n then Panic
  else Ok (set_keychain (firstn (len - n) s.(p_keychain)) s).

(** closure of std_table, /repo/src/internals/objects.rs:226-338 *)
Definition std_table_act (ws1 ws2 : str) (key : str) (subkeys : list wskey) (s : pst)
  : res (pst * table_type) :=
  let keys_len := S (length subkeys) in
  let tbl := table_new {| ws1 := ws1; ws2 := ws2 |} key subkeys in
  let res := TStandard tbl in
  let? s := keychain_drop keys_len s in
  (* 234-237 *)
  let '(ts, ti) :=
    if is_top_std_table s.(p_tables) || equal_key_length res s.(p_tables)
    then (vpop s.(p_tables), vpop s.(p_tindex)) else (s.(p_tables), s.(p_tindex)) in
  let m := s.(p_map) in
  let current_key := format_tt_keys res in
  (* 244-264 *)
  let '(ts, ti) :=
    match vlast ts with
    | None => (ts, ti)
    | Some l =>
        if str_eqb current_key (format_tt_keys l) then (ts, ti)
        else if is_subtable_of res l then (ts, ti)
        else let (a, b) := pop_until_sub res (rev ts) (rev ti) in (rev a, rev b)
    end in
  (* 265-292 *)
  let? (error, table_key, parent_key) :=
    if match vlast ts with
       | Some l => str_eqb current_key (format_tt_keys l)
       | None => false
       end
    then Ok (true, [], root_key)
    else
      let? (valid, tk, pk) := get_array_table_key s.(p_ovf) m (vpush ts res) (vpush ti 0) in
      if negb valid then Ok (true, tk, pk)
      else
        let? b := key_has_children_with_values m pk in
        if (b : bool) then Ok (true, tk, pk)
        else Ok (match hget tk m with
                 | Some (HashValue (Some c) _) =>
                     match c.(c_val) with TTable => true | _ => false end
                 | _ => false
                 end, tk, pk) in
  if (error : bool) then
    (* 294-306 *)
    let? (_, atk, _) := get_array_table_key s.(p_ovf) m (vpush ts res) (vpush ti 0) in
    Ok (set_array_error true
          (push_error (EInvalidTable atk s.(p_line) []) (set_tables ts ti s)), res)
  else
    (* 307-336 *)
    let? m := add_implicit_tables s.(p_ovf) m ts ti res in
    let lastk := last (map wk_key tbl) [] in
    let? m := add_to_table_set m ts ti lastk in
    let (s, c) := new_cell s TTable in
    let m := match hget table_key m with
             | Some hv => hput table_key (HashValue (Some c) hv.(hv_subkeys)) m
             | None => hput table_key (hv_table_keys c.(c_id)) m
             end in
    let? m := match hget parent_key m with
              | Some hv =>
                  match hv.(hv_subkeys) with
                  | Keys l => Ok (hput parent_key
                                    (HashValue hv.(hv_value) (Keys (fst (vinsert l lastk)))) m)
                  | Count _ => Panic
                  end
              | None => Ok m
              end in
    Ok (set_last_table (Some res)
          (set_array_error false
             (set_map m (set_tables (vpush ts res) (vpush ti 0) s))), res).

(** closure of array_table, /repo/src/internals/objects.rs:351-445 *)
Definition array_table_act (ws1 ws2 : str) (key : str) (subkeys : list wskey) (s : pst)
  : res (pst * table_type) :=
  let keys_len := S (length subkeys) in
  let res := TArrayOf (table_new {| ws1 := ws1; ws2 := ws2 |} key subkeys) in
  let? s := keychain_drop keys_len s in
  let ovf := s.(p_ovf) in
  (* 358-361 *)
  let '(ts, ti) :=
    if is_top_std_table s.(p_tables)
    then (vpop s.(p_tables), vpop s.(p_tindex)) else (s.(p_tables), s.(p_tindex)) in
  let s := set_array_error false s in
  let m := s.(p_map) in
  let current_key := format_tt_keys res in
  (* 367-420 *)
  let? (m, ts, ti) :=
    match vlast ts with
    | Some l =>
        if str_eqb current_key (format_tt_keys l) then
          let? (m, ti) := increment_array_table_index m ts ti in Ok (m, ts, ti)
        else if is_subtable_of res l then
          let? m := add_implicit_tables ovf m ts ti res in Ok (m, vpush ts res, vpush ti 0)
        else
          let (a, b) := pop_until_key current_key (rev ts) (rev ti) in
          let ts := rev a in
          let ti := rev b in
          match ts with
          | _ :: _ =>
              let? (m, ti) := increment_array_table_index m ts ti in Ok (m, ts, ti)
          | [] =>
              let? m := add_implicit_tables ovf m ts ti res in
              let ts := vpush ts res in
              let ti := vpush ti 0 in
              let? pk := get_key_parent ts ti in
              if hmem pk m
              then let? (m, ti) := increment_array_table_index m ts ti in Ok (m, ts, ti)
              else Ok (m, ts, ti)
          end
    | None =>
        let? m := add_implicit_tables ovf m ts ti res in Ok (m, vpush ts res, vpush ti 0)
    end in
  (* 422-442 *)
  let s := set_tables ts ti s in
  let? (valid, full_key, parent_key) := get_array_table_key ovf m ts ti in
  if negb valid then
    Ok (push_error (EInvalidTable full_key s.(p_line) []) (set_map m s), res)
  else
    let m := if hmem parent_key m then m else hput parent_key hv_one_count m in
    let m := hput full_key hv_none_keys m in
    Ok (set_last_table (Some res) (set_map m s), res).
