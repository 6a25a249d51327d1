(** Specification of values with faults: arrays of mixed types and date-times that
    do not exist. *)
From Verif Require Import Str Types Spec DocSpec.

(** [writes v t]: the text [t] is the value [v] as in [spells], where arrays may
    have elements of several types and date-times need not exist *)
Inductive writes : value -> str -> Prop :=
| Wr_scalar : forall v t, scalar v t -> writes v t
| Wr_date : forall d, datetime_digits d -> writes (VDateTime d) (datetime_src d)
| Wr_array : forall vs g t, gap g -> welems vs t -> writes (VArray vs) (lit "[" ++ g ++ t ++ lit "]")
| Wr_inline : forall kvs w t, blanks w -> wfields kvs t -> NoDup (map fst kvs) ->
    writes (VInlineTable kvs) (lit "{" ++ w ++ t ++ lit "}")
with welems : list value -> str -> Prop :=
| We_nil : welems [] []
| We_last : forall v t g, writes v t -> gap g -> welems [v] (t ++ g)
| We_cons : forall v t w g vs r, writes v t -> blanks w -> gap g -> welems vs r ->
    welems (v :: vs) (t ++ w ++ lit "," ++ g ++ r)
with wfields : list (str * value) -> str -> Prop :=
| Wf_nil : wfields [] []
| Wf_last : forall k w1 w2 v t g, key_name k -> blanks w1 -> blanks w2 -> writes v t -> gap g ->
    wfields [(k, v)] (k ++ w1 ++ lit "=" ++ w2 ++ t ++ g)
| Wf_cons : forall k w1 w2 v t w g l r, key_name k -> blanks w1 -> blanks w2 -> writes v t ->
    blanks w -> gap g -> wfields l r ->
    wfields ((k, v) :: l) (k ++ w1 ++ lit "=" ++ w2 ++ t ++ w ++ lit "," ++ g ++ r).

(** The faults of a value in the order of the text, with the path to them: a
    date-time that does not exist; in an array an element whose type is not that of
    the element before it, with its index. *)
Inductive vfault :=
| BadDate (r : list pstep) (d : datetime)
| BadElem (r : list pstep) (i : N).
Definition inside (x : pstep) (f : vfault) : vfault :=
  match f with BadDate r d => BadDate (x :: r) d | BadElem r i => BadElem (x :: r) i end.
Definition other_type (prev : option value) (v : value) : bool :=
  match prev with Some u => negb (kind u =? kind v) | None => false end.
Definition date_exists (d : datetime) : bool :=
  let y := number d.(dt_date).(d_year) in
  let m := number d.(dt_date).(d_month) in
  let n := number d.(dt_date).(d_day) in
  (1 <=? y) && (y <=? 9999) && (1 <=? m) && (m <=? 12) && (1 <=? n) && (n <=? days_in_month y m) &&
  match d.(dt_time) with
  | None => true
  | Some t =>
      (number t.(t_hour) <=? 23) && (number t.(t_minute) <=? 59) && (number t.(t_second) <=? 59) &&
      match t.(t_offset) with
      | Some (OffTime a) => (number a.(toa_hour) <=? 23) && (number a.(toa_minute) <=? 59)
      | _ => true
      end &&
      match t.(t_fraction) with Some f => number f <=? 18446744073709551615 | None => true end
  end.
Fixpoint vfaults (v : value) : list vfault :=
  match v with
  | VDateTime d => if date_exists d then [] else [BadDate [] d]
  | VArray l =>
      (fix go (i : N) (prev : option value) (l : list value) : list vfault :=
         match l with
         | [] => []
         | x :: l' => map (inside (PIdx i)) (vfaults x) ++ (if other_type prev x then [BadElem [] i] else []) ++
                      go (i + 1) (Some x) l'
         end) 0 None l
  | VInlineTable l =>
      (fix go (l : list (str * value)) : list vfault :=
         match l with
         | [] => []
         | (k, x) :: l' => map (inside (PKey k)) (vfaults x) ++ go l'
         end) l
  | _ => []
  end.
