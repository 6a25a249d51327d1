(** The regular expressions used by the crate through nom's [re_find!], and a
    leftmost-first (Perl priority) backtracking matcher, the semantics of the
    Rust `regex` crate. *)
From Verif Require Import Str.

(** Regex syntax; character classes are lists of inclusive ranges.
    All expressions of the crate are anchored (`^`). *)
(* cites: regex syntax used in primitives.rs:34, primitives.rs:425-464, primitives.rs:528-581, primitives.rs:617, util.rs:18 *)
Inductive re : Type :=
| REps
| RCls (l : list (N * N))
| RSeq (a b : re)
| RAlt (a b : re)
| RStar (greedy : bool) (a : re).

(* cites: character classes such as `[0-9A-Z]`, primitives.rs:433 *)
Fixpoint in_ranges (c : N) (l : list (N * N)) : bool :=
  match l with
  | [] => false
  | (lo, hi) :: l' => ((lo <=? c) && (c <=? hi)) || in_ranges c l'
  end.

(** Matcher in continuation-passing style: alternatives are tried in priority
    order, the continuation decides whether the rest matches, failure
    backtracks.  Returns the unmatched suffix.  A star gets the length of the
    input as iteration bound; all starred expressions of the crate consume at
    least one character per iteration.
    (Semantics of regex 0.1, used at /repo/src/internals/primitives.rs:34, 425,
    429, 433-464, 528-576, 617, util.rs:18, objects.rs:461.) *)
Fixpoint rm (r : re) (s : str) (k : str -> option str) {struct r} : option str :=
  match r with
  | REps => k s
  | RCls l => match s with
              | c :: s' => if in_ranges c l then k s' else None
              | [] => None
              end
  | RSeq a b => rm a s (fun s' => rm b s' k)
  | RAlt a b => match rm a s k with Some x => Some x | None => rm b s k end
  | RStar greedy a =>
      (fix loop (n : nat) (s : str) {struct n} : option str :=
         match n with
         | O => k s
         | S n' =>
             if greedy
             then match rm a s (loop n') with Some x => Some x | None => k s end
             else match k s with Some x => Some x | None => rm a s (loop n') end
         end) (length s) s
  end.

(** `Regex::find` for an anchored expression: (matched text, rest). *)
(* cites: `re_find!` at primitives.rs:425-464, primitives.rs:617, util.rs:18 *)
Definition re_match (r : re) (s : str) : option (str * str) :=
  match rm r s (fun s' => Some s') with
  | Some rest => Some (firstn (length s - length rest) s, rest)
  | None => None
  end.

(* cites: a literal character in the patterns of primitives.rs:425-464 *)
Definition RChr (c : N) : re := RCls [(c, c)].
(* cites: a literal string in the patterns of primitives.rs:451-461 *)
Fixpoint RStr (s : str) : re :=
  match s with [] => REps | c :: s' => RSeq (RChr c) (RStr s') end.
(* cites: `?` in the patterns of primitives.rs:425-429 *)
Definition ROpt (a : re) : re := RAlt a REps.
(* cites: `+` in the patterns of primitives.rs:425-429 *)
Definition RPlus (a : re) : re := RSeq a (RStar true a).
(* cites: `{n}` in the patterns of primitives.rs:433-451 *)
Fixpoint RRep (n : nat) (a : re) : re :=
  match n with O => REps | S n' => RSeq a (RRep n' a) end.
(* cites: `|` in the patterns of primitives.rs:433-461 *)
Fixpoint RAlts (l : list re) : re :=
  match l with [] => RCls [] | [a] => a | a :: l' => RAlt a (RAlts l') end.

(** `\d`: Unicode general category Nd (Unicode 8.0, the version of regex 0.1) *)
(* cites: `\d` in primitives.rs:425-429 *)
Definition nd_ranges : list (N * N) :=
  [(0x30,0x39); (0x660,0x669); (0x6f0,0x6f9); (0x7c0,0x7c9); (0x966,0x96f);
   (0x9e6,0x9ef); (0xa66,0xa6f); (0xae6,0xaef); (0xb66,0xb6f); (0xbe6,0xbef);
   (0xc66,0xc6f); (0xce6,0xcef); (0xd66,0xd6f); (0xde6,0xdef); (0xe50,0xe59);
   (0xed0,0xed9); (0xf20,0xf29); (0x1040,0x1049); (0x1090,0x1099);
   (0x17e0,0x17e9); (0x1810,0x1819); (0x1946,0x194f); (0x19d0,0x19d9);
   (0x1a80,0x1a89); (0x1a90,0x1a99); (0x1b50,0x1b59); (0x1bb0,0x1bb9);
   (0x1c40,0x1c49); (0x1c50,0x1c59); (0xa620,0xa629); (0xa8d0,0xa8d9);
   (0xa900,0xa909); (0xa9d0,0xa9d9); (0xa9f0,0xa9f9); (0xaa50,0xaa59);
   (0xabf0,0xabf9); (0xff10,0xff19); (0x104a0,0x104a9); (0x11066,0x1106f);
   (0x110f0,0x110f9); (0x11136,0x1113f); (0x111d0,0x111d9); (0x112f0,0x112f9);
   (0x114d0,0x114d9); (0x11650,0x11659); (0x116c0,0x116c9); (0x11730,0x11739);
   (0x118e0,0x118e9); (0x16a60,0x16a69); (0x16b50,0x16b59); (0x1d7ce,0x1d7ff)].
(* cites: `\d` in primitives.rs:425-429 *)
Definition RDigit : re := RCls nd_ranges.

(** `(\d|(_\d))` *)
(* cites: part of primitives.rs:425-429 *)
Definition r_dig : re := RAlt RDigit (RSeq (RChr 95) RDigit).
(** `(\+|-)?` *)
(* cites: part of primitives.rs:425-429 *)
Definition r_sign : re := ROpt (RAlt (RChr 43) (RChr 45)).
(** `[1-9](\d|(_\d))+|\d` *)
(* cites: part of primitives.rs:425-429 *)
Definition r_intpart : re := RAlt (RSeq (RCls [(49,57)]) (RPlus r_dig)) RDigit.

(** /repo/src/internals/primitives.rs:425
    `^((\+|-)?(([1-9](\d|(_\d))+)|\d))` *)
Definition re_integer : re := RSeq r_sign r_intpart.

(** `(\.\d(\d|(_\d))* )` *)
(* cites: part of primitives.rs:429 *)
Definition r_frac : re := RSeq (RChr 46) (RSeq RDigit (RStar true r_dig)).
(** `((e|E)(\+|-)?([1-9](\d|(_\d))+|\d))` *)
(* cites: part of primitives.rs:429 *)
Definition r_exp : re := RSeq (RAlt (RChr 101) (RChr 69)) (RSeq r_sign r_intpart).

(** /repo/src/internals/primitives.rs:428-429 *)
Definition re_float : re :=
  RSeq r_sign (RSeq r_intpart
    (RAlts [RSeq r_frac r_exp; r_frac; r_exp])).

(** escapes common to basic and multi-line basic strings:
    backslash followed by one of: double quote, backslash, / b f n r *)
(* cites: part of primitives.rs:433 and primitives.rs:437 *)
Definition r_esc (c : N) : re := RSeq (RChr 92) (RChr c).
(* cites: part of primitives.rs:433 and primitives.rs:437 *)
Definition r_hex : re := RCls [(48,57); (65,90)].          (* [0-9A-Z] *)
(* cites: part of primitives.rs:433 and primitives.rs:437 *)
Definition r_uni4 : re := RSeq (RChr 92) (RSeq (RChr 117) (RRep 4 r_hex)).
(* cites: part of primitives.rs:433 and primitives.rs:437 *)
Definition r_uni8 : re := RSeq (RChr 92) (RSeq (RChr 85) (RRep 8 r_hex)).

(** body of /repo/src/internals/primitives.rs:432-433, 445-446 and 616-617:
    space, `!`, `[#-\[]`, `[\]-U+FFFF]`, the escapes above, `\\t`,
    `\\u[0-9A-Z]{4}`, `\\U[0-9A-Z]{8}` *)
Definition r_basic_item : re :=
  RAlts [RChr 32; RChr 33; RCls [(35,91)]; RCls [(93,0xFFFF)];
         r_esc 34; r_esc 92; r_esc 47; r_esc 98; r_esc 102; r_esc 110; r_esc 114;
         r_esc 116; r_uni4; r_uni8].

(** body of /repo/src/internals/primitives.rs:436-437 and 449-451:
    `[ -\[]`, `[\]-U+FFFF]`, the escapes above, tab, `\\u[0-9A-Z]{4}`,
    `\\U[0-9A-Z]{8}`, LF, CR LF, backslash followed by LF or CR LF
    (here `\t` is the tab character, not the escape) *)
Definition r_nl : re := RAlt (RChr 10) (RStr [13;10]).
(* cites: group of primitives.rs:437 and primitives.rs:451 *)
Definition r_ml_basic_item : re :=
  RAlts [RCls [(32,91)]; RCls [(93,0xFFFF)];
         r_esc 34; r_esc 92; r_esc 47; r_esc 98; r_esc 102; r_esc 110; r_esc 114;
         RChr 9; r_uni4; r_uni8; RChr 10; RStr [13;10]; RSeq (RChr 92) r_nl].

(** body of /repo/src/internals/primitives.rs:439 and 457: ` |[ -&]|[\(-U+FFFF]` *)
Definition r_literal_item : re := RAlts [RChr 32; RCls [(32,38)]; RCls [(40,0xFFFF)]].

(** body of /repo/src/internals/primitives.rs:442 and 462: `  |[ -U+FFFF]|\n|(\r\n)` *)
Definition r_ml_literal_item : re :=
  RAlts [RStr [32;32]; RCls [(32,0xFFFF)]; RChr 10; RStr [13;10]].

(** /repo/src/internals/primitives.rs:432-442 *)
Definition re_quoteless_basic : re := RStar true r_basic_item.
(* cites: primitives.rs:436-437 *)
Definition re_quoteless_ml_basic : re := RStar true r_ml_basic_item.
(* cites: primitives.rs:439 *)
Definition re_quoteless_literal : re := RStar true r_literal_item.
(* cites: primitives.rs:442 *)
Definition re_quoteless_ml_literal : re := RStar true r_ml_literal_item.

(** /repo/src/internals/primitives.rs:444-464 *)
Definition re_raw_basic : re := RSeq (RChr 34) (RSeq (RStar false r_basic_item) (RChr 34)).
(* cites: primitives.rs:451 *)
Definition re_raw_ml_basic : re :=
  RSeq (RStr [34;34;34]) (RSeq (RStar false r_ml_basic_item) (RStr [34;34;34])).
(* cites: primitives.rs:456 *)
Definition re_raw_literal : re := RSeq (RChr 39) (RSeq (RStar false r_literal_item) (RChr 39)).
(* cites: primitives.rs:461 *)
Definition re_raw_ml_literal : re :=
  RSeq (RStr [39;39;39]) (RSeq (RStar false r_ml_literal_item) (RStr [39;39;39])).

(** /repo/src/internals/primitives.rs:616-617 *)
Definition re_quoted_key : re := RSeq (RChr 34) (RSeq (RPlus r_basic_item) (RChr 34)).

(** /repo/src/internals/util.rs:18 `^( |\t)*` *)
Definition re_ws : re := RStar true (RAlt (RChr 32) (RChr 9)).
(** /repo/src/internals/objects.rs:461 `^( |\t|\n|(\r\n))*` *)
Definition re_ws_newline : re := RStar true (RAlts [RChr 32; RChr 9; RChr 10; RStr [13;10]]).

(** /repo/src/internals/primitives.rs:533-537, 554-556, 572-576
    `^[0-9]{2}`, `^([0-9]{4})` *)
Definition re_d2 : re := RRep 2 (RCls [(48,57)]).
(* cites: primitives.rs:570-581 *)
Definition re_d4 : re := RRep 4 (RCls [(48,57)]).
(** /repo/src/internals/primitives.rs:528 `^\.([0-9]+)` *)
Definition re_fractional : re := RSeq (RChr 46) (RPlus (RCls [(48,57)])).
(** /repo/src/internals/primitives.rs:34 `^(.*?)(\n|(\r\n))`; `.` is any
    character but the line feed *)
Definition re_full_line : re :=
  RSeq (RStar false (RCls [(0,9); (11,0x10FFFF)])) r_nl.
