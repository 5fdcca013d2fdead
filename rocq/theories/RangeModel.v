(** Automata for code point ranges, strings and '.' in the various encodings:
    GNFA::range, addUtf8Range, anyChar, word
    (/repo/src/kdev-pg-regexp.cpp 1155-1490 and generated-kdev-utf8-tuples.h). *)
From Coq Require Import List NArith Bool.
From Verif Require Import Base CharSetModel AutomatonModel UtfModel.
Import ListNotations.
Local Open Scope N_scope.

Section M.
Variable C : cset.
(** CharSet::range(begin, end).  Used with end <= Codec2Size only, which the
    proofs have to show. *)
Variable rng : N -> N -> car C.

Notation set := (nfa_set C).
Notation "a |= b" := (nfa_or C a b) (at level 57, left associativity).
Notation "a <<= b" := (nfa_concat C a b) (at level 56, left associativity).

(** generated-kdev-utf8-tuples.h 4-8, 9-37, 38-66, 67-97. *)
Definition tuples1 (f0 t0 : N) : nfa C := set (rng f0 t0).
Definition tuples2 (f0 t0 f1 t1 : N) : nfa C :=
  if f0 =? t0 then set (c_char C f0) <<= tuples1 f1 t1
  else nfa_empty C
    |= (set (c_char C f0) <<= tuples1 f1 0xc0)
    |= (set (rng (f0 + 1) t0) <<= tuples1 0x80 0xc0)
    |= (set (c_char C t0) <<= tuples1 0x80 t1).
Definition tuples3 (f0 t0 f1 t1 f2 t2 : N) : nfa C :=
  if f0 =? t0 then set (c_char C f0) <<= tuples2 f1 t1 f2 t2
  else nfa_empty C
    |= (set (c_char C f0) <<= tuples2 f1 0xc0 f2 t2)
    |= (set (rng (f0 + 1) t0) <<= tuples2 0x80 0xc0 f2 t2)
    |= (set (c_char C t0) <<= tuples2 0x80 t1 f2 t2).
Definition tuples4 (f0 t0 f1 t1 f2 t2 f3 t3 : N) : nfa C :=
  if f0 =? t0 then set (c_char C f0) <<= tuples3 f1 t1 f2 t2 f3 t3
  else nfa_empty C
    |= (set (c_char C f0) <<= tuples3 f1 0xc0 f2 t2 f3 t3)
    |= (set (rng (f0 + 1) t0) <<= tuples3 0x80 0xc0 f2 t2 f3 t3)
    |= (set (c_char C t0) <<= tuples3 0x80 t1 f2 t2 f3 t3).

(** addUtf8Range, 1247-1312; the C locals are 16 bit, all values are below
    0x100. [digit k x] = ((x >> 6k) & 0x3f) + 0x80, [top k x] = x >> 6k. *)
Definition digit (k x : N) : N := N.land (N.shiftr x (6 * k)) 0x3f + 0x80.
Definition top (k x : N) : N := N.shiftr x (6 * k).
Definition utf8_part4 (res : nfa C) (b e : N) : nfa C :=
  res |= tuples4 (top 3 b + 0xf0) (top 3 e + 0xf0) (digit 2 b) (digit 2 e) (digit 1 b) (digit 1 e) (digit 0 b) (digit 0 e).
Definition utf8_part3 (res : nfa C) (b e : N) : nfa C :=
  if b <? 0x10000 then
    if e <=? 0x10000 then
      res |= tuples3 (top 2 b + 0xe0) (top 2 e + 0xe0) (digit 1 b) (digit 1 e) (digit 0 b) (digit 0 e)
    else utf8_part4 (res |= tuples3 (top 2 b + 0xe0) (0xe0 + 16) (digit 1 b) (0x80 + 64) (digit 0 b) (0x80 + 64)) 0x10000 e
  else utf8_part4 res b e.
Definition utf8_part2 (res : nfa C) (b e : N) : nfa C :=
  if b <? 0x800 then
    if e <=? 0x800 then res |= tuples2 (top 1 b + 0xc0) (top 1 e + 0xc0) (digit 0 b) (digit 0 e)
    else utf8_part3 (res |= tuples2 (top 1 b + 0xc0) (0xc0 + 32) (digit 0 b) (0x80 + 64)) 0x800 e
  else utf8_part3 res b e.
Definition utf8_range (b e : N) : nfa C :=
  let res := nfa_empty C in
  if b <? 0x80 then
    if e <=? 0x80 then res |= tuples1 b e
    else utf8_part2 (res |= tuples1 b 0x80) 0x80 e
  else utf8_part2 res b e.

(** range() for the codecs with one unit per character, 1322-1331, 1449-1461. *)
Definition cut_range (b e : N) : nfa C :=
  set (if c_size C <=? b then c_none C else rng b (N.min (c_size C) e)).

(** UTF16_IMPL, 1333-1447. *)
Definition hi (x : N) : N := N.shiftr (N.land (x - 0x10000) 0xffc00) 10 + 0xd800.
Definition lo (x : N) : N := N.land (x - 0x10000) 0x3ff + 0xdc00.
Definition utf16_range (b e : N) : nfa C :=
  if (0x110000 <=? e) || (0x110000 <=? b) then nfa_empty C
  else if e <? 0x10000 then
    if b <=? 0xd800 then
      if e <=? b then nfa_empty C
      else if 0xe000 <? e then set (c_unite C (rng b 0xd800) (rng 0xe000 e))
      else set (rng b (N.min e 0xd800))
    else
      let mb := N.max b 0xe000 in
      if e <=? mb then nfa_empty C else set (rng mb e)
  else if 0x10000 <=? b then
    if e <=? b then nfa_empty C
    else if lo e =? 0xdc00 then
      if lo b =? 0xdc00 then set (rng (hi b) (hi e)) <<= set (rng 0xdc00 0xe000)
      else
        let first := set (rng (hi b) (hi b + 1)) <<= set (rng (lo b) 0xe000) in
        if hi b <? hi e then first |= (set (rng (hi b + 1) (hi e + 1)) <<= set (rng 0xdc00 0xe000)) else first
    else
      if lo b =? 0xdc00 then set (rng (hi b) (hi e))
      else
        let first := set (rng (hi b) (hi b + 1)) <<= set (rng (lo b) (if hi b =? hi e then lo e else 0xe000)) in
        if negb (hi b =? hi e) then
          let mid := if negb (hi b + 1 =? hi e) then first |= (set (rng (hi b + 1) (hi e)) <<= set (rng (lo b) 0xe000)) else first in
          mid |= (set (rng (hi e) (hi e + 1)) <<= set (rng (lo b) (lo e)))
        else first
  else if e <=? b then nfa_empty C
  else
    let bmp := if b <? 0xd800 then set (c_unite C (rng b 0xd800) (rng 0xe000 0x10000)) else set (rng (N.max b 0xe000) 0x10000) in
    if lo e =? 0xdc00 then bmp |= (set (rng 0xd800 (hi e)) <<= set (rng 0xdc00 0xe000))
    else
      let mid := if 0xd800 <? hi e then bmp |= (set (rng 0xd800 (hi e)) <<= set (rng 0xdc00 0xe000)) else bmp in
      mid |= (set (rng (hi e) (hi e + 1)) <<= set (rng 0xdc00 (lo e))).

(** The encodings (kdev-pg-char-sets.h 33-46). *)
Inductive encoding := Ascii | Latin1 | Utf8 | Ucs2 | Utf16 | Ucs4.
(** range() by encoding; Ucs4 (1448) takes the range as it is. *)
Definition gnfa_range (enc : encoding) (b e : N) : nfa C :=
  match enc with
  | Ascii | Latin1 | Ucs2 => cut_range b e
  | Utf8 => utf8_range b e
  | Utf16 => utf16_range b e
  | Ucs4 => set (rng b e)
  end.
(** character(), 1487-1490; collection(), 1170-1180. *)
Definition gnfa_character (enc : encoding) (c : N) : nfa C := gnfa_range enc c (c + 1).
Definition gnfa_collection (enc : encoding) (cs : list N) : nfa C :=
  fold_left (fun a c => a |= gnfa_range enc c (c + 1)) cs (nfa_empty C).

(** anyChar(), 1182-1228.  The surrogate pairs are built there but not added
    to the result. *)
Definition gnfa_any (enc : encoding) (fuel : nat) (ord : list (list bool) -> list (list bool)) : option (nfa C) :=
  match enc with
  | Utf8 =>
    let low := set (rng 0x80 0xc0) in
    Some (set (rng 0 0x7f) |= ((set (rng 0xc0 0xe0) <<= low)
      |= ((set (rng 0xe0 0xf0) <<= low <<= low) |= (set (rng 0xf0 0x100) <<= low <<= low <<= low))))
  | Utf16 => nfa_but C fuel fuel ord (set (c_full C)) (set (rng 0xd800 0xe000))
  | _ => Some (set (c_full C))
  end.
End M.

(** word(), 1155-1168: the string goes through UTF-8 and the iterator that
    Codec2FromUtf8Iterator (char-sets.h 612-640) gives for the codec of the
    character set class (EACH_TYPE 913-924: Latin1 for UTF-8, Ucs2 for UTF-16). *)
Definition word_units (enc : encoding) (utf8_bytes : list N) : res (list N) :=
  match enc with
  | Ascii => ascii_of_utf8 utf8_bytes
  | Latin1 | Utf8 => Ok utf8_bytes
  | Ucs2 | Utf16 => ucs2_of_utf8 utf8_bytes
  | Ucs4 => ucs4_of_utf8 utf8_bytes
  end.
Definition gnfa_word (C : cset) (enc : encoding) (utf8_bytes : list N) : res (nfa C) :=
  let! u := word_units enc utf8_bytes in Ok (nfa_word C u).

(** The two classes. *)
Definition tab_rng (sz b e : N) : tabset := match tab_range sz b e with Some s => s | None => tab_empty end.
