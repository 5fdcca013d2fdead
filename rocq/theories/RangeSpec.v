(** What the automata for characters should accept. *)
From Coq Require Import List NArith.
From Verif Require Import CharSetModel AutomatonModel AutomatonSpec UtfSpec RangeModel.
Import ListNotations.
Local Open Scope N_scope.

(** The character set classes with their range(); [sz] is Codec2Size. *)
Inductive ranged : forall C : cset, (car C -> Prop) -> (N -> N -> car C) -> Prop :=
| ranged_seq sz : 0 < sz -> ranged (seq_cset sz) (seq_ok sz) seq_range
| ranged_tab sz : 0 < sz -> ranged (tab_cset sz) tab_ok (tab_rng sz).
Definition enc_size (enc : encoding) : N :=
  match enc with Ascii => 0x80 | Latin1 | Utf8 => 0x100 | Ucs2 | Utf16 => 0x10000 | Ucs4 => 0x110000 end.

(** The characters of an encoding and their code units. *)
Definition has (enc : encoding) (c : N) : Prop :=
  match enc with
  | Ascii | Latin1 | Ucs2 => c < enc_size enc
  | Utf8 | Ucs4 => code_point c
  | Utf16 => scalar c
  end.
Definition units (enc : encoding) (c : N) : list N :=
  match enc with Utf8 => utf8_char c | Utf16 => utf16_char c | _ => [c] end.
Definition accepts_range (C : cset) (enc : encoding) (a : nfa C) (b e : N) : Prop :=
  forall w, lang C a w <-> exists c, b <= c < e /\ has enc c /\ w = units enc c.

(** The ranges that addUtf8Range translates correctly. *)
Definition tidy3 (b e : N) : Prop := b / 0x1000 = e / 0x1000 \/ e mod 64 = 0 /\ (b mod 64 = 0 \/ e = (b / 0x1000 + 1) * 0x1000).
Definition tidy4 (b e : N) : Prop :=
  b / 0x40000 = e / 0x40000 /\ tidy3 b e \/
  e mod 0x1000 = 0 /\ b / 64 mod 64 = 0 /\ (b mod 64 = 0 \/ e = (b / 0x40000 + 1) * 0x40000 /\ e <= b + 0x1000).
Definition tidy8 (b e : N) : Prop :=
  e <= 0x800 \/ 0x800 <= b /\ e <= 0x10000 /\ tidy3 b e \/ 0x10000 <= b /\ tidy4 b e.
(** ... and UTF16_IMPL. *)
Definition tidy16 (b e : N) : Prop :=
  e <= b \/ 0x110000 <= b \/
  e < 0x110000 /\ (b < 0x10000 \/ b mod 1024 = 0 /\ e mod 1024 = 0 \/ b / 1024 = e / 1024 /\ b mod 1024 <> 0).
