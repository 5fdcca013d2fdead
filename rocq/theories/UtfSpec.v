(** UTF-8 and UTF-16 as the Unicode standard defines them. *)
From Coq Require Import List NArith Bool.
Import ListNotations.
Local Open Scope N_scope.

Definition utf8_char (c : N) : list N :=
  if c <? 0x80 then [c]
  else if c <? 0x800 then [0xc0 + c / 64; 0x80 + c mod 64]
  else if c <? 0x10000 then [0xe0 + c / 4096; 0x80 + c / 64 mod 64; 0x80 + c mod 64]
  else [0xf0 + c / 262144; 0x80 + c / 4096 mod 64; 0x80 + c / 64 mod 64; 0x80 + c mod 64].
Definition utf8 (cs : list N) : list N := flat_map utf8_char cs.

Definition utf16_char (c : N) : list N :=
  if c <? 0x10000 then [c] else [0xd800 + (c - 0x10000) / 1024; 0xdc00 + (c - 0x10000) mod 1024].
Definition utf16 (cs : list N) : list N := flat_map utf16_char cs.

Definition code_point (c : N) : Prop := c < 0x110000.
Definition high_half (c : N) : Prop := 0xd800 <= c < 0xdc00.
Definition low_half (c : N) : Prop := 0xdc00 <= c < 0xe000.
Definition scalar (c : N) : Prop := code_point c /\ ~ (0xd800 <= c < 0xe000).
(** The last two code points of every plane, and U+FDD0 .. U+FDDF. *)
Definition dropped (c : N) : Prop := c mod 0x10000 = 0xfffe \/ c mod 0x10000 = 0xffff \/ 0xfdd0 <= c < 0xfde0.

(** Length of the sequence a byte begins (1 for plain bytes and bytes that
    begin none). *)
Definition seq_len (b : N) : nat :=
  if b <? 0xc0 then 1 else if b <? 0xe0 then 2 else if b <? 0xf0 then 3 else if b <? 0xf8 then 4 else 1.
Definition begins_none (b : N) : Prop := 0x80 <= b < 0xc0 \/ 0xf8 <= b.
(** The bytes split into complete sequences (with any following bytes). *)
Inductive split8 : list N -> list (list N) -> Prop :=
| split8_nil : split8 [] []
| split8_cons b r s l : length r = Nat.pred (seq_len b) -> split8 s l -> split8 (b :: r ++ s) ((b :: r) :: l).
(** The number coded by a sequence: low bits of the first byte, six of each
    following one. *)
Definition seq_value (s : list N) : N :=
  match s with
  | b :: r => fold_left (fun v x => v * 64 + x mod 64) r
                (match length r with 0%nat => b | 1%nat => b mod 32 | _ => b mod 16 end)
  | [] => 0
  end.

(** The units split into single ones and pairs begun by a high half. *)
Inductive split16 : list N -> list (list N) -> Prop :=
| split16_nil : split16 [] []
| split16_one c s l : ~ high_half c -> split16 s l -> split16 (c :: s) ([c] :: l)
| split16_two c d s l : high_half c -> split16 s l -> split16 (c :: d :: s) ([c; d] :: l).
Definition pair_value (s : list N) : N :=
  match s with
  | [c; d] => 0x10000 + (c - 0xd800) * 1024 + d - 0xdc00
  | c :: _ => c
  | [] => 0
  end.
(** A sequence counts: a plain byte, or a longer sequence whose value is
    wanted. *)
Definition yields (keep : N -> Prop) (s : list N) : Prop :=
  match s with [] => False | [b] => b < 0x80 | _ => keep (seq_value s) end.
(** Bytes in complete sequences of which the last one counts. *)
Definition well_ended (keep : N -> Prop) (buf : list N) : Prop :=
  exists l, split8 buf l /\ (l = [] \/ yields keep (last l [])).
