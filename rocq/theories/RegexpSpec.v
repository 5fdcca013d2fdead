(** The textbook language of a regular expression. *)
From Coq Require Import List NArith.
From Verif Require Import AutomatonModel AutomatonSpec RegexpModel.
Import ListNotations.

Section S.
Variable C : cset.

Fixpoint re_lang (r : re C) (w : list N) : Prop :=
  match r with
  | RNone => False
  | REps => w = []
  | RSet s => exists x, w = [x] /\ c_acc C s x = true
  | RWord s => w = s
  | ROr r s => re_lang r w \/ re_lang s w
  | RAnd r s => re_lang r w /\ re_lang s w
  | RBut r s => re_lang r w /\ ~ re_lang s w
  | RNot r => in_codec C w /\ ~ re_lang r w
  | ROpt r => re_lang r w \/ w = []
  | RCat r s => cat (re_lang r) (re_lang s) w
  | RSep r s => cat (re_lang r) (star (cat (re_lang s) (re_lang r))) w
  | RStar r => star (re_lang r) w
  | RPlus r => cat (re_lang r) (star (re_lang r)) w
  | RNamed r => re_lang r w
  end.

(** Expressions whose automaton never comes back to its start state. *)
Fixpoint fresh (r : re C) : Prop :=
  match r with
  | RNone | REps | RSet _ | RWord _ | ROr _ _ | ROpt _ => True
  | RCat r _ | RSep r _ => fresh r
  | RStar _ | RPlus _ | RAnd _ _ | RBut _ _ | RNot _ | RNamed _ => False
  end.
Definition repeatable (r : re C) : Prop :=
  match r with RStar _ | RPlus _ => True | _ => fresh r end.
(** Expressions translated correctly: operands of [*], [+] and [@] do not
    begin with an iteration or a derived automaton (unless they are
    iterations); named expressions are not prefix-closed. *)
Fixpoint translatable (ok : car C -> Prop) (r : re C) : Prop :=
  match r with
  | RNone | REps => True
  | RSet s => ok s /\ c_eps C s = false /\ exists x, c_acc C s x = true
  | RWord s => in_codec C s
  | ROr r s | RAnd r s | RBut r s | RCat r s => translatable ok r /\ translatable ok s
  | RSep r s => translatable ok r /\ translatable ok s /\ fresh s
  | RNot r | ROpt r => translatable ok r
  | RStar r | RPlus r => translatable ok r /\ repeatable r
  | RNamed r => translatable ok r /\ exists u v, ~ re_lang r u /\ re_lang r (u ++ v)
  end.
End S.
