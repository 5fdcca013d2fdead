(** Regular expressions over bytes and the choice of a rule, as flex does it: the rule
    that matches the longest text, and of those the one that stands first.  This is the
    documented behaviour of flex that kdev-pg-lexer.ll rests on; the tables flex makes
    are not modelled. *)
From Coq Require Import List Ascii String Bool PeanoNat.
Import ListNotations.

Definition text := list ascii.

(** A text written as a string literal. *)
Fixpoint chars (s : string) : text :=
  match s with EmptyString => [] | String c t => c :: chars t end.

Inductive re : Type :=
| RNone
| REps
| RCls (f : ascii -> bool)
| RAlt (a b : re)
| RSeq (a b : re)
| RStar (a : re).

(** Smart constructors, to keep derivatives small. *)
Definition alt (a b : re) : re :=
  match a, b with RNone, _ => b | _, RNone => a | _, _ => RAlt a b end.
Definition seq (a b : re) : re :=
  match a with RNone => RNone | REps => b | _ => RSeq a b end.

Fixpoint nullable (r : re) : bool :=
  match r with
  | RNone => false
  | REps => true
  | RCls _ => false
  | RAlt a b => nullable a || nullable b
  | RSeq a b => nullable a && nullable b
  | RStar _ => true
  end.

Fixpoint deriv (c : ascii) (r : re) : re :=
  match r with
  | RNone => RNone
  | REps => RNone
  | RCls f => if f c then REps else RNone
  | RAlt a b => alt (deriv c a) (deriv c b)
  | RSeq a b => if nullable a then alt (seq (deriv c a) b) (deriv c b) else seq (deriv c a) b
  | RStar a => seq (deriv c a) (RStar a)
  end.

(** The length of the longest prefix of [s] that [r] matches. *)
Fixpoint longest (r : re) (s : text) : option nat :=
  match r with
  | RNone => None
  | _ =>
    match s with
    | [] => if nullable r then Some 0 else None
    | c :: t =>
      match longest (deriv c r) t with
      | Some n => Some (S n)
      | None => if nullable r then Some 0 else None
      end
    end
  end.

(** Ways to write patterns. *)
Definition is (c : ascii) : ascii -> bool := Ascii.eqb c.
Definition among (l : text) (c : ascii) : bool := existsb (Ascii.eqb c) l.
Definition between (a b : ascii) (c : ascii) : bool :=
  Nat.leb (nat_of_ascii a) (nat_of_ascii c) && Nat.leb (nat_of_ascii c) (nat_of_ascii b).
Definition chr (c : ascii) : re := RCls (is c).
Definition oneof (l : text) : re := RCls (among l).
Definition noneof (l : text) : re := RCls (fun c => negb (among l c)).
Fixpoint lit_ (l : text) : re :=
  match l with [] => REps | [c] => chr c | c :: t => RSeq (chr c) (lit_ t) end.
Definition lit (s : string) : re := lit_ (chars s).
Definition plus (r : re) : re := RSeq r (RStar r).
(** [r{1,n}] *)
Fixpoint upto (n : nat) (r : re) : re :=
  match n with
  | 0 => REps
  | 1 => r
  | S m => RSeq r (RAlt REps (upto m r))
  end.
