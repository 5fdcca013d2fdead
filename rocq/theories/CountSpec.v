(** How deep calls nest: for C122.  Only the grammar is looked at. *)
From Coq Require Import List.
From Verif Require Import Base GrammarModel.
Import ListNotations.

Section G.
Variable g : grammar.
(** [depth] counts a token as one, and one more for each call; recursive rules
    have none. *)
Definition depth_of (depth : id -> nat) : Prop := forall n,
  match kind g n with
  | NTerm => 1 <= depth n
  | NNon s => S (depth s) <= depth n
  | NInl s => depth s <= depth n
  | NPlus i _ _ | NStar i _ _ | NAct (Some i) | NAnn i | NCond i | NTry i None => depth i <= depth n
  | NAlt l r | NCons l r | NTry l (Some r) => depth l <= depth n /\ depth r <= depth n
  | NEvolve i s => depth i <= depth s
  | NOper b _ _ => depth b <= depth n
  | _ => True
  end.
Definition no_recover : Prop := forall n t, kind g n <> NTry t None.
Definition no_try : Prop := forall n t c, kind g n <> NTry t c.
Definition no_oper : Prop := forall n b ops x, kind g n <> NOper b ops x.
End G.
