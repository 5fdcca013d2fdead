(** Where an error is. *)
From Coq Require Import List.
From Verif Require Import GrammarModel GrammarSpec.
Import ListNotations.

(** Some sentence of [n] begins with [u]. *)
Definition viable (g : grammar) (n : id) (u : list id) : Prop := exists v, derives g n (u ++ v).
