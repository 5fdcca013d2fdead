(** Kinds of AST nodes, visitor dispatch and the order of the generated structs:
    GenerateAst and GenerateAstRule (/repo/src/kdev-pg-ast-gen.cpp 16-181) and
    GenerateVisitorBits (/repo/src/kdev-pg-visitor-bits-gen.cpp 19-92). *)
From Coq Require Import List NArith PeanoNat Bool.
Import ListNotations.
Local Open Scope N_scope.

(** Texts are lists of character codes. *)
Definition text := list N.
(** capitalize, kdev-pg.h 65-69; identifiers are ASCII. *)
Definition capitalized (s : text) : text := match s with [] => [] | c :: r => (if (97 <=? c) && (c <=? 122) then c - 32 else c) :: r end.
Definition t_prefix : text := [80; 114; 101; 102; 105; 120].
Definition t_postfix : text := [80; 111; 115; 116; 102; 105; 120].
Definition t_binary : text := [66; 105; 110; 97; 114; 121].
Definition t_ternary : text := [84; 101; 114; 110; 97; 114; 121].
Definition t_ast : text := [65; 115; 116].
Definition t_node : text := [65; 115; 116; 78; 111; 100; 101].

(** A symbol: its name, whether isOperatorSymbol holds, for each of its rules
    whether it is an operator rule, and the text in astBaseClasses (empty: none). *)
Record symbol := { sname : text; soper : bool; srules : list bool; sbase : text }.

(** The enumerators of AstNodeKind, 26-48. *)
Fixpoint kinds (id : N) (l : list symbol) : list (text * N) :=
  match l with
  | [] => []
  | s :: l =>
    let c := capitalized (sname s) in
    if soper s then (t_prefix ++ c, id) :: (t_postfix ++ c, id + 1) :: (t_binary ++ c, id + 2) :: (t_ternary ++ c, id + 3) :: (c, id + 4) :: kinds (id + 5) l
    else (c, id) :: kinds (id + 1) l
  end.
Definition node_kinds (l : list symbol) : list (text * N) := kinds 1000 l.
(** sParserTable, visitor-bits-gen.cpp 25-54: the visit method of each entry;
    [None] for 0. *)
Fixpoint visit_table (l : list symbol) : list (option text) :=
  match l with
  | [] => []
  | s :: l =>
    let c := capitalized (sname s) in
    (if soper s then [Some (t_prefix ++ c); Some (t_postfix ++ c); Some (t_binary ++ c); Some (t_ternary ++ c); None] else [Some c]) ++ visit_table l
  end.
(** visitNode with the table, 58-60; the outer [None]: outside the table. *)
Definition visit_by_table (l : list symbol) (kind : N) : option (option text) := nth_error (visit_table l) (N.to_nat (kind - 1000)).
(** visitNode with a switch, 62-91: the labels, and the method of each. *)
Fixpoint visit_cases (l : list symbol) : list (text * text) :=
  match l with
  | [] => []
  | s :: l =>
    let c := capitalized (sname s) in
    (if soper s then [(t_prefix ++ c, t_prefix ++ c); (t_postfix ++ c, t_postfix ++ c); (t_binary ++ c, t_binary ++ c); (t_ternary ++ c, t_ternary ++ c)] else [(c, c)]) ++ visit_cases l
  end.
(** What a label means: the value of the enumerator. *)
Fixpoint lookup (x : text) (l : list (text * N)) : option N :=
  match l with [] => None | (y, v) :: l => if list_eq_dec N.eq_dec x y then Some v else lookup x l end.
Definition visit_by_switch (l : list symbol) (kind : N) : option text :=
  option_map snd (find (fun c => match lookup (fst c) (node_kinds l) with Some v => v =? kind | None => false end) (visit_cases l)).

(** ** The structs, 55-181: each with its base class *)
Definition base_class (s : symbol) : text := match sbase s with [] => t_node | b => b end.
(** visitEvolve, 113-181. *)
Definition structs_of_rule (s : symbol) (oper : bool) : list (text * text) :=
  let c := capitalized (sname s) ++ t_ast in
  (c, base_class s) :: (if oper then [(t_prefix ++ c, c); (t_postfix ++ c, c); (t_binary ++ c, c); (t_ternary ++ c, c)] else []).
Definition structs (s : symbol) : list (text * text) := flat_map (structs_of_rule s) (srules s).
(** What visitEvolve puts into mGenerated, 138: " Prefix" and " Postfix". *)
Definition marks (s : symbol) : list text := if existsb (fun b => b) (srules s) then [32 :: t_prefix; 32 :: t_postfix] else [].
Record gen := { generated : list text; out : list (text * text) }.
Definition contains (x : text) (l : list text) : bool := existsb (fun y => if list_eq_dec N.eq_dec x y then true else false) l.
(** GenerateAstRule::operator(), 84-110, when it generates. *)
Definition generate (s : symbol) (g : gen) : gen := {| generated := marks s ++ generated g; out := out g ++ structs s |}.
Definition must_wait (s : symbol) (g : gen) : bool := negb (match sbase s with [] => true | _ => false end) && negb (contains (sbase s) (generated g)).
(** The first time, 55-59: what has to wait is remembered. *)
Fixpoint first_time (l : list symbol) (g : gen) : gen * list symbol :=
  match l with
  | [] => (g, [])
  | s :: l => if must_wait s g then let (g', w) := first_time l g in (g', s :: w) else first_time l (generate s g)
  end.
(** One round of the loop 61-74: what still has to wait remains.  Removing from
    the set is taken to leave the rest of the iteration as it is. *)
Definition round := first_time.
(** The loop; [None]: out of fuel. *)
Fixpoint rounds (fuel : nat) (w : list symbol) (g : gen) : option (gen * list symbol) :=
  match fuel with
  | O => None
  | S f => let (g', w') := round w g in if Nat.eqb (length w') (length w) then Some (g', w') else rounds f w' g'
  end.
(** mForce, 75-82. *)
Definition force (w : list symbol) (g : gen) : gen := fold_left (fun g s => generate s g) w g.
(** GenerateAst::operator(), 55-82.  [hash]: the order in which the set of waiting
    symbols is iterated. *)
Definition generate_ast (hash : list symbol -> list symbol) (fuel : nat) (l : list symbol) : option (list (text * text)) :=
  let (g, w) := first_time l {| generated := []; out := [] |} in
  match rounds fuel (hash w) g with
  | Some (g, w) => Some (out (force w g))
  | None => None
  end.
