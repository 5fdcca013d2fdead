(** What a generated DebugVisitor prints: /repo/src/kdev-pg-debug-visitor-gen.cpp 14-198, with the
    order of visits of the default visitor (kdev-pg-default-visitor-bits-gen.cpp 31-130).

    A node of the tree has its type as printed (the name of the symbol, or prefix-, postfix-,
    binary- or ternary- and the name), its tokens, and the node members in the order of their
    declarations (both visitors leave out what is no node member and take each name once, see
    C76).  A member that is null has no nodes; a list has one at least.  Indices are int in the generated code, positions are taken to be smaller than
    2^31.  A line is kept as its parts; the way qDebug joins and quotes them is left out. *)
From Coq Require Import List NArith ZArith Bool Ascii String Decimal DecimalString.
From Verif Require Import FlexModel.
Import ListNotations.
Local Open Scope Z_scope.

Record token := Token { tbegin : Z; tend : Z }.
Inductive tree := Tree (operator : bool) (type : text) (start stop : Z) (members : list (text * text * list tree)).
Definition start_of (t : tree) : Z := let (_, _, s, _, _) := t in s.
Definition stop_of (t : tree) : Z := let (_, _, _, e, _) := t in e.

(** QContainerImplHelper::mid of Qt 6, for positions that are not negative: a negative or too
    large length takes all that is left. *)
Definition mid {A} (s : list A) (pos len : Z) : list A :=
  if pos >? Z.of_nat (List.length s) then []
  else if (len <? 0) || (len >? Z.of_nat (List.length s) - pos) then skipn (Z.to_nat pos) s
  else firstn (Z.to_nat len) (skipn (Z.to_nat pos) s).
(** QString::number. *)
Definition number (z : Z) : text := chars (NilZero.string_of_int (Z.to_int z)).
(** 66-67. *)
Definition escaped (s : text) : text :=
  flat_map (fun c => if Ascii.eqb c "010" then ["\"; "n"]%char else if Ascii.eqb c "013" then ["\"; "r"]%char else [c]) s.

(** 36-50: what is known of a token. *)
Inductive spot := Spot (offset line column : Z) | Invalid (index : Z).
Record line := Line { indent : nat; name : text; type_ : text; from : spot; to : spot; shown : text }.

Section M.
(** The token stream, the place of an offset (C01, C02), and the text given to the visitor. *)
Variable stream : list token.
Variable place : Z -> Z * Z.
Variable content : text.

Definition valid (i : Z) : bool := (0 <=? i) && (i <? Z.of_nat (List.length stream)).
Definition token_at (i : Z) : token := nth (Z.to_nat i) stream (Token 0 0).
Definition spot_of (i : Z) : spot :=
  if valid i then let b := tbegin (token_at i) in Spot b (fst (place b)) (snd (place b)) else Invalid i.
(** 51-68. *)
Definition token_string (s e : Z) : text :=
  match content with
  | [] => []
  | _ =>
    if valid s && valid e then
      let b := tbegin (token_at s) in let e := tend (token_at e) in
      escaped (if e - b >? 30
               then mid content b 10 ++ chars " ..." ++ number (e - b - 20) ++ chars " more" ++ chars "... " ++ mid content (e - 10) 10
               else mid content b (e - b + 1))
    else []
  end.
(** printToken, 28-76. *)
Definition print_token (d : nat) (s e : Z) (type name : text) : line := Line d name type (spot_of s) (spot_of e) (token_string s e).

(** The lines for the members, 163-194; those of operator nodes are not listed (111-125). *)
Definition member_lines (d : nat) (m : text * text * list tree) : list line :=
  map (fun t => print_token d (start_of t) (stop_of t) (snd (fst m)) (fst (fst m))) (snd m).
(** visitX, 88-151: the node, its members, and what the default visitor visits. *)
Fixpoint dump (d : nat) (t : tree) : list line :=
  let (operator, type, s, e, ms) := t in
  print_token d s e type [] ::
  (if operator then [] else flat_map (member_lines d) ms) ++
  (fix members l := match l with
     | [] => []
     | m :: l' => (fix kids k := match k with [] => [] | x :: k' => dump (S d) x ++ kids k' end) (snd m) ++ members l'
     end) ms.
End M.
