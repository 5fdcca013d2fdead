(** The finer grammar that the parser of grammar files reads without exception
    (YaccReadProofs): the written one, but

    - postfix_item!n is one that does not begin with code, and in a sequence only these can
      follow others, since code belongs to what stands before it;
    - the empty expression of lexer rules stands only in parentheses and beside `|`
      (the classes with !e). *)
From Coq Require Import List NArith Ascii String Bool PeanoNat Lia.
From Verif Require Import YaccModel YaccSpec YaccProofs YaccReadProofs FlexModel ScanModel GramModel GramTableProofs.
Import ListNotations.
Open Scope string_scope.
Open Scope list_scope.

Definition is_one (x : string) (l : list string) : bool := existsb (String.eqb x) l.
Definition fine_grammar : list (string * string) := Eval vm_compute in
  filter (fun p => negb (is_one (fst p) ["$accept"; "postfix_item"; "item_sequence"]) &&
                   negb (is_one (fst p) ["regexp7"; "aregexp7"] && String.eqb (snd p) "")) (map fst written) ++
  [ ("postfix_item", "unary_item"); ("postfix_item", "postfix_item '@' primary_item");
    ("postfix_item", "postfix_item T_CODE"); ("postfix_item", "T_CODE");
    ("postfix_item!n", "unary_item"); ("postfix_item!n", "postfix_item!n '@' primary_item");
    ("postfix_item!n", "postfix_item!n T_CODE");
    ("item_sequence", "postfix_item"); ("item_sequence", "item_sequence postfix_item!n");
    ("regexp7", "'(' regexp!e ')'"); ("aregexp7", "'(' regexp!e ')'");
    ("regexp", "regexp!e '|' regexp1"); ("regexp", "regexp '|' regexp1!e");
    ("regexp!e", "regexp1!e"); ("regexp1!e", "regexp2!e"); ("regexp2!e", "regexp3!e"); ("regexp3!e", "regexp4!e");
    ("regexp4!e", "regexp5!e"); ("regexp5!e", "regexp6!e"); ("regexp6!e", "regexp7!e"); ("regexp7!e", "") ].

(** The non-terminal of a class. *)
Fixpoint base (x : string) : string :=
  match x with EmptyString => EmptyString | String c x => if Ascii.eqb c "!" then EmptyString else String c (base x) end.
Definition classes : list string := Eval vm_compute in uniq [] (map fst fine_grammar).
Definition class_of (x : string) : N := pos x classes 0.
Definition csymbol (x : string) : csym := if is_one x classes then CN (class_of x) else CT (tok_of x).
Definition cnt (c : N) : N := nt_of (base (nth (N.to_nat c) classes "")).
Fixpoint number (l r : string) (ps : list (string * string)) (n : N) : N :=
  match ps with
  | [] => n
  | (l', r') :: ps =>
    if String.eqb (base l) l' && list_eqb String.eqb (map base (words r)) (words r') then n else number l r ps (N.succ n)
  end.
Definition fine_productions : list cprod := Eval vm_compute in
  map (fun p => CProd (class_of (fst p)) (number (fst p) (snd p) (map fst written) 0) (map csymbol (words (snd p)))) fine_grammar.

(** What the classes begin with, and what surrounds them. *)
Fixpoint repeat_ {A} (n : nat) (f : A -> A) (x : A) : A := match n with O => x | S n => repeat_ n f (f x) end.
Definition add_all (a b : list N) : list N := fold_left (fun l x => if mem x l then l else x :: l) a b.
Fixpoint update {A} (n : nat) (f : A -> A) (l : list A) : list A :=
  match n, l with O, x :: l => f x :: l | S n, x :: l => x :: update n f l | _, [] => [] end.
Definition at_ {A} (d : A) (l : list A) (c : N) : A := nth (N.to_nat c) l d.
Definition nullable : list bool := Eval vm_compute in
  repeat_ 12 (fun nu => fold_left (fun nu q => if empty_able (at_ false nu) (crhs q) then update (N.to_nat (cls q)) (fun _ => true) nu else nu)
     fine_productions nu) (map (fun _ => false) classes).
Definition first_sets : list (list N) := Eval vm_compute in
  repeat_ 20 (fun fi => fold_left (fun fi q => update (N.to_nat (cls q)) (add_all (firsts (at_ [] fi) (at_ false nullable) (crhs q) [])) fi)
     fine_productions fi) (map (fun _ => []) classes).
Definition cx := list (list (N * list N)).
Fixpoint note (s : N) (la : list N) (l : list (N * list N)) : list (N * list N) :=
  match l with
  | [] => [(s, la)]
  | (s', la') :: l => if N.eqb s s' then (s', add_all la la') :: l else (s', la') :: note s la l
  end.
Fixpoint surround (s : N) (xs : list csym) (la : list N) (m : cx) : cx :=
  match xs with
  | [] => m
  | x :: xs =>
    let m := match x with
             | CT _ => m
             | CN c => update (N.to_nat c) (note s (firsts (at_ [] first_sets) (at_ false nullable) xs la)) m
             end in
    match next grammar_states s (sym_of cnt x) with Some s' => surround s' xs la m | None => m end
  end.
Definition surround_all (m : cx) : cx :=
  fold_left (fun m q => fold_left (fun m e => surround (fst e) (crhs q) (snd e) m) (at_ [] m (cls q)) m) fine_productions m.
Definition contexts : cx := Eval vm_compute in
  repeat_ 12 surround_all (update (N.to_nat (class_of "system")) (fun _ => [(0, [0])]%N) (map (fun _ => []) classes)).
Lemma fine_checked : fine_ok productions grammar_states 0 fine_productions cnt (at_ [] contexts) (at_ [] first_sets) (at_ false nullable) = true.
Proof. vm_compute. reflexivity. Qed.
