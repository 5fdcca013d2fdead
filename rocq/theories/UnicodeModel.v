(** The classes of characters known by name: /repo/src/kdev-pg-unicode-loader.cpp, and where the
    parser of grammar files uses regexpById (/repo/src/kdev-pg-parser.yy 185-192, 345-360).

    The data files are resources of the tool (unidata.qrc), so opening them does not fail.  Keys
    are the bytes of the names (QString::fromUtf8 keeps ASCII names apart; the names in the data
    files are ASCII).  The order of the keys of regexpById does not matter here. *)
From Coq Require Import List NArith ZArith Bool Ascii String.
From Verif Require Import Base AutomatonModel RangeModel FlexModel.
Import ListNotations.
Local Open Scope N_scope.

(** The value of a hexadecimal digit, kdev-pg-unicode-loader.cpp 23-28. *)
Definition code (c : ascii) : N := N_of_ascii c.
Definition hex_digit (c : ascii) : option N :=
  if (code "a" <=? code c) && (code c <=? code "f") then Some (code c - code "a" + 10)
  else if (code "A" <=? code c) && (code c <=? code "F") then Some (code c - code "A" + 10)
  else if (code "0" <=? code c) && (code c <=? code "9") then Some (code c - code "0")
  else None.
(** SET_CHAR, 17-33, on the text from str[i] on: the number, and how far i goes.  Numbers are
    quint32; every round multiplies by 16 first, what the last one did is undone by the division.
    [None]: str[i] is read behind the last byte. *)
Definition wrap (x : N) : N := x mod 0x100000000.
Fixpoint set_char (s : text) (x : N) : option (N * nat) :=
  match s with
  | [] => None
  | c :: s' =>
    let x := wrap (x * 16) in
    match hex_digit c with
    | Some d => match set_char s' (wrap (x + d)) with Some (y, k) => Some (y, S k) | None => None end
    | None => Some (x / 16, 0%nat)
    end
  end.

(** QByteArray::indexOf for one character, and for the text of two dots; -1 if there is none. *)
Fixpoint index_ (c : ascii) (s : text) (at_ : Z) : Z :=
  match s with [] => -1 | d :: s' => if Ascii.eqb d c then at_ else index_ c s' (at_ + 1) end.
Definition index_of (c : ascii) (s : text) (from : Z) : Z := index_ c (skipn (Z.to_nat from) s) from.
Fixpoint dots_ (s : text) (at_ : Z) : Z :=
  match s with
  | d :: s' => match s' with
               | e :: _ => if Ascii.eqb d "." && Ascii.eqb e "." then at_ else dots_ s' (at_ + 1)
               | [] => -1
               end
  | [] => -1
  end.
Definition index_dots (s : text) : Z := dots_ s 0.
(** QByteArray::mid: as much as there is.  The number of bytes comes from arithmetic on uint. *)
Definition mid (s : text) (pos : Z) (len : Z) : text :=
  firstn (Z.to_nat (Z.min len (Z.of_nat (List.length s)))) (skipn (Z.to_nat pos) s).
Definition uint (z : Z) : Z := (z mod 0x100000000)%Z.
(** QByteArray::trimmed, toLower and replace. *)
Definition space (c : ascii) : bool := Ascii.eqb c " " || ((9 <=? code c) && (code c <=? 13)).
Fixpoint drop_space (s : text) : text := match s with c :: s' => if space c then drop_space s' else s | [] => [] end.
Definition trimmed (s : text) : text := rev (drop_space (rev (drop_space s))).
Definition lower (c : ascii) : ascii := if (code "A" <=? code c) && (code c <=? code "Z") then ascii_of_N (code c + 32) else c.
Definition replaced (a b c : ascii) : ascii := if Ascii.eqb c a then b else c.
(** 59-61, 76-78. *)
Definition class_name (line : text) (semicolon : Z) : text :=
  map (replaced "-" "_") (map (replaced " " "_") (map lower (trimmed
    (mid line (semicolon + 1) (uint (uint (index_of "#" line (semicolon + 1)) - semicolon - 1)))))).

(** QFile::readLine until atEnd(): up to and with the line feed. *)
Fixpoint lines_ (cur s : text) : list text :=
  match s with
  | [] => match cur with [] => [] | _ => [cur] end
  | c :: s' => if Ascii.eqb c "010" then (cur ++ [c]) :: lines_ [] s' else lines_ (cur ++ [c]) s'
  end.
Definition lines (s : text) : list text := lines_ [] s.

Inductive loaded (A : Type) := Done (a : A) | Failed_assertion | Undefined_behaviour.
Arguments Done {A}. Arguments Failed_assertion {A}. Arguments Undefined_behaviour {A}.
Definition and_then {A B} (o : loaded A) (f : A -> loaded B) : loaded B :=
  match o with Done a => f a | Failed_assertion => Failed_assertion | Undefined_behaviour => Undefined_behaviour end.

Section M.
Variable C : cset.
Variable rng : N -> N -> car C.
Variable enc : encoding.

(** regexpById. *)
Definition classes : Type := list (text * nfa C).
Definition class (n : text) (m : classes) : option (nfa C) :=
  match find (fun e => if list_eq_dec ascii_dec (fst e) n then true else false) m with Some e => Some (snd e) | None => None end.
Definition put (n : text) (a : nfa C) (m : classes) : classes := (n, a) :: m.
(** 62-68, 79-84. *)
Definition add (n : text) (a : nfa C) (m : classes) : classes :=
  match class n m with None => put n a m | Some b => put n (nfa_or C b a) m end.

(** One line, 45-86. *)
Definition of_line (line : text) (m : classes) : loaded classes :=
  match line with
  | [] => Done m
  | c :: _ =>
    if Ascii.eqb c "#" then Done m
    else
      let dots := index_dots line in
      if negb (dots =? -1)%Z then
        match set_char line 0 with
        | None => Undefined_behaviour
        | Some (start, i) =>
          if negb (Z.of_nat i <=? dots)%Z then Failed_assertion
          else
            let i := (i + 2)%nat in
            let semicolon := index_of ";" line (dots + 2) in
            match set_char (skipn i line) 0 with
            | None => Undefined_behaviour
            | Some (stop, k) =>
              if negb (Z.of_nat (i + k) <=? semicolon)%Z then Failed_assertion
              else Done (add (class_name line semicolon) (gnfa_range C rng enc start (wrap (stop + 1))) m)
            end
        end
      else
        match set_char line 0 with
        | None => Undefined_behaviour
        | Some (single, i) =>
          let semicolon := index_of ";" line (Z.of_nat i) in
          Done (add (class_name line semicolon) (gnfa_character C rng enc single) m)
        end
  end.
(** standardFormat, 35-92. *)
Fixpoint of_lines (l : list text) (m : classes) : loaded classes :=
  match l with [] => Done m | x :: l' => and_then (of_line x m) (of_lines l') end.
Definition standard_format (file : text) (m : classes) : loaded classes := of_lines (lines file) m.

(** A null pointer is dereferenced if there is no such class. *)
Definition deref (n : text) (m : classes) : loaded (nfa C) :=
  match class n m with Some a => Done a | None => Undefined_behaviour end.
(** 106-108. *)
Definition or_into (n k : text) (m : classes) : loaded classes :=
  and_then (deref n m) (fun a => and_then (deref k m) (fun b => Done (put n (nfa_or C a b) m))).
(** loadUnicodeData, 94-113, the first time. *)
Fixpoint formats (files : list text) (m : classes) : loaded classes :=
  match files with [] => Done m | f :: r => and_then (standard_format f m) (formats r) end.
Definition load (files : list text) (m : classes) : loaded classes :=
  and_then (formats files m) (fun m =>
  and_then (deref (chars "numeric") m) (fun a =>
  and_then (or_into (chars "num") (chars "digit") (put (chars "num") a m)) (fun m =>
  and_then (or_into (chars "num") (chars "decimal") m) (fun m =>
  Done (put (chars "latin1-range") (gnfa_range C rng enc 0 0x100) (put (chars "ascii-range") (gnfa_range C rng enc 0 0x80) m)))))).

(** What happens to the table while a grammar file is read: a lexer section (%lexer, or
    %lexer with the name of a state, kdev-pg-parser.yy 185-186) starts, or a regular expression
    gets a name (190-192). *)
Inductive event := Section_start (state : option text) | Definition_of (n : text) (a : nfa C).
Definition happen (files : list text) (e : event) (s : bool * classes) : loaded (bool * classes) :=
  match e with
  | Section_start (Some _) => Done s
  | Section_start None => if fst s then Done s else and_then (load files (snd s)) (fun m => Done (true, m))
  | Definition_of n a => Done (fst s, put n a (snd s))
  end.
Fixpoint events (files : list text) (l : list event) (s : bool * classes) : loaded (bool * classes) :=
  match l with [] => Done s | e :: l' => and_then (happen files e s) (events files l') end.
End M.
Arguments Section_start {C}. Arguments Definition_of {C}.
