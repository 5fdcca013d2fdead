(** Diagnoses of regular expression automata: acceptsEpsilon, isEmpty,
    minLength, isUnbounded, maxLength (kdev-pg-regexp.cpp 683-838).  Lengths
    are unbounded integers (the code uses int). *)
From Coq Require Import List NArith ZArith Bool.
From Verif Require Import Base AutomatonModel.
Import ListNotations.

Section M.
Variable C : cset.
Notation cs := (car C).
Notation row := (list (cs * nat)).
Notation bits := (list bool).

(** Lines 696-703. *)
Fixpoint eps_row (r : row) (vis : bits) (todo : list nat) : bits * list nat :=
  match r with
  | [] => (vis, todo)
  | (c, t) :: r' => if c_eps C c && negb (getb vis t) then eps_row r' (setb vis t) (t :: todo) else eps_row r' vis todo
  end.
(** Lines 689-704; each round pops one state. *)
Fixpoint eps_loop (fuel : nat) (a : nfa C) (vis : bits) (todo : list nat) : option bool :=
  match todo with
  | [] => Some false
  | x :: todo' =>
    match fuel with
    | O => None
    | S f =>
      if Nat.leb (naccept a) x then Some true
      else let '(v, t) := eps_row (rowof C (nrules a) x) vis todo' in eps_loop f a v t
    end
  end.
(** Lines 683-705. *)
Definition acceptsEpsilon (a : nfa C) : option bool := eps_loop (nst a) a (setb (zeros (nst a)) 0) [0].

(** Lines 706-728. *)
Fixpoint any_row (r : row) (vis : bits) (todo : list nat) : bits * list nat :=
  match r with
  | [] => (vis, todo)
  | (_, t) :: r' => if negb (getb vis t) then any_row r' (setb vis t) (t :: todo) else any_row r' vis todo
  end.
Fixpoint empty_loop (fuel : nat) (a : nfa C) (vis : bits) (todo : list nat) : option bool :=
  match todo with
  | [] => Some true
  | x :: todo' =>
    match fuel with
    | O => None
    | S f =>
      if Nat.leb (naccept a) x then Some false
      else let '(v, t) := any_row (rowof C (nrules a) x) vis todo' in empty_loop f a v t
    end
  end.
Definition isEmpty (a : nfa C) : option bool := empty_loop (nst a) a (setb (zeros (nst a)) 0) [0].

(** Lines 743-753: queues, pushed at the end. *)
Fixpoint min_row (r : row) (vis : bits) (todo0 todo1 : list nat) : bits * list nat * list nat :=
  match r with
  | [] => (vis, todo0, todo1)
  | (c, t) :: r' =>
    if negb (getb vis t) then
      if c_eps C c then min_row r' (setb vis t) (todo0 ++ [t]) todo1
      else min_row r' (setb vis t) todo0 (todo1 ++ [t])
    else min_row r' vis todo0 todo1
  end.
(** Lines 737-760. *)
Fixpoint min_len_loop (fuel : nat) (a : nfa C) (vis : bits) (todo0 todo1 : list nat) (len : nat) : option Z :=
  match todo0 with
  | [] => Some (-1)%Z
  | x :: todo0' =>
    match fuel with
    | O => None
    | S f =>
      if Nat.leb (naccept a) x then Some (Z.of_nat len)
      else
        let '(v, t0, t1) := min_row (rowof C (nrules a) x) vis todo0' todo1 in
        match t0 with
        | [] => min_len_loop f a v t1 [] (S len)
        | _ => min_len_loop f a v t0 t1 len
        end
    end
  end.
(** Lines 729-761. *)
Definition minLength (a : nfa C) : option Z := min_len_loop (nst a) a (setb (zeros (nst a)) 0) [0] [] 0.

(** Lines 763-777; [fuel] bounds the recursion depth. *)
Fixpoint unb_check (fuel : nat) (a : nfa C) (x : nat) (vis : bits) : option bool :=
  match fuel with
  | O => None
  | S f =>
    (fix rows (r : row) : option bool :=
       match r with
       | [] => Some false
       | (_, t) :: r' =>
         if getb (setb vis x) t then Some true
         else do b <- unb_check f a t (setb vis x); if b : bool then Some true else rows r'
       end) (rowof C (nrules a) x)
  end.
(** Lines 778-782. *)
Definition isUnbounded (a : nfa C) : option bool := unb_check (S (nst a)) a 0 (zeros (nst a)).

(** Lines 793-801: reversed edges. *)
Definition back_rows (a : nfa C) : list row :=
  fold_left (fun br i => fold_left (fun br e => push C (snd e) (fst e, i) br) (rowof C (nrules a) i) br)
            (seq 0 (nst a)) (repeat [] (nst a)).
(** Lines 812-829. *)
Fixpoint max_row (r : row) (dist : list Z) (todo0 todo1 : list nat) (len : Z) : list Z * list nat * list nat :=
  match r with
  | [] => (dist, todo0, todo1)
  | (c, p) :: r' =>
    if c_eps C c then
      if (nth p dist (-1) <? len)%Z then max_row r' (upd dist p (fun _ => len)) (todo0 ++ [p]) todo1 len
      else max_row r' dist todo0 todo1 len
    else
      if (nth p dist (-1) <=? len)%Z then max_row r' (upd dist p (fun _ => len + 1)%Z) todo0 (todo1 ++ [p]) len
      else max_row r' dist todo0 todo1 len
  end.
(** Lines 808-836. *)
Fixpoint max_loop (fuel : nat) (br : list row) (dist : list Z) (todo0 todo1 : list nat) (len : Z) : option (list Z) :=
  match todo0 with
  | [] => Some dist
  | x :: todo0' =>
    match fuel with
    | O => None
    | S f =>
      let '(d, t0, t1) := max_row (rowof C br x) dist todo0' todo1 len in
      match t0 with
      | [] => max_loop f br d t1 [] (len + 1)
      | _ => max_loop f br d t0 t1 len
      end
    end
  end.
(** Lines 783-838; [fuel] bounds the number of rounds. *)
Definition maxLength (fuel : nat) (a : nfa C) : option Z :=
  do u <- isUnbounded a;
  if u : bool then Some (-2)%Z
  else
    do e <- isEmpty a;
    if e : bool then Some (-1)%Z
    else
      let accs := seq (naccept a) (nst a - naccept a) in
      do d <- max_loop fuel (back_rows a) (fold_left (fun d i => upd d i (fun _ => 0%Z)) accs (repeat (-1)%Z (nst a))) accs [] 0;
      Some (nth 0 d (-1)%Z).
End M.
