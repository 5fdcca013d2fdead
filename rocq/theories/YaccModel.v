(** Parsers made by bison: the LALR(1) table of a list of productions, conflicts being
    settled as the manual of bison says (a shift is preferred to a reduction, of two
    reductions the one whose production stands first), and the parser that runs on it.
    This is the documented behaviour of bison that kdev-pg-parser.yy rests on; the
    skeleton of bison is not modelled.  Simplification: default reductions are left out;
    they come into play only in front of a token that is an error. *)
From Coq Require Import List NArith PeanoNat Bool.
Import ListNotations.

(** Terminals and non-terminals are numbers; a mid-rule action is a non-terminal with an
    empty production of its own, as in bison. *)
Inductive sym := T (t : N) | NT (n : N).
Record prod := Prod { lhs : N; rhs : list sym }.

Definition sym_eqb (a b : sym) : bool :=
  match a, b with T x, T y => N.eqb x y | NT x, NT y => N.eqb x y | _, _ => false end.

(** ** The table *)
Inductive action := Shift (s : N) | Reduce (p : N) | Accept | Error.
(** A dotted production: its number, and how many symbols stand before the dot. *)
Definition item : Set := (N * N)%type.
Definition item_eqb (a b : item) : bool := N.eqb (fst a) (fst b) && N.eqb (snd a) (snd b).
(** A state: its items (kernel first), the transitions, and the reductions with the
    terminals they are for. *)
Record state := State { items : list item; trans : list (sym * N); reds : list (N * list N) }.
Definition table := list state.

Section L.
(** The productions; number 0 is $accept: system $end. *)
Variable ps : list prod.
Variable nnt : N.

Definition prod_at (p : N) : prod := nth (N.to_nat p) ps (Prod 0 []).
(** What stands behind the dot. *)
Definition behind (i : item) : list sym := skipn (N.to_nat (snd i)) (rhs (prod_at (fst i))).

(** Sets of terminals or non-terminals are bit sets. *)
Definition has (s : N) (x : N) : bool := N.testbit s x.
Definition with_ (s : N) (x : N) : N := N.setbit s x.
Definition null_sym (nulls : N) (x : sym) : bool := match x with T _ => false | NT n => has nulls n end.
Definition nulls_step (nulls : N) : N :=
  fold_left (fun s p => if forallb (null_sym s) (rhs p) then with_ s (lhs p) else s) ps nulls.
Fixpoint iterate {A} (eqb : A -> A -> bool) (f : A -> A) (fuel : nat) (x : A) : A :=
  match fuel with 0 => x | S k => let y := f x in if eqb x y then x else iterate eqb f k y end.

Fixpoint list_eqb {A} (e : A -> A -> bool) (a b : list A) : bool :=
  match a, b with
  | [], [] => true
  | x :: a, y :: b => e x y && list_eqb e a b
  | _, _ => false
  end.
Fixpoint upd {A} (n : nat) (f : A -> A) (l : list A) : list A :=
  match l, n with
  | [], _ => []
  | x :: l, 0 => f x :: l
  | x :: l, S n => x :: upd n f l
  end.

Definition range (n : N) : list N := map N.of_nat (seq 0 (N.to_nat n)).

Section F.
Variable nulls : N.
(** FIRST of a text, and whether the text can be empty. *)
Fixpoint first_of (fs : list N) (w : list sym) : N * bool :=
  match w with
  | [] => (0%N, true)
  | T t :: _ => (with_ 0 t, false)
  | NT n :: w =>
    let f := nth (N.to_nat n) fs 0%N in
    if has nulls n then let (g, e) := first_of fs w in (N.lor f g, e) else (f, false)
  end.
Definition firsts_step (fs : list N) : list N :=
  fold_left (fun fs p => upd (N.to_nat (lhs p)) (N.lor (fst (first_of fs (rhs p)))) fs) ps fs.

Variable fs : list N.
(** The lookahead of the non-terminals whose productions are in the closure. *)
Definition extend (i : item) (la : N) (c : list (option N)) : list (option N) :=
  match behind i with
  | NT b :: w =>
    let (f, e) := first_of fs w in
    let la := if e then N.lor f la else f in
    upd (N.to_nat b) (fun o => Some (match o with Some m => N.lor m la | None => la end)) c
  | _ => c
  end.
Definition closure_step (k : list (item * N)) (c : list (option N)) : list (option N) :=
  fold_left (fun c p =>
      match nth (N.to_nat (lhs (prod_at p))) c None with Some la => extend (p, 0%N) la c | None => c end)
    (range (N.of_nat (length ps))) (fold_left (fun c x => extend (fst x) (snd x) c) k c).
Definition opt_eqb (a b : option N) : bool :=
  match a, b with Some x, Some y => N.eqb x y | None, None => true | _, _ => false end.
Definition closure (k : list (item * N)) : list (item * N) :=
  let c := iterate (list_eqb opt_eqb) (closure_step k) 1000 (map (fun _ => None) (range nnt)) in
  k ++ flat_map (fun p =>
         match nth (N.to_nat (lhs (prod_at p))) c None with
         | Some la => if existsb (fun x => item_eqb (fst x) (p, 0%N)) k then [] else [((p, 0%N), la)]
         | None => []
         end) (range (N.of_nat (length ps))).

(** The symbols behind the dots, each once, and the items with the dot moved over one. *)
Definition nexts (c : list (item * N)) : list sym :=
  fold_left (fun l x => match behind (fst x) with
                        | y :: _ => if existsb (sym_eqb y) l then l else l ++ [y]
                        | [] => l end) c [].
Definition moved (c : list (item * N)) (x : sym) : list (item * N) :=
  flat_map (fun i => match behind (fst i) with
                     | y :: _ => if sym_eqb y x then [((fst (fst i), N.succ (snd (fst i))), snd i)] else []
                     | [] => [] end) c.

(** States while they are being made: the kernel with its lookahead, and whether the
    state has to be looked at (again). *)
Definition draft := (list (item * N) * bool)%type.
Definition same_kernel (a b : list (item * N)) : bool :=
  list_eqb item_eqb (map fst a) (map fst b).
(** A kernel is added, or its lookahead joined to that of the state with the same items. *)
Fixpoint merge (k : list (item * N)) (ds : list draft) : list draft :=
  match ds with
  | [] => [(k, true)]
  | (k', b) :: ds =>
    if same_kernel k k' then
      let j := map (fun z => (fst (fst z), N.lor (snd (fst z)) (snd (snd z)))) (combine k' k) in
      if list_eqb N.eqb (map snd j) (map snd k') then (k', b) :: ds else (j, true) :: ds
    else (k', b) :: merge k ds
  end.
Fixpoint first_open (ds : list draft) (n : nat) : option (nat * list (item * N)) :=
  match ds with
  | [] => None
  | (k, true) :: _ => Some (n, k)
  | (_, false) :: ds => first_open ds (S n)
  end.
Fixpoint grow (fuel : nat) (ds : list draft) : list draft :=
  match fuel with
  | 0 => ds
  | S f =>
    match first_open ds 0 with
    | None => ds
    | Some (n, k) =>
      let c := closure k in
      grow f (fold_left (fun ds x => merge (moved c x) ds) (nexts c) (upd n (fun d => (fst d, false)) ds))
    end
  end.

Fixpoint index_of (k : list (item * N)) (ds : list draft) (n : N) : N :=
  match ds with
  | [] => 0%N
  | (k', _) :: ds => if same_kernel k k' then n else index_of k ds (N.succ n)
  end.
(** The terminals of a bit set. *)
Variable nt : N.
Definition members (s : N) : list N := filter (has s) (range nt).
Definition finish (ds : list draft) : table :=
  map (fun d =>
    let c := closure (fst d) in
    State (map fst c)
      (map (fun x => (x, index_of (moved c x) ds 0)) (nexts c))
      (flat_map (fun i => match behind (fst i) with [] => [(fst (fst i), members (snd i))] | _ => [] end) c)) ds.
End F.

(** The whole construction, for [nt] terminals; [big] has to be large enough. *)
Definition lalr (nt : N) (big : nat) : table :=
  let nulls := iterate N.eqb nulls_step big 0%N in
  let fs := iterate (list_eqb N.eqb) (firsts_step nulls) big (map (fun _ => 0%N) (range nnt)) in
  finish nulls fs nt (grow nulls fs big [([((0%N, 0%N), 0%N)], true)]).
End L.

(** ** The parser *)
Section R.
Variable ps : list prod.
Variable tbl : table.
(** The number of $end. *)
Variable eoi : N.

Definition state_at (s : N) : state := nth (N.to_nat s) tbl (State [] [] []).
Definition next (s : N) (x : sym) : option N :=
  match find (fun e => sym_eqb (fst e) x) (trans (state_at s)) with Some e => Some (snd e) | None => None end.
(** The production that stands first of those to be reduced. *)
Definition reduction (s t : N) : option N :=
  fold_left (fun o e =>
      if existsb (N.eqb t) (snd e)
      then match o with Some p => Some (N.min p (fst e)) | None => Some (fst e) end else o)
    (reds (state_at s)) None.
Definition act (s t : N) : action :=
  match next s (T t) with
  | Some s' => if N.eqb t eoi then Accept else Shift s'
  | None => match reduction s t with Some p => Reduce p | None => Error end
  end.

(** Values of symbols, and what the semantic actions work on.  [sem p vs below w] is the
    action of production p: vs are the values of its right side, below those beneath them
    on the stack, the top first (mid-rule actions use them: what they call $1, $2, ... are
    values of the production they stand in).  [None]: the program stops there. *)
Variable V W : Type.
Variable sem : N -> list V -> list V -> W -> option (V * W).

Definition stack := list (N * V).
Definition top (k : stack) : N := match k with [] => 0%N | (s, _) :: _ => s end.

Inductive result :=
| Accepted (v : V) (w : W)
| SyntaxError (rest : list (N * V)) (w : W)   (* what has not been read *)
| Stopped
| Stuck                                       (* the table is wrong *)
| NoFuel.

Definition len (p : N) : nat := length (rhs (prod_at ps p)).

Inductive stepped := More (k : stack) (w : W) (rest : list (N * V)) | Ends (r : result).

(** One move of the parser. *)
Definition move (k : stack) (w : W) (rest : list (N * V)) : stepped :=
  match act (top k) (match rest with [] => eoi | (t, _) :: _ => t end) with
  | Shift s => match rest with (_, v) :: rest => More ((s, v) :: k) w rest | [] => Ends Stuck end
  | Reduce p =>
    match sem p (rev (map snd (firstn (len p) k))) (map snd (skipn (len p) k)) w with
    | None => Ends Stopped
    | Some (v, w) =>
      let k := skipn (len p) k in
      match next (top k) (NT (lhs (prod_at ps p))) with
      | Some s => More ((s, v) :: k) w rest
      | None => Ends Stuck
      end
    end
  | Accept => match k with [(_, v)] => Ends (Accepted v w) | _ => Ends Stuck end
  | Error => Ends (SyntaxError rest w)
  end.

Fixpoint parse (fuel : nat) (k : stack) (w : W) (rest : list (N * V)) : result :=
  match fuel with
  | 0 => NoFuel
  | S f => match move k w rest with More k w rest => parse f k w rest | Ends r => r end
  end.
End R.
