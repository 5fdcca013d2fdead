(** Model of NFA<CharSet> and DFA<CharSet>
    (/repo/src/kdev-pg-regexp.cpp lines 75-910), generic in the character set
    class; instances for SeqCharSet and TableCharSet at the end.
    State sets (UsedBitArray = BitArray, line 41) are lists of booleans of
    length nstates, justified by BitArrayProps.  Vector accesses are modelled
    by [nth]/[upd] with a default; the theorems show that automata stay
    well-formed ([wf_nfa], [wf_dfa]), i.e. that all indices used are in range. *)
From Coq Require Import List NArith Lia Bool PeanoNat.
From Verif Require Import Base CharSetModel.
Import ListNotations.

(** The operations of a character set class used by the automata. *)
Record cset := MkCset {
  car : Type;
  c_size : N;                                 (* Codec2Size<codec>::value *)
  c_eps : car -> bool;                        (* epsilon() *)
  c_isempty : car -> bool;                    (* empty() *)
  c_acc : car -> N -> bool;                   (* accepts(x) *)
  c_inter : car -> car -> car;                (* intersection / intersect *)
  c_diff : car -> car -> car;                 (* difference *)
  c_unite : car -> car -> car;                (* unite *)
  c_neg : car -> car;                         (* negate *)
  c_full : car;                               (* fullSet() *)
  c_epsset : car;                             (* CharSet() *)
  c_none : car;                               (* emptySet() *)
  c_char : N -> car;                          (* CharSet(chr) *)
  c_eqb : car -> car -> bool;                 (* operator== *)
  c_branch : list (car * nat) -> N -> option nat  (* running the code of CharSetCondition *)
}.

Section M.
Variable C : cset.
Notation cs := (car C).
Notation edge := (cs * nat)%type.
Notation row := (list edge).
Notation bits := (list bool).

(** vector helpers. *)
Fixpoint upd {A} (l : list A) (i : nat) (f : A -> A) : list A :=
  match l, i with
  | [], _ => []
  | x :: r, O => f x :: r
  | x :: r, S j => x :: upd r j f
  end.
(** vector::resize *)
Definition resize_rows (n : nat) (l : list row) : list row :=
  firstn n l ++ repeat [] (n - length l).
Definition push (i : nat) (e : edge) (l : list row) : list row := upd l i (fun r => r ++ [e]).
Definition rowof (l : list row) (i : nat) : row := nth i l [].
(** [second += k] for a whole row. *)
Definition shift (k : nat) (r : row) : row := map (fun e => (fst e, snd e + k)) r.
Definition eps_edge (t : nat) : edge := (c_epsset C, t).

(** Lines 368-378. *)
Record nfa := MkNfa { nst : nat; nrules : list row; naccept : nat }.

(** Lines 417-432. *)
Definition nfa_empty : nfa := MkNfa 2 [[]; []] 1.
Definition nfa_emptyWord : nfa := MkNfa 1 [[]] 0.
Definition nfa_set (s : cs) : nfa := MkNfa 2 [[(s, 1)]; []] 1.

(** Lines 433-462: union of a list, one accepting state per element. *)
Fixpoint list_blocks (total : nat) (k : nat) (i : nat) (start : nat) (l : list nfa) (rules : list row) : list row :=
  (* total = nstates, k = list.size(), i = current index *)
  match l with
  | [] => rules
  | a :: r =>
    let rules1 := firstn start rules
                  ++ map (shift start) (firstn (nst a) (nrules a))
                  ++ skipn (start + nst a) rules in
    let rules2 := push 0 (eps_edge start) rules1 in
    let start' := start + nst a in
    let rules3 := push (start' - 1) (eps_edge (total - k + i)) rules2 in
    list_blocks total k (S i) start' r rules3
  end.
Definition nfa_list (l : list nfa) : nfa :=
  match l with
  | [] => nfa_empty
  | _ =>
    let acc := 1 + fold_right (fun a n => nst a + n) 0 l in
    let total := acc + length l in
    MkNfa total (list_blocks total (length l) 0 1 l (repeat [] total)) acc
  end.

(** Lines 464-478. *)
Definition adjust (k : nat) (a : nfa) : nfa :=
  MkNfa (nst a + k) (repeat [] k ++ map (shift k) (firstn (nst a) (resize_rows (nst a) (nrules a)))) (naccept a + k).

(** Lines 479-497. *)
Definition nfa_or (a o : nfa) : nfa :=
  let a1 := adjust 1 a in
  let n := nst a1 in
  let r0 := resize_rows (nst o + n + 2) (nrules a1) in
  let r1 := firstn n r0 ++ map (shift n) (firstn (nst o) (nrules o)) ++ skipn (n + nst o) r0 in
  let r2 := push 0 (eps_edge 1) r1 in
  let r3 := push 0 (eps_edge n) r2 in
  let m := n + nst o in
  let r4 := push (naccept a1) (eps_edge m) r3 in
  let r5 := push (m - 1) (eps_edge m) r4 in
  MkNfa (S m) r5 m.

(** Lines 498-511. *)
Definition nfa_concat (a o : nfa) : nfa :=
  let n := nst a in
  let r0 := resize_rows (n + nst o + 1) (nrules a) in
  let r1 := push (naccept a) (eps_edge n) r0 in
  let r2 := firstn n r1 ++ map (shift n) (firstn (nst o) (nrules o)) ++ skipn (n + nst o) r1 in
  MkNfa (n + nst o) r2 (naccept o + n).

(** Lines 512-520. *)
Definition nfa_star (a : nfa) : nfa :=
  let n := nst a in
  let r1 := push (naccept a) (eps_edge 0) (nrules a) in
  let r2 := push 0 (eps_edge n) r1 in
  MkNfa (S n) (resize_rows (S n) r2) n.

(** Bit arrays. *)
Definition getb (b : bits) (i : nat) : bool := nth i b false.
Definition setb (b : bits) (i : nat) : bits := upd b i (fun _ => true).
Definition zeros (n : nat) : bits := repeat false n.
(** Indices of set bits in ascending order. *)
Definition ones (b : bits) : list nat := filter (getb b) (seq 0 (length b)).

(** Inner loop of closure, lines 533-540: edges of one state. *)
Fixpoint closure_row (r : row) (s : bits) (todo : list nat) : bits * list nat :=
  match r with
  | [] => (s, todo)
  | (c, t) :: r' =>
    if c_eps C c && negb (getb s t) then closure_row r' (setb s t) (t :: todo)
    else closure_row r' s todo
  end.
(** Lines 521-543: closure; the stack is a list, top first. *)
Fixpoint closure_loop (fuel : nat) (rules : list row) (s : bits) (todo : list nat) : option bits :=
  match todo with
  | [] => Some s
  | x :: todo' =>
    match fuel with
    | O => None
    | S f => let '(s', t') := closure_row (rowof rules x) s todo' in closure_loop f rules s' t'
    end
  end.
Definition closure (a : nfa) (s : bits) : option bits :=
  closure_loop (nst a) (nrules a) s (rev (ones s)).

(** Lines 544-550. *)
Definition vecUnion (a b : bits) : bits := map (fun p => fst p || snd p) (combine a b).

Notation pentry := (cs * bits)%type.

(** Lines 571-580: the first pair (i, j), j < i, of overlapping non-epsilon
    entries. *)
Definition overlap (p q : pentry) : bool :=
  negb (c_eps C (fst p)) && negb (c_eps C (fst q)) && negb (c_isempty C (c_inter C (fst p) (fst q))).
Fixpoint find_j (e : pentry) (l : list pentry) (j : nat) : option nat :=
  match l with
  | [] => None
  | p :: r => if overlap e p then Some j else find_j e r (S j)
  end.
Fixpoint find_ij (before after : list pentry) (i : nat) : option (nat * nat) :=
  match after with
  | [] => None
  | e :: r =>
    match find_j e before 0 with
    | Some j => Some (i, j)
    | None => find_ij (before ++ [e]) r (S i)
    end
  end.

(** Lines 582-609: one splitting step at (i, j). *)
Definition split_at (d : pentry) (pr : list pentry) (i j : nat) : list pentry :=
  let pi := nth i pr d in let pj := nth j pr d in
  let inter := c_inter C (fst pi) (fst pj) in
  let diff1 := c_diff C (fst pi) inter in
  let diff2 := c_diff C (fst pj) inter in
  let pr1 := upd pr i (fun _ => (inter, vecUnion (snd pi) (snd pj))) in
  if c_isempty C diff1 then
    if c_isempty C diff2 then removelast (upd pr1 j (fun _ => last pr1 d))
    else upd pr1 j (fun _ => (diff2, snd pj))
  else
    let pr2 := upd pr1 j (fun _ => (diff1, snd pi)) in
    if c_isempty C diff2 then pr2 else pr2 ++ [(diff2, snd pj)].

Fixpoint split_loop (fuel : nat) (pr : list pentry) : option (list pentry) :=
  match find_ij [] pr 0 with
  | None => Some pr
  | Some (i, j) =>
    match fuel with
    | O => None
    | S f => split_loop f (split_at (c_epsset C, []) pr i j)
    end
  end.

(** Lines 551-567: the initial list: nstates default entries, then one entry
    per edge leaving the set. *)
Definition follow_init (a : nfa) (s : bits) : list pentry :=
  repeat (c_epsset C, []) (nst a)
  ++ flat_map (fun i => map (fun e => (fst e, setb (zeros (nst a)) (snd e))) (rowof (nrules a) i)) (ones s).
Definition follow (fuel : nat) (a : nfa) (s : bits) : option (list pentry) :=
  split_loop fuel (follow_init a s).

(** Lines 77-86. *)
Record dfa := MkDfa { dst : nat; drules : list row; daccept : list nat; dactions : nat }.

Definition bits_eqb (a b : bits) : bool := if list_eq_dec Bool.bool_dec a b then true else false.
Definition inb (b : bits) (l : list bits) : bool := existsb (bits_eqb b) l.

(** The map from state sets to transition lists, lines 621 and 641. *)
Fixpoint add_rules (x : bits) (es : list pentry) (m : list (bits * list pentry)) : list (bits * list pentry) :=
  match m with
  | [] => [(x, es)]
  | (y, l) :: r => if bits_eqb x y then (y, l ++ es) :: r else (y, l) :: add_rules x es r
  end.

(** Lines 634-643: the transitions of one set: closures of the targets. *)
Fixpoint close_all (a : nfa) (l : list pentry) : option (list pentry) :=
  match l with
  | [] => Some []
  | (c, v) :: r =>
    if c_eps C c then close_all a r
    else do n <- closure a v; do r' <- close_all a r; Some ((c, n) :: r')
  end.
(** The pushes of line 640 (stack, top first). *)
Fixpoint push_new (es : list pentry) (states todo : list bits) : list bits :=
  match es with
  | [] => todo
  | (_, n) :: r => push_new r states (if inb n states then todo else n :: todo)
  end.
(** Lines 627-645. *)
Fixpoint dfa_loop (fuel ffuel : nat) (a : nfa) (states : list bits) (m : list (bits * list pentry)) (todo : list bits)
  : option (list bits * list (bits * list pentry)) :=
  match todo with
  | [] => Some (states, m)
  | x :: todo' =>
    match fuel with
    | O => None
    | S f =>
      let states' := if inb x states then states else states ++ [x] in
      do fo <- follow ffuel a x;
      do es <- close_all a fo;
      dfa_loop f ffuel a states' (add_rules x es m) (push_new es states' todo')
    end
  end.

(** Lines 650-660: numbering of the sets in the iteration order [ord] of the
    unordered_set; [first] is *states.begin(). *)
Definition numbering := list (bits * nat).
Fixpoint set_num (s : bits) (n : nat) (st : numbering) : numbering :=
  match st with
  | [] => [(s, n)]
  | (y, k) :: r => if bits_eqb s y then (y, n) :: r else (y, k) :: set_num s n r
  end.
Fixpoint number (start first : bits) (ord : list bits) (cnt : nat) (st : numbering) : numbering :=
  match ord with
  | [] => st
  | i :: r =>
    let st' := if bits_eqb i start && negb (Nat.eqb cnt 0)
               then set_num i 0 (set_num first cnt st) else set_num i cnt st in
    number start first r (S cnt) st'
  end.
Fixpoint lookup_num (s : bits) (st : numbering) : nat :=
  match st with
  | [] => 0
  | (y, k) :: r => if bits_eqb s y then k else lookup_num s r
  end.

(** Lines 662-672: the first accepting state in the set, as action number. *)
Fixpoint first_accept (s : bits) (acc : nat) (l : list nat) : nat :=
  match l with
  | [] => 0
  | j :: r => if getb s j then j - acc + 1 else first_accept s acc r
  end.

(** Lines 618-682.  [ord] is the (arbitrary) iteration order of the hash
    set.  The loops over the hash maps [st] and [rules] write each key once;
    they are modelled in insertion order. *)
Definition dfa_of (fuel ffuel : nat) (ord : list bits -> list bits) (a : nfa) : option dfa :=
  do start <- closure a (setb (zeros (nst a)) 0);
  do (states, m) <- dfa_loop fuel ffuel a [] [] [start];
  let o := ord states in
  let st := number start (hd start o) o 0 [] in
  let n := length states in
  let acc := fold_left (fun ac p => upd ac (snd p) (fun _ => first_accept (fst p) (naccept a) (seq (naccept a) (nst a - naccept a))))
                       st (repeat 0 n) in
  let rl := fold_left (fun ru p => upd ru (lookup_num (fst p) st)
                         (fun r => r ++ map (fun e => (fst e, lookup_num (snd e) st)) (snd p)))
                      m (repeat [] n) in
  Some (MkDfa n rl acc (nst a - naccept a)).

(** Lines 167-184: DFA::accepts; the rule taken is the first one accepting. *)
Fixpoint first_rule (r : row) (x : N) : option nat :=
  match r with
  | [] => None
  | (c, t) :: r' => if c_acc C c x then Some t else first_rule r' x
  end.
Fixpoint dfa_run (d : dfa) (q : nat) (w : list N) : option nat :=
  match w with
  | [] => Some q
  | x :: w' => match first_rule (rowof (drules d) q) x with
               | Some q' => dfa_run d q' w'
               | None => None
               end
  end.
Definition dacc (d : dfa) (q : nat) : nat := nth q (daccept d) 0.
Definition dfa_accepts (d : dfa) (w : list N) : nat :=
  match dfa_run d 0 w with Some q => dacc d q | None => 0 end.

(** Lines 218-246: filterStates. *)
Definition kept (active : bits) (n : nat) : list nat := filter (getb active) (seq 0 n).
(** mapping[i] = number of kept states before i *)
Definition mapping (active : bits) (i : nat) : nat := length (kept active i).
Definition filterStates (active : bits) (d : dfa) : dfa :=
  let ks := kept active (dst d) in
  MkDfa (length ks)
    (map (fun i => map (fun e => (fst e, mapping active (snd e)))
                       (filter (fun e => getb active (snd e)) (rowof (drules d) i))) ks)
    (map (dacc d) ks) (dactions d).

(** Lines 248-268. *)
Fixpoint arrive_row (r : row) (s : bits) (todo : list nat) : bits * list nat :=
  match r with
  | [] => (s, todo)
  | (_, t) :: r' => if getb s t then arrive_row r' s todo else arrive_row r' (setb s t) (t :: todo)
  end.
Fixpoint arrive_loop (fuel : nat) (rules : list row) (s : bits) (todo : list nat) : option bits :=
  match todo with
  | [] => Some s
  | x :: todo' =>
    match fuel with
    | O => None
    | S f => let '(s', t') := arrive_row (rowof rules x) s todo' in arrive_loop f rules s' t'
    end
  end.
Definition elim_unarrivable (d : dfa) : option dfa :=
  do s <- arrive_loop (dst d) (drules d) (setb (zeros (dst d)) 0) [0];
  Some (filterStates s d).

(** Lines 270-297: sweeps until nothing changes. *)
Fixpoint active_sweep (rules : list row) (l : list nat) (s : bits) (changed : bool) : bits * bool :=
  match l with
  | [] => (s, changed)
  | i :: r =>
    if negb (getb s i) && existsb (fun e => getb s (snd e)) (rowof rules i)
    then active_sweep rules r (setb s i) true
    else active_sweep rules r s changed
  end.
Fixpoint active_loop (fuel : nat) (rules : list row) (n : nat) (s : bits) : option bits :=
  match fuel with
  | O => None
  | S f => let '(s', ch) := active_sweep rules (seq 0 n) s false in
           if ch then active_loop f rules n s' else Some s'
  end.
Definition elim_inactive (d : dfa) : option dfa :=
  do s <- active_loop (S (dst d)) (drules d) (dst d) (map (fun i => negb (Nat.eqb (dacc d i) 0)) (seq 0 (dst d)));
  Some (filterStates s d).

(** Lines 299-307. *)
Definition group_sets (ng : nat) (groups : list nat) (r : row) (init : cs) : list cs :=
  fold_left (fun v e => upd v (nth (snd e) groups 0) (fun s => c_unite C s (fst e))) r (repeat init ng).
Fixpoint sets_eqb (a b : list cs) : bool :=
  match a, b with
  | [], [] => true
  | x :: a', y :: b' => c_eqb C x y && sets_eqb a' b'
  | _, _ => false
  end.
Definition sameGroup (d : dfa) (ng : nat) (groups : list nat) (x y : nat) : bool :=
  sets_eqb (group_sets ng groups (rowof (drules d) x) (c_epsset C))
           (group_sets ng groups (rowof (drules d) y) (c_epsset C)).

(** Lines 312-315: initial groups by action (numbers modulo numActions+1,
    relative to the action of state 0). *)
Definition init_group (d : dfa) (i : nat) : nat :=
  let g := S (dactions d) in (dacc d i + g - dacc d 0) mod g.
Definition init_grinv (d : dfa) : list (list nat) :=
  map (fun g => filter (fun i => Nat.eqb (init_group d i) g) (seq 0 (dst d))) (seq 0 (S (dactions d))).

(** Lines 320-322: groups from grinv. *)
Definition groups_of (n : nat) (grinv : list (list nat)) (old : list nat) : list nat :=
  fst (fold_left (fun (acc : list nat * nat) g =>
                    (fold_left (fun l i => upd l i (fun _ => snd acc)) g (fst acc), S (snd acc)))
                 grinv (old, 0)).
(** Lines 325-338: regrouping by first occurrence. *)
Fixpoint place (same : nat -> nat -> bool) (i : nat) (gs : list (list nat)) : list (list nat) :=
  match gs with
  | [] => [[i]]
  | g :: r => if same (hd 0 g) i then (g ++ [i]) :: r else g :: place same i r
  end.
Definition regroup (d : dfa) (ng : nat) (groups : list nat) : list (list nat) :=
  fold_left (fun gs i =>
    place (fun x y => Nat.eqb (nth x groups 0) (nth y groups 0) && sameGroup d ng groups x y) i gs)
    (seq 0 (dst d)) [].
(** Lines 316-340: do ... while(ongroups != grinv.size()); result: the OLD
    groups and the number of new groups. *)
Fixpoint min_loop (fuel : nat) (d : dfa) (grinv : list (list nat)) (old : list nat) : option (list nat * nat) :=
  match fuel with
  | O => None
  | S f =>
    let groups := groups_of (dst d) grinv old in
    let grinv' := regroup d (length grinv) groups in
    if Nat.eqb (length grinv) (length grinv') then Some (groups, length grinv')
    else min_loop f d grinv' groups
  end.
(** Lines 341-361: the quotient automaton. *)
Definition merge_row (n : nat) (r : row) : row :=
  let m := fold_left (fun v e => upd v (snd e) (fun s => c_unite C s (fst e))) r (repeat (c_none C) n) in
  filter (fun e => negb (c_isempty C (fst e))) (combine m (seq 0 n)).
Definition quotient (d : dfa) (groups : list nat) (n : nat) : dfa :=
  let acc := fold_left (fun ac i => upd ac (nth i groups 0) (fun _ => dacc d i)) (seq 0 (dst d)) (repeat 0 n) in
  let rl := fold_left (fun ru i => upd ru (nth i groups 0)
              (fun r => r ++ map (fun e => (fst e, nth (snd e) groups 0)) (rowof (drules d) i)))
              (seq 0 (dst d)) (repeat [] n) in
  MkDfa n (map (merge_row n) rl) acc (dactions d).
(** Lines 308-364.  An automaton without states (empty language) makes
    [accept[0]] undefined: fault. *)
Definition minimize (d : dfa) : option dfa :=
  do d1 <- elim_unarrivable d;
  do d2 <- elim_inactive d1;
  if Nat.eqb (dst d2) 0 then None
  else
    do (groups, n) <- min_loop (S (S (dst d2))) d2 (init_grinv d2) (repeat 0 (dst d2));
    do d3 <- elim_unarrivable (quotient d2 groups n);
    elim_inactive d3.

(** Lines 886-910: DFA::nfa. *)
Definition nfa_of (d : dfa) : nfa :=
  if Nat.eqb (dst d) 0 then nfa_empty
  else
    let top := fold_left (fun m i => Nat.max m (dst d + dacc d i)) (seq 0 (dst d)) (dst d) in
    let n := if Nat.eqb top (dst d) then S (dst d) else top in
    MkNfa n
      (map (fun i => rowof (drules d) i ++ (if Nat.eqb (dacc d i) 0 then [] else [eps_edge (dst d + dacc d i - 1)])) (seq 0 (dst d))
       ++ repeat [] (n - dst d))
      (dst d).

(** Lines 839-868: complement. *)
Definition missing (r : row) : cs :=
  fold_left (fun s e => c_inter C s (c_neg C (fst e))) r (c_full C).
Definition complete (d : dfa) : dfa :=
  let sink := dst d in
  let rl := drules d ++ [[(c_full C, sink)]] in
  MkDfa (S sink)
    (map (fun r => if c_isempty C (missing r) then r else r ++ [(missing r, sink)]) rl)
    (map (fun x => if Nat.eqb x 0 then 1 else 0) (daccept d) ++ [1])
    (dactions d).
Definition nfa_negate (fuel ffuel : nat) (ord : list bits -> list bits) (a : nfa) : option nfa :=
  do d <- dfa_of fuel ffuel ord a;
  do d1 <- elim_unarrivable (complete d);
  do d2 <- elim_inactive d1;
  Some (nfa_of d2).

(** Lines 869-877 and 878-882. *)
Definition nfa_and (fuel ffuel : nat) (ord : list bits -> list bits) (a o : nfa) : option nfa :=
  do o1 <- nfa_negate fuel ffuel ord o;
  do a1 <- nfa_negate fuel ffuel ord a;
  nfa_negate fuel ffuel ord (nfa_or a1 o1).
Definition nfa_but (fuel ffuel : nat) (ord : list bits -> list bits) (a o : nfa) : option nfa :=
  do a1 <- nfa_negate fuel ffuel ord a;
  nfa_negate fuel ffuel ord (nfa_or a1 o).

(** Lines 1155-1168: word(s): the empty word extended by one-character sets;
    [s] is the string converted to the code units of the codec. *)
Definition nfa_word (s : list N) : nfa :=
  fold_left (fun a x => nfa_concat a (nfa_set (c_char C x))) s nfa_emptyWord.
End M.

Arguments nfa : clear implicits. Arguments dfa : clear implicits.
Arguments MkNfa {C}. Arguments nst {C}. Arguments nrules {C}. Arguments naccept {C}.
Arguments MkDfa {C}. Arguments dst {C}. Arguments drules {C}. Arguments daccept {C}. Arguments dactions {C}.

(** The instances.  The loops of SeqCharSet return [option]; the theorems of
    CharSetProps show that they never run out of fuel or range on
    well-formed sets, so [None] is mapped to the empty set here. *)
Definition ogets (o : option seqset) : seqset := match o with Some s => s | None => seq_empty end.
Definition seq_cset (sz : N) : cset := {|
  car := seqset; c_size := sz;
  c_eps := seps; c_isempty := seq_isempty;
  c_acc := fun s x => match seq_accepts s x with Some b => b | None => false end;
  c_inter := fun a b => ogets (seq_intersection a b);
  c_diff := fun a b => ogets (seq_difference a b);
  c_unite := fun a b => ogets (seq_unite a b);
  c_neg := seq_negate sz; c_full := seq_full sz; c_epsset := seq_epsilon; c_none := seq_empty;
  c_char := seq_char; c_eqb := seq_eqb;
  c_branch := fun tr x => match seq_condition sz tr with Some c => exec x c | None => None end |}.
Definition tab_cset (sz : N) : cset := {|
  car := tabset; c_size := sz;
  c_eps := teps; c_isempty := tab_isempty sz;
  c_acc := fun s x => match tab_accepts sz s x with Some b => b | None => false end;
  c_inter := tab_intersection; c_diff := tab_difference; c_unite := tab_union;
  c_neg := tab_negate; c_full := tab_full; c_epsset := tab_epsilon; c_none := tab_empty;
  c_char := fun c => MkTab (fun y => N.eqb y c) false;
  c_eqb := tab_eqb sz;
  c_branch := fun tr x => exec_switch x (tab_condition sz tr) |}.
