(** Model of SeqCharSet, TableCharSet and CharSetCondition
    (/repo/src/kdev-pg-regexp-helper.h lines 65-637).
    [sz] is Codec2Size<codec>::value (/repo/src/include/kdev-pg-char-sets.h
    lines 120-150).  Simplification: values of type Codec2Int<codec>::Result
    are unbounded naturals; all values stored are <= sz, which fits the type
    of every codec (uchar 128, quint16 256, quint32 otherwise), see the
    [bounded] results in CharSetProps. *)
From Coq Require Import List NArith Lia Bool PeanoNat.
From Verif Require Import Base.
Import ListNotations.
Local Open Scope N_scope.

Notation range_list := (list (N * N)).

(** Lines 70-77. *)
Record seqset := MkSeq { sdata : range_list; seps : bool }.

(** Lines 79-92, after the conversion to the codec and the sort: [str] is the
    sorted list of code units.  [last] starts as -1, never equal to a unit. *)
Fixpoint of_sorted (str : list N) (cur : N * N) : range_list :=
  match str with
  | [] => [cur]
  | x :: r => if x =? snd cur then of_sorted r (fst cur, snd cur + 1)
              else cur :: of_sorted r (x, x + 1)
  end.
Definition seq_chars (str : list N) : seqset :=
  MkSeq (match str with [] => [] | x :: r => of_sorted r (x, x + 1) end) false.

(** Lines 93-123. *)
Definition seq_char (c : N) : seqset := MkSeq [(c, c + 1)] false.
Definition seq_epsilon : seqset := MkSeq [] true.
Definition seq_full (sz : N) : seqset := MkSeq [(0, sz)] false.
Definition seq_range (b e : N) : seqset := MkSeq (if b <? e then [(b, e)] else []) false.
Definition seq_empty : seqset := MkSeq [] false.

(** Line 133-136. *)
Definition seq_isempty (s : seqset) : bool := match sdata s with [] => true | _ => false end.

(** Lines 137-153: binary search; [None] = vector access out of range or no
    fuel. *)
Fixpoint bsearch (fuel : nat) (d : range_list) (l r : nat) (x : N) : option bool :=
  if Nat.eqb l r then Some false
  else match fuel with
  | O => None
  | S f =>
    let m := Nat.div2 (l + r) in
    do p <- nth_error d m;
    if fst p <=? x then
      if x <? snd p then Some true else bsearch f d (S m) r x
    else bsearch f d l m x
  end.
Definition seq_accepts (s : seqset) (x : N) : option bool :=
  bsearch (length (sdata s)) (sdata s) 0 (length (sdata s)) x.

(** Lines 154-176.  The positions tpos, opos are modelled by the remaining
    lists; output in order of push_back; [fuel] = number of iterations. *)
Fixpoint inter_loop (fuel : nat) (t o : range_list) : option range_list :=
  match t, o with
  | (tf, ts) :: t', (of, os) :: o' =>
    match fuel with
    | O => None
    | S f =>
      if os <=? tf then inter_loop f t o'
      else if ts <=? of then inter_loop f t' o
      else
        do r <- (if os <? ts then inter_loop f t o' else inter_loop f t' o);
        Some ((N.max of tf, N.min os ts) :: r)
    end
  | _, _ => Some []
  end.
Definition seq_intersection (a b : seqset) : option seqset :=
  do d <- inter_loop (length (sdata a) + length (sdata b)) (sdata a) (sdata b);
  Some (MkSeq d false).

(** Lines 182-220. *)
Fixpoint neg_from0 (sz : N) (d : range_list) : range_list :=
  match d with
  | [] => []
  | [(a, b)] => if b =? sz then [] else [(b, sz)]
  | (_, b) :: (((a', _) :: _) as r) => (b, a') :: neg_from0 sz r
  end.
(** Lines 203-216: the swap loop; the test of line 213 reads the already
    exchanged bound of the last element, which is its old [first]. *)
Fixpoint neg_swap (sz : N) (tmp : N) (d : range_list) : range_list :=
  match d with
  | [] => []
  | [(a, b)] => (tmp, a) :: (if a =? sz then [] else [(b, sz)])
  | (a, b) :: r => (tmp, a) :: neg_swap sz b r
  end.
Definition seq_negate (sz : N) (s : seqset) : seqset :=
  if seps s then s
  else MkSeq (match sdata s with
              | [] => [(0, sz)]
              | (a, _) :: _ => if a =? 0 then neg_from0 sz (sdata s) else neg_swap sz 0 (sdata s)
              end) false.

(** Lines 221-297. *)
Fixpoint diff_loop (fuel : nat) (t o : range_list) (inT inO : bool) (start : N)
  : option range_list :=
  match t, o with
  | (tf, ts) :: t', (of, os) :: o' =>
    match fuel with
    | O => None
    | S f =>
      if inT then
        if inO then
          if ts <=? os then diff_loop f t' o false true start
          else diff_loop f t o' true false os
        else
          if ts <=? of then
            do r <- diff_loop f t' o false false start;
            Some (if start =? ts then r else (start, ts) :: r)
          else
            do r <- diff_loop f t o true true start;
            Some (if start <? of then (start, of) :: r else r)
      else
        if inO then
          if os <=? tf then diff_loop f t o' false false start
          else diff_loop f t o true true os
        else
          if tf <? of then diff_loop f t o true false tf
          else diff_loop f t o false true start
    end
  | _, _ =>
    if inT then match t with
                | [] => None
                | (_, ts) :: t' => Some ((start, ts) :: t')
                end
    else Some t
  end.
Definition seq_difference (a b : seqset) : option seqset :=
  do d <- diff_loop (3 * (length (sdata a) + length (sdata b))) (sdata a) (sdata b) false false 0;
  Some (MkSeq d false).

(** Lines 298-377. *)
Fixpoint union_loop (fuel : nat) (t o : range_list) (inT inO : bool) (start : N)
  : option range_list :=
  match t, o with
  | (tf, ts) :: t', (of, os) :: o' =>
    match fuel with
    | O => None
    | S f =>
      if inT then
        if inO then
          if ts <=? os then union_loop f t' o false true start
          else union_loop f t o' true false start
        else
          if ts <? of then
            do r <- union_loop f t' o false false start;
            Some (if start =? ts then r else (start, ts) :: r)
          else union_loop f t o true true start
      else
        if inO then
          if os <? tf then
            do r <- union_loop f t o' false false start;
            Some (if start =? os then r else (start, os) :: r)
          else union_loop f t o true true start
        else
          if tf <? of then union_loop f t o true false tf
          else union_loop f t o false true of
    end
  | _, _ =>
    do rt <- (if inT then match t with
                          | [] => None
                          | (_, ts) :: t' => Some ((start, ts) :: t')
                          end
              else Some t);
    do ro <- (if inO then match o with
                          | [] => None
                          | (_, os) :: o' => Some ((start, os) :: o')
                          end
              else Some o);
    Some (rt ++ ro)
  end.
Definition seq_union (a b : seqset) : option seqset :=
  do d <- union_loop (3 * (length (sdata a) + length (sdata b))) (sdata a) (sdata b) false false 0;
  Some (MkSeq d false).

(** Lines 378-382: unite keeps the epsilon flag of the receiver. *)
Definition seq_unite (a b : seqset) : option seqset :=
  do u <- seq_union a b; Some (MkSeq (sdata u) (seps a)).

(** Lines 383-386. *)
Fixpoint ranges_eqb (a b : range_list) : bool :=
  match a, b with
  | [], [] => true
  | (p, q) :: a', (p', q') :: b' => (p =? p') && (q =? q') && ranges_eqb a' b'
  | _, _ => false
  end.
Definition seq_eqb (a b : seqset) : bool :=
  Bool.eqb (seps a) (seps b) && ranges_eqb (sdata a) (sdata b).

(** ** TableCharSet, lines 421-525.  The std::bitset is a function; reading or
    writing at an index >= sz is a fault ([None]). *)
Record tabset := MkTab { tdata : N -> bool; teps : bool }.

Definition tab_empty : tabset := MkTab (fun _ => false) false.
Definition tab_epsilon : tabset := MkTab (fun _ => false) true.
Definition tab_full : tabset := MkTab (fun _ => true) false.
(** Lines 437-446: string constructor. *)
Fixpoint tab_chars_loop (sz : N) (str : list N) (d : N -> bool) : option (N -> bool) :=
  match str with
  | [] => Some d
  | x :: r => if x <? sz then tab_chars_loop sz r (fun y => if y =? x then true else d y) else None
  end.
Definition tab_chars (sz : N) (str : list N) : option tabset :=
  do d <- tab_chars_loop sz str (fun _ => false); Some (MkTab d false).
(** Lines 466-474: the loop from begin to end. *)
Definition tab_range (sz b e : N) : option tabset :=
  if b <? e then
    if e <=? sz then Some (MkTab (fun y => (b <=? y) && (y <? e)) false) else None
  else Some tab_empty.
Definition tab_negate (s : tabset) : tabset := MkTab (fun y => negb (tdata s y)) (teps s).
Definition tab_accepts (sz : N) (s : tabset) (x : N) : option bool :=
  if x <? sz then Some (tdata s x) else None.
Definition tab_intersection (a b : tabset) : tabset := MkTab (fun y => tdata a y && tdata b y) (teps a).
Definition tab_difference (a b : tabset) : tabset := MkTab (fun y => negb (tdata b y) && tdata a y) (teps b).
Definition tab_union (a b : tabset) : tabset := MkTab (fun y => tdata a y || tdata b y) (teps a).
(** All indices below sz, in order (lines 555-559 iterate over them). *)
Definition below (sz : N) : list N := map N.of_nat (seq 0 (N.to_nat sz)).
Definition tab_isempty (sz : N) (s : tabset) : bool := forallb (fun i => negb (tdata s i)) (below sz).
Definition tab_eqb (sz : N) (a b : tabset) : bool :=
  Bool.eqb (teps a) (teps b) && forallb (fun i => Bool.eqb (tdata a i) (tdata b i)) (below sz).

(** ** Generated branch code.  Abstract syntax of the emitted C++ text. *)
Inductive cond := CEq (n : N) | CLt (n : N) | CGe (n : N) | COr (n m : N) | CRange (a b : N).
Inductive code := GotoEnd | GotoState (s : nat) | If (c : cond) (a b : code).

Definition eval_cond (chr : N) (c : cond) : bool :=
  match c with
  | CEq n => chr =? n
  | CLt n => chr <? n
  | CGe n => n <=? chr
  | COr n m => (chr =? n) || (chr =? m)
  | CRange a b => (a <=? chr) && (chr <? b)
  end.
(** [Some s] = jump to state s, [None] = jump to _end. *)
Fixpoint exec (chr : N) (p : code) : option nat :=
  match p with
  | GotoEnd => None
  | GotoState s => Some s
  | If c a b => if eval_cond chr c then exec chr a else exec chr b
  end.

Notation entry := ((N * N) * nat)%type.

(** Lines 575-625.  [second - 1], [second - 2] are computed in Int; for
    uchar/quint16 they are promoted to int, for quint32 they wrap: the tests
    below only differ for an empty range, excluded by the theorems. *)
Fixpoint codegen (fuel : nat) (data : list entry) (l r : nat) (tmin tmax : N) : option code :=
  if Nat.eqb l r then Some GotoEnd
  else if Nat.eqb r (S l) then
    do (a, b, s) <- nth_error data l;
    Some (if a =? tmin then
            if b =? tmax then GotoState s
            else If (if b =? a + 1 then CEq a else CLt b) (GotoState s) GotoEnd
          else
            if b =? tmax then If (if b =? a + 1 then CEq a else CGe a) (GotoState s) GotoEnd
            else If (if b =? a + 1 then CEq a
                     else if b =? a + 2 then COr a (a + 1) else CRange a b)
                    (GotoState s) GotoEnd)
  else match fuel with
  | O => None
  | S f =>
    let mid := Nat.div2 (l + r) in
    do (m, _, _) <- nth_error data mid;
    do c1 <- codegen f data l mid tmin m;
    do c2 <- codegen f data mid r m tmax;
    Some (If (CLt m) c1 c2)
  end.

(** std::sort of the entries by operator< of pair<pair<Int,Int>,size_t>
    (line 635); the order is total, so the result is determined. *)
Definition entry_leb (x y : entry) : bool :=
  let '(a, b, s) := x in let '(a', b', s') := y in
  if a <? a' then true else if a' <? a then false
  else if b <? b' then true else if b' <? b then false
  else Nat.leb s s'.
Fixpoint insert (e : entry) (l : list entry) : list entry :=
  match l with
  | [] => [e]
  | h :: r => if entry_leb e h then e :: l else h :: insert e r
  end.
Fixpoint sort (l : list entry) : list entry :=
  match l with [] => [] | e :: r => insert e (sort r) end.

(** Lines 627-637. *)
Definition seq_condition (sz : N) (tr : list (seqset * nat)) : option code :=
  let data := sort (flat_map (fun p => map (fun x => (x, snd p)) (sdata (fst p))) tr) in
  codegen (length data) data 0 (length data) 0 sz.

(** Lines 547-566: the switch; one group of case labels per non-empty
    transition.  Duplicate labels do not compile. *)
Definition tab_condition (sz : N) (tr : list (tabset * nat)) : list (list N * nat) :=
  flat_map (fun p => if tab_isempty sz (fst p) then []
                     else [(filter (tdata (fst p)) (below sz), snd p)]) tr.
Definition labels (sw : list (list N * nat)) : list N := flat_map fst sw.
Fixpoint exec_switch (chr : N) (sw : list (list N * nat)) : option nat :=
  match sw with
  | [] => None
  | (ls, s) :: r => if existsb (N.eqb chr) ls then Some s else exec_switch chr r
  end.
