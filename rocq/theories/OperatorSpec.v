(** What an operator expression is, and which tree it means. *)
From Coq Require Import List NArith PeanoNat Bool.
From Verif Require Import OperatorModel.
Import ListNotations.

(** A tree with the addresses of its AST nodes and the positions of its tokens.
    An infix operator: priority and whether it is left associative. *)
Definition inf := (N * bool)%type.
Inductive tree :=
| TBase (a i j : nat)                                     (* an operand, tokens i ... j-1 *)
| TPar (i : nat) (t : tree) (j : nat)                     (* ( t ) *)
| TPre (a : nat) (p : N) (i : nat) (t : tree)
| TPost (a : nat) (m : inf) (t : tree) (k : nat)
| TBin (a : nat) (m : inf) (l : tree) (k : nat) (r : tree)
| TTern (a : nat) (m : inf) (l : tree) (k : nat) (t : tree) (k2 : nat) (r : tree).
(** The first and the last token. *)
Fixpoint tlo (t : tree) : nat :=
  match t with TBase _ i _ | TPar i _ _ | TPre _ _ i _ => i | TPost _ _ t _ | TBin _ _ t _ _ | TTern _ _ t _ _ _ _ => tlo t end.
Fixpoint thi (t : tree) : nat :=
  match t with TBase _ _ j => j - 1 | TPar _ _ j => j | TPre _ _ _ t => thi t | TPost _ _ _ k => k | TBin _ _ _ _ r => thi r | TTern _ _ _ _ _ _ r => thi r end.
Fixpoint raddr (t : tree) : nat :=
  match t with TBase a _ _ | TPre a _ _ _ | TPost a _ _ _ | TBin a _ _ _ _ | TTern a _ _ _ _ _ _ => a | TPar _ t _ => raddr t end.
(** The addresses of the AST nodes: parentheses have none. *)
Fixpoint addrs (t : tree) : list nat :=
  match t with
  | TBase a _ _ => [a]
  | TPar _ t _ => addrs t
  | TPre a _ _ t | TPost a _ t _ => a :: addrs t
  | TBin a _ l _ r => a :: addrs l ++ addrs r
  | TTern a _ l _ t _ r => a :: addrs l ++ addrs t ++ addrs r
  end.
(** The same tree in other memory. *)
Fixpoint bare (t : tree) : tree :=
  match t with
  | TBase _ i j => TBase 0 i j
  | TPar i t j => TPar i (bare t) j
  | TPre _ p i t => TPre 0 p i (bare t)
  | TPost _ m t k => TPost 0 m (bare t) k
  | TBin _ m l k r => TBin 0 m (bare l) k (bare r)
  | TTern _ m l k t k2 r => TTern 0 m (bare l) k (bare t) k2 (bare r)
  end.

(** The AST nodes at [t] are those of the tree: kinds, children, first and last
    token; parentheses count for the node they enclose. *)
Fixpoint ast (h : nat -> cell) (t : tree) (lo hi : nat) : Prop :=
  match t with
  | TBase a _ _ => ck (h a) = KBase /\ cs (h a) = lo /\ ce (h a) = hi
  | TPar _ t _ => ast h t lo hi
  | TPre a _ _ t => ck (h a) = KPre /\ c1 (h a) = Some (raddr t) /\ cs (h a) = lo /\ ce (h a) = hi /\ ast h t (tlo t) (thi t)
  | TPost a _ t _ => ck (h a) = KPost /\ c1 (h a) = Some (raddr t) /\ cs (h a) = lo /\ ce (h a) = hi /\ ast h t (tlo t) (thi t)
  | TBin a _ l _ r =>
    ck (h a) = KBin /\ c1 (h a) = Some (raddr l) /\ c2 (h a) = Some (raddr r) /\ cs (h a) = lo /\ ce (h a) = hi /\
    ast h l (tlo l) (thi l) /\ ast h r (tlo r) (thi r)
  | TTern a _ l _ t _ r =>
    ck (h a) = KTern /\ c1 (h a) = Some (raddr l) /\ c2 (h a) = Some (raddr t) /\ c3 (h a) = Some (raddr r) /\ cs (h a) = lo /\ ce (h a) = hi /\
    ast h l (tlo l) (thi l) /\ ast h t (tlo t) (thi t) /\ ast h r (tlo r) (thi r)
  end.
Definition ast_of (h : nat -> cell) (t : tree) : Prop := ast h t (tlo t) (thi t).

(** ** Priorities
    A higher number binds tighter.  [closes m p]: an operator of priority p to the
    left of m is complete when m comes. *)
Definition closes (m : inf) (p : N) : bool := if snd m then (fst m <=? p)%N else (fst m <? p)%N.
(** The operators that still could take more to the right, and those that could
    have taken more to the left. *)
Fixpoint rights (t : tree) : list N :=
  match t with TPre _ p _ t => p :: rights t | TBin _ m _ _ r => fst m :: rights r | TTern _ m _ _ _ _ r => fst m :: rights r | _ => [] end.
Fixpoint lefts (t : tree) : list inf :=
  match t with TPost _ m t _ => m :: lefts t | TBin _ m l _ _ => m :: lefts l | TTern _ m l _ _ _ _ => m :: lefts l | _ => [] end.
Fixpoint ordered (t : tree) : Prop :=
  match t with
  | TBase _ _ _ => True
  | TPar _ t _ => ordered t
  | TPre _ p _ t => ordered t /\ Forall (fun m => closes m p = false) (lefts t)
  | TPost _ m t _ => ordered t /\ Forall (fun p => closes m p = true) (rights t)
  | TBin _ m l _ r =>
    ordered l /\ ordered r /\ Forall (fun p => closes m p = true) (rights l) /\ Forall (fun m' => closes m' (fst m) = false) (lefts r)
  | TTern _ m l _ t _ r =>
    ordered l /\ ordered t /\ ordered r /\ Forall (fun p => closes m p = true) (rights l) /\ Forall (fun m' => closes m' (fst m) = false) (lefts r)
  end.

(** ** Expressions
    [expr i j t]: the tokens i ... j-1 are an expression that can be read as [t].
    If a token can be several things, prefix operators come before parentheses and
    those before operands, postfix operators before binary ones and those before
    ternary ones, and in each table the first entry counts. *)
Section P.
Variable tab : optab.
Variable tok : nat -> nat.
Variable eof : nat.
Variable start : bool.
Variable base : nat -> option nat.
Notation pre_at := (pre_at tab tok).
Notation post_at := (post_at tab tok).
Notation bin_at := (bin_at tab tok).
Notation tern_at := (tern_at tab tok).
Notation paren_at := (paren_at tab tok).
Definition imark (e : infix) (k : nat) : inf := (iprio e k, ileft e k).
Definition tmark (e : tern) (k : nat) : inf := (tprio e k, tleft e k).
(** An expression ends where no operator goes on. *)
Definition ends (j : nat) : Prop := post_at j = None /\ bin_at j = None /\ tern_at j = None /\ (start = true -> tok j = eof).
Inductive expr : nat -> nat -> tree -> Prop :=
| e_base i j a : pre_at i = None -> paren_at i = None -> base i = Some j -> expr i j (TBase a i j)
| e_par i j t o c : pre_at i = None -> paren_at i = Some (o, c) -> expr (S i) j t -> ends j -> here tok c j = true -> expr i (S j) (TPar i t j)
| e_pre i j t a e : pre_at i = Some e -> expr (S i) j t -> expr i j (TPre a (pprio e i) i t)
| e_post i k t a e : expr i k t -> post_at k = Some e -> expr i (S k) (TPost a (imark e k) t k)
| e_bin i k j l r a e : expr i k l -> post_at k = None -> bin_at k = Some e -> expr (S k) j r -> expr i j (TBin a (imark e k) l k r)
| e_tern i k k2 j l t r a e : expr i k l -> post_at k = None -> bin_at k = None -> tern_at k = Some e ->
    expr (S k) k2 t -> ends k2 -> here tok (top2 e) k2 = true -> expr (S k2) j r -> expr i j (TTern a (tmark e k) l k t k2 r).
End P.

(** ** The tables for which the generated parser is right
    Priorities are below 2^32-2; a ternary operator binds at most as tight as any
    other operator and is left associative if there are others as loose; there are
    no postfix operators besides ternary ones. *)
Definition small (tab : optab) : Prop :=
  (forall e p, In e (tpre tab) -> (pprio e p < closed)%N) /\ (forall e p, In e (tpost tab) -> (iprio e p < closed)%N) /\
  (forall e p, In e (tbin tab) -> (iprio e p < closed)%N) /\ (forall e p, In e (ttern tab) -> (tprio e p < closed)%N).
Definition loose (tab : optab) : Prop :=
  forall e p, In e (ttern tab) ->
    (forall e' q, In e' (tpre tab) -> closes (tmark e p) (pprio e' q) = true) /\
    (forall e' q, In e' (tbin tab) -> closes (tmark e p) (iprio e' q) = true) /\
    (forall e' q, In e' (ttern tab) -> closes (tmark e p) (tprio e' q) = true).
Definition good_table (tab : optab) : Prop := small tab /\ loose tab /\ (ttern tab = [] \/ tpost tab = []).
