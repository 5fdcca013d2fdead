(** C58: operator expressions. *)
From Coq Require Import List NArith PeanoNat Bool Lia.
From Verif Require Import OperatorModel OperatorSpec OperatorProofs.
Import ListNotations.

(** What a call may rely on: the parse function of the base symbol consumes at
    least one token. *)
Definition moves (base : nat -> option nat) : Prop := forall i j, base i = Some j -> i < j.
(** The conditions in front of the calls: the tests for FIRST let everything pass
    that can be read (C43). *)
Definition firsts (tab : optab) (tok : nat -> nat) (entry btest : nat -> bool) (base : nat -> option nat) : Prop :=
  (forall p, pre_at tab tok p <> None \/ paren_at tab tok p <> None \/ base p <> None -> entry (tok p) = true) /\
  (forall p, base p <> None -> btest (tok p) = true).
(** The input is finite: after position [n] there are neither operators nor operands. *)
Definition finite (tab : optab) (tok : nat -> nat) (base : nat -> option nat) (n : nat) : Prop :=
  forall p, n <= p -> pre_at tab tok p = None /\ paren_at tab tok p = None /\ base p = None /\ post_at tab tok p = None /\ bin_at tab tok p = None /\ tern_at tab tok p = None.
(** The tokens of a tree from left to right. *)
Fixpoint yield (t : tree) : list nat :=
  match t with
  | TBase _ i j => seq i (j - i)
  | TPar i t j => i :: yield t ++ [j]
  | TPre _ _ i t => i :: yield t
  | TPost _ _ t k => yield t ++ [k]
  | TBin _ _ l k r => yield l ++ k :: yield r
  | TTern _ _ l k t k2 r => yield l ++ k :: yield t ++ k2 :: yield r
  end.
(** The AST with root [n] in [h'], made by a call that started with [h], is the tree [t]:
    new nodes, each used once, and nothing else has changed. *)
Definition built (h h' : heap) (n : nat) (t : tree) : Prop :=
  ast_of (cells h') t /\ raddr t = n /\ NoDup (addrs t) /\ (forall a, In a (addrs t) -> next h <= a < next h') /\ (forall a, a < next h -> cells h' a = cells h a).
Lemma built_mem h h' n t : ast_of (cells h') t /\ raddr t = n /\ mem h h' (addrs t) -> built h h' n t.
Proof. intros (A & B & _ & C & D & E). repeat split; auto; apply D; assumption. Qed.

Section S.
Variable tab : optab.
Variable tok : nat -> nat.
Variable eof : nat.
Variable start : bool.
Variable entry btest : nat -> bool.
Variable base : nat -> option nat.
Notation expr := (expr tab tok eof start base).
Notation ends := (ends tab tok eof start).
Notation parse := (parse tab tok eof start entry btest base).

(** C58.  If the parse function returns true for a table as in [good_table], then the
    tokens that it consumed are an expression, no operator goes on after it, and the
    AST is that of the reading which respects priorities and associativity. *)
Theorem C58_tree_partial fuel h p h' n q : good_table tab -> moves base -> parse fuel h p = Ret h' n q ->
  exists t, expr p q t /\ ends q /\ ordered t /\ built h h' n t.
Proof.
  intros G B E. pose proof (parse_ok tab tok eof start entry btest base G B fuel h p) as K. rewrite E in K. destruct K as (t & X & EN & O & M).
  exists t. split; [exact X|]. split; [exact EN|]. split; [exact O|]. apply built_mem. exact M.
Qed.
(** Each tree of an expression has its tokens in input order. *)
Theorem C58_order i j t : moves base -> expr i j t -> yield t = seq i (j - i) /\ i < j.
Proof.
  intros B. induction 1 as [i j a P1 P2 BB|i j t o c P1 P2 X (IH & L) E HE|i j t a e P X (IH & L)|i k t a e X (IH & L) P|i k j l r a e X1 (IH1 & L1) P1 P2 X2 (IH2 & L2)|i k k2 j l t r a e X1 (IH1 & L1) P1 P2 P3 X2 (IH2 & L2) E HE X3 (IH3 & L3)]; cbn [yield].
  - split; [reflexivity|]. apply B. exact BB.
  - split; [|lia]. rewrite IH. replace (S j - i) with (S ((j - S i) + 1)) by lia. cbn [seq]. rewrite seq_app. cbn [seq]. do 3 f_equal. lia.
  - split; [|lia]. rewrite IH. replace (j - i) with (S (j - S i)) by lia. reflexivity.
  - split; [|lia]. rewrite IH. replace (S k - i) with ((k - i) + 1) by lia. rewrite seq_app. cbn [seq]. do 2 f_equal. lia.
  - split; [|lia]. rewrite IH1, IH2. replace (j - i) with ((k - i) + S (j - S k)) by lia. rewrite seq_app. cbn [seq]. replace (i + (k - i)) with k by lia. reflexivity.
  - split; [|lia]. rewrite IH1, IH2, IH3. replace (j - i) with ((k - i) + S ((k2 - S k) + S (j - S k2))) by lia. rewrite seq_app. cbn [seq]. replace (i + (k - i)) with k by lia.
    rewrite seq_app. cbn [seq]. replace (S k + (k2 - S k)) with k2 by lia. reflexivity.
Qed.
(** Two readings of the tokens from [i] on that respect priorities and associativity,
    and go on as long as there are operators, are the same: so the tree in
    [C58_tree_partial] is the only one. *)
Theorem C58_unique i j j' t t' : expr i j t -> expr i j' t' -> ordered t -> ordered t' -> ends j -> ends j' -> j = j' /\ bare t = bare t'.
Proof. apply expr_unique. Qed.
(** Every expression is accepted and read to its end. *)
Theorem C58_complete_partial h p q t : good_table tab -> moves base -> firsts tab tok entry btest base -> expr p q t -> ends q ->
  exists k h' n t', (forall fuel, k < fuel -> parse fuel h p = Ret h' n q) /\ expr p q t' /\ ordered t' /\ built h h' n t'.
Proof.
  intros G B (F1 & F2) X E. destruct (parse_reads tab tok eof start entry btest base G B F1 F2 h p q t X E) as (k & h' & n & t' & L & X' & O & M).
  exists k, h', n, t'. split; [exact L|]. split; [exact X'|]. split; [exact O|]. apply built_mem. exact M.
Qed.
(** On finite input the call returns: true with the tree if there is an expression,
    and otherwise false. *)
Theorem C58_decides_partial fuel h p m : good_table tab -> moves base -> firsts tab tok entry btest base -> finite tab tok base m -> m - p < fuel ->
  (exists h' n q t, parse fuel h p = Ret h' n q /\ expr p q t /\ ends q /\ ordered t /\ built h h' n t) \/
  (parse fuel h p = No /\ forall q t, expr p q t -> ~ ends q).
Proof.
  intros G B (F1 & F2) FI L. destruct (parse_decides tab tok eof start entry btest base G B F1 F2 m fuel h p FI L) as [(h' & n & q & t & E & X & EN & O & M)|K]; [left|right; exact K].
  exists h', n, q, t. split; [exact E|]. split; [exact X|]. split; [exact EN|]. split; [exact O|]. apply built_mem. exact M.
Qed.
(** No null pointer is followed, no element of an empty stack is used and no member
    that a node does not have. *)
Theorem C58_defined_partial fuel h p : good_table tab -> moves base -> parse fuel h p <> Bad.
Proof. intros G B E. pose proof (parse_ok tab tok eof start entry btest base G B fuel h p) as K. rewrite E in K. exact K. Qed.
End S.
Print Assumptions C58_tree_partial.
Print Assumptions C58_order.
Print Assumptions C58_unique.
Print Assumptions C58_complete_partial.
Print Assumptions C58_decides_partial.
Print Assumptions C58_defined_partial.

(** ** A table: = (right associative) below + below *, prefix -, ( ), and a ternary
    operator ? : below all of them.  Tokens: 0 EOF, 1 an operand, 2 =, 3 +, 4 *,
    5 -, 6 ?, 7 :, 8 (, 9 ), 10 ++. *)
Definition always (k : nat) : oper := Oper k (fun _ => true).
Definition op_pre k p := Pre (always k) (fun _ => p).
Definition op_in k p l := Infix (always k) (fun _ => p) (fun _ => l).
Definition op_tern p l := Tern (always 6) (always 7) (fun _ => p) (fun _ => l).
Definition table : optab := Tab [op_pre 5 5] [] [op_in 2 2 false; op_in 3 3 true; op_in 4 4 true] [op_tern 1 true] [(always 8, always 9)].
Definition input (l : list nat) (p : nat) : nat := nth p l 0.
Definition one (l : list nat) (p : nat) : option nat := if Nat.eqb (input l p) 1 then Some (S p) else None.
Definition can (k : nat) : bool := Nat.eqb k 1 || Nat.eqb k 5 || Nat.eqb k 8.
Definition heap0 : heap := Heap (fun _ => Cell KBase None None None 0 0) 1.
Lemma one_moves l : moves (one l).
Proof. intros i j. unfold one. destruct (Nat.eqb (input l i) 1); [|discriminate]. intros E. injection E as <-. lia. Qed.
Example table_good : good_table table.
Proof.
  split; [|split; [|right; reflexivity]].
  - repeat split; intros e p I; cbn in I; repeat destruct I as [<-|I]; try contradiction; reflexivity.
  - intros e p [<-|[]]. repeat split; intros e' q I; cbn in I; repeat destruct I as [<-|I]; try contradiction; reflexivity.
Qed.
(** - x + x * ( x = x = x ) ? x : x *)
Definition text : list nat := [5; 1; 3; 1; 4; 8; 1; 2; 1; 2; 1; 9; 6; 1; 7; 1].
Definition b (i : nat) : tree := TBase 0 i (S i).
Definition reading : tree :=
  TTern 0 (1%N, true)
    (TBin 0 (3%N, true) (TPre 0 5%N 0 (b 1)) 2 (TBin 0 (4%N, true) (b 3) 4 (TPar 5 (TBin 0 (2%N, false) (b 6) 7 (TBin 0 (2%N, false) (b 8) 9 (b 10))) 11)))
    12 (b 13) 14 (b 15).
Lemma text_finite : finite table (input text) (one text) 16.
Proof. intros p L. assert (E : input text p = 0) by (apply nth_overflow; cbn; lia). unfold pre_at, paren_at, post_at, bin_at, tern_at, here, one. rewrite E. repeat split. Qed.
Lemma text_firsts : firsts table (input text) can can (one text).
Proof.
  split.
  - intros p. unfold pre_at, paren_at, one, here, can. cbn [find table tpre tparen fst pop op_pre always otok ocond]. rewrite !andb_true_r.
    destruct (Nat.eqb (input text p) 5); [rewrite orb_true_r; reflexivity|]. destruct (Nat.eqb (input text p) 8); [rewrite !orb_true_r; reflexivity|].
    destruct (Nat.eqb (input text p) 1); [reflexivity|]. intros [H|[H|H]]; contradiction H; reflexivity.
  - intros p. unfold one, can. destruct (Nat.eqb (input text p) 1); [reflexivity|]. intros H. contradiction H. reflexivity.
Qed.
Lemma b_expr tab eof start l i : pre_at tab (input l) i = None -> paren_at tab (input l) i = None -> input l i = 1 -> expr tab (input l) eof start (one l) i (S i) (b i).
Proof. intros A B C. constructor; try assumption. unfold one. rewrite C. reflexivity. Qed.
Example C58_case : expr table (input text) 0 false (one text) 0 16 reading /\ ends table (input text) 0 false 16 /\ ordered reading /\
  (exists h' n, parse table (input text) 0 false can can (one text) 17 heap0 0 = Ret h' n 16 /\ ck (cells h' n) = KTern /\ cs (cells h' n) = 0 /\ ce (cells h' n) = 15).
Proof.
  split; [|split; [repeat split; discriminate|split; [cbn; repeat split; repeat constructor|]]].
  - unfold reading. apply (e_tern table (input text) 0 false (one text) 0 12 14 16 _ _ _ 0 (op_tern 1 true)); try reflexivity; [| |repeat split; discriminate|]; try (apply b_expr; reflexivity).
    apply (e_bin table (input text) 0 false (one text) 0 2 12 _ _ 0 (op_in 3 3 true)); try reflexivity.
    + apply (e_pre table (input text) 0 false (one text) 0 2 _ 0 (op_pre 5 5)); [reflexivity|]. apply b_expr; reflexivity.
    + apply (e_bin table (input text) 0 false (one text) 3 4 12 _ _ 0 (op_in 4 4 true)); try reflexivity; try (apply b_expr; reflexivity).
      apply (e_par table (input text) 0 false (one text) 5 11 _ (always 8) (always 9)); try reflexivity; [|repeat split; discriminate].
      apply (e_bin table (input text) 0 false (one text) 6 7 11 _ _ 0 (op_in 2 2 false)); try reflexivity; try (apply b_expr; reflexivity).
      apply (e_bin table (input text) 0 false (one text) 8 9 11 _ _ 0 (op_in 2 2 false)); try reflexivity; apply b_expr; reflexivity.
  - eexists. eexists. split; [vm_compute; reflexivity|]. vm_compute. repeat split.
Qed.

(** ** Where it goes wrong
    A ternary operator that stands to the right of a looser operator: the code that
    parses the second operand and the second token is only run for a ternary
    operator at the root.  So [x = x ? x : x] is not read as a whole; the function
    returns true for [x = x ? x], which is no expression at all. *)
Definition table_c : optab := Tab [] [] [op_in 2 1 false] [op_tern 2 false] [].
Definition text_c : list nat := [1; 2; 1; 6; 1; 7; 1].
Definition reading_c : tree := TBin 0 (1%N, false) (b 0) 1 (TTern 0 (2%N, false) (b 2) 3 (b 4) 5 (b 6)).
Lemma where_is k l x : x <> 0 -> input l k = x -> k < length l.
Proof. intros N E. destruct (Nat.le_gt_cases (length l) k) as [G|G]; [|exact G]. unfold input in E. rewrite nth_overflow in E by exact G. congruence. Qed.
Lemma only_colon k : here (input text_c) (always 7) k = true -> k = 5.
Proof.
  unfold here. intros H. apply andb_prop in H. destruct H as (H & _). apply Nat.eqb_eq in H. cbn in H. pose proof (where_is k text_c 7 ltac:(discriminate) H) as L. cbn in L.
  do 7 (destruct k as [|k]; [first [reflexivity | discriminate H]|]). lia.
Qed.
Lemma expr_c i j t : expr table_c (input text_c) 0 false (one text_c) i j t -> j = 5 -> i = 4.
Proof.
  induction 1 as [i j a P1 P2 BB|i j t o c P1 P2 X IH E HE|i j t a e P X IH|i k t a e X IH P|i k j l r a e X1 IH1 P1 P2 X2 IH2|i k k2 j l t r a e X1 IH1 P1 P2 P3 X2 IH2 E HE X3 IH3]; intros J.
  - unfold one in BB. destruct (Nat.eqb (input text_c i) 1); [|discriminate]. injection BB as <-. lia.
  - discriminate P2.
  - discriminate P.
  - discriminate P.
  - apply IH2 in J. assert (k = 3) by lia. subst k. discriminate P2.
  - assert (T : e = op_tern 2 false). { unfold tern_at in P3. cbn [find table_c ttern] in P3. destruct (here _ _ _); [congruence|discriminate]. }
    subst e. apply only_colon in HE. apply IH3 in J. lia.
Qed.
Theorem C58_ternary_refuted : exists tab text t, small tab /\
  expr tab (input text) 0 false (one text) 0 7 t /\ ends tab (input text) 0 false 7 /\ ordered t /\
  (forall fuel, exists h' n, parse tab (input text) 0 false can can (one text) (10 + fuel) heap0 0 = Ret h' n 5) /\
  (forall t', ~ expr tab (input text) 0 false (one text) 0 5 t').
Proof.
  exists table_c, text_c, reading_c. split; [|split; [|split; [|split; [|split]]]].
  - repeat split; intros e p I; cbn in I; repeat destruct I as [<-|I]; try contradiction; reflexivity.
  - apply (e_bin table_c (input text_c) 0 false (one text_c) 0 1 7 _ _ 0 (op_in 2 1 false)); try reflexivity; try (apply b_expr; reflexivity).
    apply (e_tern table_c (input text_c) 0 false (one text_c) 2 3 5 7 _ _ _ 0 (op_tern 2 false)); try reflexivity; try (apply b_expr; reflexivity).
    repeat split; discriminate.
  - repeat split; discriminate.
  - cbn. repeat split; repeat constructor.
  - intros fuel. eexists. eexists. vm_compute. reflexivity.
  - intros t' X. apply expr_c in X; [discriminate|reflexivity].
Qed.
Print Assumptions C58_ternary_refuted.
(** The same for a right associative ternary operator, the usual conditional
    expression: of [x ? x : x ? x : x] the part [x ? x : x ? x] is accepted. *)
Definition table_r : optab := Tab [] [] [] [op_tern 1 false] [].
Definition text_r : list nat := [1; 6; 1; 7; 1; 6; 1; 7; 1].
Definition reading_r : tree := TTern 0 (1%N, false) (b 0) 1 (b 2) 3 (TTern 0 (1%N, false) (b 4) 5 (b 6) 7 (b 8)).
Theorem C58_conditional_refuted : exists t, small table_r /\
  expr table_r (input text_r) 0 false (one text_r) 0 9 t /\ ends table_r (input text_r) 0 false 9 /\ ordered t /\
  (forall fuel, exists h' n, parse table_r (input text_r) 0 false can can (one text_r) (10 + fuel) heap0 0 = Ret h' n 7).
Proof.
  exists reading_r. split; [|split; [|split; [|split]]].
  - repeat split; intros e p I; cbn in I; repeat destruct I as [<-|I]; try contradiction; reflexivity.
  - apply (e_tern table_r (input text_r) 0 false (one text_r) 0 1 3 9 _ _ _ 0 (op_tern 1 false)); try reflexivity; try (apply b_expr; reflexivity); [repeat split; discriminate|].
    apply (e_tern table_r (input text_r) 0 false (one text_r) 4 5 7 9 _ _ _ 0 (op_tern 1 false)); try reflexivity; try (apply b_expr; reflexivity).
    repeat split; discriminate.
  - repeat split; discriminate.
  - cbn. repeat split; repeat constructor.
  - intros fuel. eexists. eexists. vm_compute. reflexivity.
Qed.
Print Assumptions C58_conditional_refuted.
(** A postfix operator after a ternary one: in [x ? x : x ++] the postfix node
    replaces the first operand of the ternary node, so the AST is that of no reading
    that respects priorities, and the first operand is lost. *)
Definition table_p : optab := Tab [] [op_in 10 5 true] [] [op_tern 1 true] [].
Definition text_p : list nat := [1; 6; 1; 7; 1; 10].
Definition reading_p : tree := TTern 0 (1%N, true) (b 0) 1 (b 2) 3 (TPost 0 (5%N, true) (b 4) 5).
Lemma expr_p : expr table_p (input text_p) 0 false (one text_p) 0 6 reading_p.
Proof.
  apply (e_tern table_p (input text_p) 0 false (one text_p) 0 1 3 6 _ _ _ 0 (op_tern 1 true)); try reflexivity; try (apply b_expr; reflexivity); [repeat split; discriminate|].
  apply (e_post table_p (input text_p) 0 false (one text_p) 4 5 _ 0 (op_in 10 5 true)); [apply b_expr; reflexivity|reflexivity].
Qed.
Theorem C58_postfix_refuted : small table_p /\ loose table_p /\ expr table_p (input text_p) 0 false (one text_p) 0 6 reading_p /\ ends table_p (input text_p) 0 false 6 /\ ordered reading_p /\
  exists h' n, parse table_p (input text_p) 0 false can can (one text_p) 10 heap0 0 = Ret h' n 6 /\
    forall t, expr table_p (input text_p) 0 false (one text_p) 0 6 t -> ordered t -> ~ (ast_of (cells h') t /\ raddr t = n).
Proof.
  assert (OR : ordered reading_p) by (cbn; repeat split; repeat constructor).
  assert (EE : ends table_p (input text_p) 0 false 6) by (repeat split; discriminate).
  split; [|split; [|split; [exact expr_p|split; [exact EE|split; [exact OR|]]]]].
  - repeat split; intros e p I; cbn in I; repeat destruct I as [<-|I]; try contradiction; reflexivity.
  - intros e p [<-|[]]. repeat split; intros e' q I; cbn in I; repeat destruct I as [<-|I]; try contradiction; reflexivity.
  - eexists. eexists. split; [vm_compute; reflexivity|]. intros t X O (A & R).
    destruct (C58_unique _ _ _ _ _ 0 6 6 t reading_p X expr_p O OR EE EE) as (_ & U).
    destruct t as [| | | | |a m l k t2 k2 r]; try discriminate U. injection U as _ U _ _ _ _. destruct l as [a0 i j| | | | |]; try discriminate U.
    unfold ast_of in A. cbn [ast raddr] in *. subst a. destruct A as (_ & A1 & _ & _ & _ & _ & (A2 & _) & _). vm_compute in A1. injection A1 as <-. vm_compute in A2. discriminate A2.
Qed.
Print Assumptions C58_postfix_refuted.
(** If the symbol is a start symbol its function demands EOF after the expression,
    also inside parentheses: ( x ) is rejected. *)
Definition table_s : optab := Tab [] [] [] [] [(always 8, always 9)].
Definition text_s : list nat := [8; 1; 9].
Theorem C58_start_refuted : good_table table_s /\ expr table_s (input text_s) 0 false (one text_s) 0 3 (TPar 0 (b 1) 2) /\ input text_s 3 = 0 /\
  (forall fuel, parse table_s (input text_s) 0 true can can (one text_s) (10 + fuel) heap0 0 = No) /\
  (forall fuel, exists h' n, parse table_s (input text_s) 0 false can can (one text_s) (10 + fuel) heap0 0 = Ret h' n 3).
Proof.
  split; [|split; [|split; [|split]]].
  - split; [repeat split; intros e p I; cbn in I; contradiction|]. split; [intros e p I; cbn in I; contradiction|left; reflexivity].
  - apply (e_par table_s (input text_s) 0 false (one text_s) 0 2 _ (always 8) (always 9)); try reflexivity; [apply b_expr; reflexivity|repeat split; discriminate].
  - reflexivity.
  - intros fuel. reflexivity.
  - intros fuel. eexists. eexists. vm_compute. reflexivity.
Qed.
Print Assumptions C58_start_refuted.
