(** What a grammar must respect beyond the warnings for its parser to accept all
    its sentences: every point is needed, see ParserProps. *)
From Coq Require Import List Bool PeanoNat.
From Verif Require Import GrammarModel GrammarSpec ParserModel.
Import ListNotations.

Section S.
Variable g : grammar.
Variable first follow : table.
Notation kind := (kind g).
Notation eps := (eps g first).

(** No token in both. *)
Definition apart (a b : id -> bool) : bool := forallb (fun x => negb (is_term g x && a x && b x)) (seq 0 (size g)).
(** Entered whatever comes. *)
Definition open (n : id) : bool := negb (is_term g n) && trivial g (first n).
(** Only the last branch can be empty, and then it is nothing but empty. *)
Fixpoint branches_ok (ns : list id) : bool :=
  match ns with
  | [] => true
  | [b] => negb (eps b) || open b
  | b :: ns => negb (eps b) && negb (open b) && branches_ok ns
  end.
(** [e'] is tried before [e]. *)
Definition pair_ok (s e' e : id) : bool :=
  match kind e', kind e with
  | NEvolve i' _, NEvolve i _ =>
    negb (trivial g (first e')) && negb (Nat.eqb e' e) &&
    (negb (eps i') || apart (first e) (follow s) && negb (eps i)) &&
    (negb (eps i) || apart (first e') (follow s))
  | _, _ => false
  end.
Fixpoint rules_ok (s : id) (es : list id) : bool :=
  match es with [] => true | e :: es => forallb (pair_ok s e) es && rules_ok s es end.

(** The tokens of the operators of an expression are told apart, also from what
    is around. *)
Definition pre_tokens (ops : list op) : list id := flat_map (fun o => match o with OPre t => [t] | _ => [] end) ops.
Definition post_tokens (ops : list op) : list id := flat_map (fun o => match o with OPost t => [t] | _ => [] end) ops.
Definition bin_tokens (ops : list op) : list id := flat_map (fun o => match o with OBin t => [t] | _ => [] end) ops.
Definition parens (ops : list op) : list (id * id) := flat_map (fun o => match o with OParen t u => [(t, u)] | _ => [] end) ops.
Definition no_ternary (ops : list op) : bool := forallb (fun o => match o with OTern _ _ => false | _ => true end) ops.
Definition none_in (a b : list id) : bool := forallb (fun x => negb (mem x b)) a.
Definition operator_ok (n b : id) (ops : list op) : bool :=
  let infix := post_tokens ops ++ bin_tokens ops in
  match kind b with NNon _ => true | _ => false end && no_ternary ops &&
  none_in (pre_tokens ops) (map Datatypes.fst (parens ops)) &&
  none_in (post_tokens ops) (bin_tokens ops) &&
  none_in (map snd (parens ops)) infix &&
  forallb (fun p => forallb (fun q => negb (Nat.eqb (Datatypes.fst p) (Datatypes.fst q)) || Nat.eqb (snd p) (snd q)) (parens ops)) (parens ops) &&
  forallb (fun t => negb (first b t)) (pre_tokens ops ++ map Datatypes.fst (parens ops)) &&
  forallb (fun t => negb (follow n t)) infix &&
  (match parens ops with [] => true | _ => forallb (fun e => match kind e with NEvolve i s => negb (Nat.eqb i n) || negb (mem s (gstart g)) | _ => true end) (grules g) end).

Definition item_ok (n : id) : bool :=
  match kind n with
  | NAlt l r =>
    (negb (eps n) || apart (first n) (follow n)) &&
    match flatten g (S (size g) * S (size g)) [l; r] with Some ns => branches_ok ns | None => false end
  | NPlus _ _ _ => apart (first n) (follow n) && negb (trivial g (first n))
  | NStar _ _ _ => negb (trivial g (first n))
  | NNon s => negb (mem s (gstart g))
  | NInl s => Nat.eqb (length (env g s)) 1 && negb (mem s (gstart g))
  | NTry _ (Some _) => false
  | NAnn i => match kind i with NTerm | NNon _ => true | _ => false end
  | NOper b ops _ => operator_ok n b ops
  | _ => true
  end.
Definition careful : bool :=
  forallb item_ok (seq 0 (gregular g)) && forallb (fun s => rules_ok s (env g s)) (seq 0 (gregular g)).
End S.
