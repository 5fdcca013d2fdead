(** The text of EmitModel is read as the statements it is meant to be. *)
From Coq Require Import List Bool PeanoNat Lia.
From Verif Require Import Base GrammarModel ParserModel CppSpec EmitModel.
Import ListNotations.

Lemma some_same {A} (x y : A) : Some x = Some y -> x = y.
Proof. congruence. Qed.

(** ** Reading with enough fuel *)
Definition rexp (v : nat) (l : list token) (e : exp) (r : list token) : Prop := exists K, forall f, K <= f -> read_exp f v l = Some (e, r).
Definition rtest (l : list token) (e : exp) (r : list token) : Prop := exists K, forall f, K <= f -> read_test f l = Some (e, r).
Definition rstmt (l : list token) (s : stmt) (r : list token) : Prop := exists K, forall f, K <= f -> read_stmt f l = Some (s, r).
Definition rmany (l : list token) (L : list stmt) (r : list token) : Prop := exists K, forall f n, K <= f -> K <= n -> read_many (read_stmt f) n l = Some (L, r).

Ltac fueled n := exists n; let f := fresh "f" in let H := fresh "H" in intros f H; (destruct f as [| f]; [lia |]).

Definition plain_exp (t : token) : option exp :=
  match t with
  | KTrue => Some (EBool true) | KFalse => Some (EBool false) | YyToken => Some EYyToken | Kind t => Some (EKind t) | Blocked => Some EBlocked
  | AtMark k => Some (EAtMark k) | Expecting => Some EExpecting | Call s => Some (ECall s) | User n => Some (EUser n) | _ => None
  end.
Lemma r3_plain t e r : plain_exp t = Some e -> rexp 3 (t :: r) e r.
Proof. intros E. fueled 1. destruct t; try discriminate; injection E as <-; reflexivity. Qed.
Lemma r3_not l e r : rexp 3 l e r -> rexp 3 (Not :: l) (ENot e) r.
Proof. intros [K H]. fueled (S K). cbn [read_exp]. rewrite H by lia. reflexivity. Qed.
Lemma r3_par l e r : rexp 0 l e (RPar :: r) -> rexp 3 (LPar :: l) e r.
Proof. intros [K H]. fueled (S K). cbn [read_exp]. rewrite H by lia. reflexivity. Qed.
Lemma r2_eq l a r b r' : rexp 3 l a (EqEq :: r) -> rexp 3 r b r' -> rexp 2 l (EEq a b) r'.
Proof. intros [K H] [K' H']. fueled (S (K + K')). cbn [read_exp]. rewrite H by lia. cbn [obind snd fst]. rewrite H' by lia. reflexivity. Qed.
Lemma r2_ne l a r b r' : rexp 3 l a (NotEq :: r) -> rexp 3 r b r' -> rexp 2 l (ENe a b) r'.
Proof. intros [K H] [K' H']. fueled (S (K + K')). cbn [read_exp]. rewrite H by lia. cbn [obind snd fst]. rewrite H' by lia. reflexivity. Qed.
Definition high (r : list token) : Prop := match r with EqEq :: _ | NotEq :: _ => False | _ => True end.
Definition no_and (r : list token) : Prop := match r with AndAnd :: _ => False | _ => True end.
Definition no_or (r : list token) : Prop := match r with OrOr :: _ => False | _ => True end.
Definition not_else (r : list token) : Prop := match r with KElse :: _ => False | _ => True end.
Lemma r2_up l a r : high r -> rexp 3 l a r -> rexp 2 l a r.
Proof. intros N [K H]. fueled (S K). cbn [read_exp]. rewrite H by lia. cbn [obind snd fst]. destruct r as [| [] r]; cbn in N; try destruct N; reflexivity. Qed.
Lemma r1_and l a r b r' : rexp 2 l a (AndAnd :: r) -> rexp 1 r b r' -> rexp 1 l (EAnd a b) r'.
Proof. intros [K H] [K' H']. fueled (S (K + K')). cbn [read_exp]. rewrite H by lia. cbn [obind snd fst]. rewrite H' by lia. reflexivity. Qed.
Lemma r1_up l a r : no_and r -> rexp 2 l a r -> rexp 1 l a r.
Proof. intros N [K H]. fueled (S K). cbn [read_exp]. rewrite H by lia. cbn [obind snd fst]. destruct r as [| [] r]; cbn in N; try destruct N; reflexivity. Qed.
Lemma r0_or l a r b r' : rexp 1 l a (OrOr :: r) -> rexp 0 r b r' -> rexp 0 l (EOr a b) r'.
Proof. intros [K H] [K' H']. fueled (S (K + K')). cbn [read_exp]. rewrite H by lia. cbn [obind snd fst]. rewrite H' by lia. reflexivity. Qed.
Lemma r0_up l a r : no_or r -> rexp 1 l a r -> rexp 0 l a r.
Proof. intros N [K H]. fueled (S K). cbn [read_exp]. rewrite H by lia. cbn [obind snd fst]. destruct r as [| [] r]; cbn in N; try destruct N; reflexivity. Qed.
Lemma rt l e r : rexp 0 l e (RPar :: r) -> rtest (LPar :: l) e r.
Proof. intros [K H]. exists K. intros f L. unfold read_test. rewrite H by lia. reflexivity. Qed.

Lemma rs_do a r : rstmt (Do a :: Semi :: r) (SDo a) r.
Proof. fueled 1. reflexivity. Qed.
Lemma rs_return b r : rstmt (KReturn :: (if b : bool then KTrue else KFalse) :: Semi :: r) (SReturn b) r.
Proof. fueled 1. destruct b; reflexivity. Qed.
Lemma rs_break r : rstmt (KBreak :: Semi :: r) SBreak r.
Proof. fueled 1. reflexivity. Qed.
Lemma rs_goto k r : rstmt (KGoto :: Lab k :: Semi :: r) (SGoto k) r.
Proof. fueled 1. reflexivity. Qed.
Lemma rs_label k l s r : rstmt l s r -> rstmt (Lab k :: Colon :: l) (SLabel k s) r.
Proof. intros [K H]. fueled (S K). cbn [read_stmt]. rewrite H by lia. reflexivity. Qed.
Lemma rs_if l c r a r' : not_else r' -> rtest l c r -> rstmt r a r' -> rstmt (KIf :: l) (SIf c a None) r'.
Proof.
  intros N [K H] [K' H']. fueled (S (K + K')). cbn [read_stmt]. rewrite H by lia. cbn [obind snd fst]. rewrite H' by lia. cbn [obind snd fst].
  destruct r' as [| [] r']; cbn in N; try destruct N; reflexivity.
Qed.
Lemma rs_if_else l c r a r' b r'' : rtest l c r -> rstmt r a (KElse :: r') -> rstmt r' b r'' -> rstmt (KIf :: l) (SIf c a (Some b)) r''.
Proof.
  intros [K H] [K' H'] [K2 H2]. fueled (S (K + K' + K2)). cbn [read_stmt]. rewrite H by lia. cbn [obind snd fst]. rewrite H' by lia. cbn [obind snd fst]. rewrite H2 by lia. reflexivity.
Qed.
Lemma rs_while l c r a r' : rtest l c r -> rstmt r a r' -> rstmt (KWhile :: l) (SWhile c a) r'.
Proof. intros [K H] [K' H']. fueled (S (K + K')). cbn [read_stmt]. rewrite H by lia. cbn [obind snd fst]. rewrite H' by lia. reflexivity. Qed.
Lemma rs_do_while l a r c r' : rstmt l a (KWhile :: r) -> rtest r c (Semi :: r') -> rstmt (KDo :: l) (SDoWhile a c) r'.
Proof. intros [K H] [K' H']. fueled (S (K + K')). cbn [read_stmt]. rewrite H by lia. cbn [obind snd fst]. rewrite H' by lia. reflexivity. Qed.
Lemma rs_block l L r : rmany l L (RBrace :: r) -> rstmt (LBrace :: l) (SBlock L) r.
Proof. intros [K H]. fueled (S K). cbn [read_stmt]. rewrite H by lia. reflexivity. Qed.
Lemma rm_end r : rmany (RBrace :: r) [] (RBrace :: r).
Proof. exists 0. intros f n _ _. destruct n; reflexivity. Qed.
Lemma rm_cons l s r L r' : rstmt l s r -> rmany r L r' -> rmany l (s :: L) r'.
Proof.
  intros [K H] [K' H']. exists (S (K + K')). intros f [| n] Hf Hn; [lia |]. assert (B : l <> [] /\ forall l', l <> RBrace :: l').
  { split; [| intros l']; intros ->; specialize (H (S K) ltac:(lia)); cbn in H; discriminate. }
  destruct B as [B1 B2]. cbn [read_many]. destruct l as [| t l]; [congruence |].
  assert (E : (do p <- read_stmt f (t :: l); do q <- read_many (read_stmt f) n (snd p); Some (fst p :: fst q, snd q)) = Some (s :: L, r')).
  { rewrite H by lia. cbn [obind snd fst]. rewrite H' by lia. reflexivity. }
  destruct t; try exact E. destruct (B2 l eq_refl).
Qed.

(** ** Texts of statements *)
Definition texts (t : list token) (L : list stmt) : Prop :=
  (forall r, not_else r -> not_else (t ++ r)) /\ (forall r M r', not_else r -> rmany r M r' -> rmany (t ++ r) (L ++ M) r').
Lemma texts_nil : texts [] [].
Proof. split; intros; assumption. Qed.
Lemma texts_app a A b B : texts a A -> texts b B -> texts (a ++ b) (A ++ B).
Proof. intros [H1 H2] [J1 J2]. split; intros; rewrite <- ?app_assoc; auto. Qed.
Lemma texts_one t s : match t with [] | KElse :: _ => False | _ => True end -> (forall r, not_else r -> rstmt (t ++ r) s r) -> texts t [s].
Proof. intros N H. split; intros; [destruct t as [| []]; destruct N; exact I |]. apply (rm_cons _ _ r); auto. Qed.
Lemma texts_block t L r : texts t L -> rstmt (LBrace :: t ++ RBrace :: r) (SBlock L) r.
Proof. intros [_ H]. apply rs_block. rewrite <- (app_nil_r L). apply H; [exact I | apply rm_end]. Qed.
Lemma texts_do a : texts (do_ a) [SDo a].
Proof. apply texts_one; [exact I |]. intros. apply rs_do. Qed.
Lemma texts_return : texts return_false [SReturn false].
Proof. apply texts_one; [exact I |]. intros. apply (rs_return false). Qed.

(** ** The statements *)
Fixpoint e_ors (l : list exp) : exp := match l with [] => EBool true | [a] => a | a :: l => EOr a (e_ors l) end.
Fixpoint e_ands (l : list exp) : exp := match l with [] => EBool true | [a] => a | a :: l => EAnd a (e_ands l) end.
Definition e_is (t : id) : exp := EEq EYyToken (EKind t).
Definition e_not (t : id) : exp := ENe EYyToken (EKind t).

Section G.
Variable g : grammar.
Variable first follow : table.
Variable managed : bool.
Notation out_set := (out_set g).
Notation out_test := (out_test g first).
Notation terminals_in := (terminals_in g).

Definition a_set (s : id -> bool) : list exp := if trivial g s then [EBool true] else map e_is (terminals_in s).
Definition a_test (n : id) : list exp := if is_term g n then [e_is n] else a_set (first n).
Definition c_guard (e : exp) (n : id) : exp := if is_cond g n then EAnd e (EUser n) else e.
Definition c_rule_test (e i s : id) : exp := c_guard (e_ors (a_test e ++ if eps g first i then a_set (follow s) else [])) i.
Definition c_fail (catch : nat) : stmt :=
  match catch with
  | 0 => SBlock [if managed then SIf (ENot EBlocked) (SBlock [SDo Complain]) None else SDo Complain; SReturn false]
  | k => SGoto k
  end.
Definition c_call (catch : nat) (s : id) : list stmt := [SDo Tree; SIf (ENot (ECall s)) (match catch with 0 => c_fail 0 | k => SBlock [SGoto k] end) None].
Definition c_token_test (catch : nat) (t : id) : stmt := SIf (e_not t) (c_fail catch) None.
Definition c_recovery (n : id) (k : nat) : list stmt :=
  [SIf (EAnd (EAtMark k) (e_not (geof g))) (SDo Lex) None; SWhile (e_ands (map e_not (geof g :: terminals_in (follow n)))) (SBlock [SDo Lex])].
Definition c_no_branch (catch : nat) : stmt := match catch with 0 => SReturn false | k => SGoto k end.
Fixpoint c_chain (l : list (exp * list stmt)) (last : stmt) : stmt :=
  match l with [] => last | (e, b) :: l => SIf e (SBlock b) (Some (c_chain l last)) end.
Definition c_op (t : id) : exp := EAnd (e_is t) (EUser t).
Definition c_infix (o : op) : option (exp * list stmt) :=
  match o with
  | OPost t => Some (c_op t, [SDo Tree; SDo Lex])
  | OBin t => Some (c_op t, [SDo Tree; SDo (Expect false); SDo Lex])
  | _ => None
  end.
Definition c_prefix (cur : id) (catch : nat) (o : op) : option (exp * list stmt) :=
  match o with
  | OPre t => Some (c_op t, [SDo Tree; SDo Lex])
  | OParen t u => Some (c_op t, [SDo Lex;
      SIf (e_ors (a_test cur))
        (SBlock (c_call catch cur ++ [SIf (ENot (c_op u)) (SBlock [SReturn false]) None; SDo Tree; SDo Lex; SDo Tree; SDo (Expect true)]))
        (Some (SReturn false))])
  | _ => None
  end.
Definition c_infixes (ops : list op) := choose c_infix (filter is_post ops) ++ choose c_infix (filter is_bin ops).
Definition c_prefixes (cur : id) (catch : nat) (base : id) (ops : list op) :=
  (choose (c_prefix cur catch) (filter is_pre ops) ++ choose (c_prefix cur catch) (filter is_paren ops)) ++
  [(e_ors (a_test base), c_call catch base ++ [SDo Tree; SDo (Expect true)])].
Definition c_loop (cur : id) (catch : nat) (base : id) (ops : list op) : stmt :=
  SWhile (EBool true) (SBlock [SIf EExpecting (SBlock [c_chain (c_infixes ops) SBreak])
    (Some (SBlock [c_chain (c_prefixes cur catch base ops) (SBlock [SDo Complain; SReturn false])]))]).
Definition c_operator (cur : id) (catch : nat) (b : id) (ops : list op) : option (list stmt) :=
  if existsb is_tern ops then None else match kind g b with NNon base => Some [SDo (Expect false); c_loop cur catch base ops] | _ => None end.
Definition c_rule (e i s : id) (L : list stmt) : exp * list stmt :=
  (c_rule_test e i s, SDo Tree :: L ++ if mem s (gstart g) then [SIf (ENe (EKind (geof g)) EYyToken) (SBlock [SReturn false]) None] else []).
Definition c_branch (nl : id * list stmt) : exp * list stmt := (c_guard (e_ors (a_test (fst nl))) (fst nl), snd nl).
Section V.
Variable rec : nat -> nat -> id -> option (list stmt * nat).
Fixpoint c_each (catch c : nat) (ns : list id) : option (list (id * list stmt) * nat) :=
  match ns with
  | [] => Some ([], c)
  | n :: ns => do p <- rec catch c n; do q <- c_each catch (snd p) ns; Some ((n, fst p) :: fst q, snd q)
  end.
End V.
Fixpoint c_item (fuel : nat) (cur : id) (catch c : nat) (n : id) : option (list stmt * nat) :=
  match fuel with
  | 0 => None
  | S f =>
    match kind g n with
    | NZero => Some ([], c)
    | NTerm => Some ([c_token_test catch n; SDo Lex], c)
    | NNon s => Some (c_call catch s, c)
    | NInl s =>
      match search_rule g s with
      | Some e => match kind g e with NEvolve i s' => do p <- c_item f cur catch c i; let (t, b) := c_rule e i s' (fst p) in Some ([SIf t (SBlock b) None], snd p) | _ => None end
      | None => None
      end
    | NPlus i _ _ => do p <- c_item f cur catch c i; Some ([SDoWhile (SBlock (fst p)) (e_ors (a_test n))], snd p)
    | NStar i _ _ => do p <- c_item f cur catch c i; Some ([SWhile (e_ors (a_test n)) (SBlock (fst p))], snd p)
    | NAct None => Some ([SDo Tree], c)
    | NAct (Some i) => do p <- c_item f cur catch c i; Some (fst p ++ [SDo Tree], snd p)
    | NCond i => c_item f cur catch c i
    | NAlt l r => do ns <- flatten g f [l; r]; do p <- c_each (c_item f cur) catch c ns; Some (match fst p with [] => [] | _ => [c_chain (map c_branch (fst p)) (SBlock [c_no_branch catch])] end, snd p)
    | NCons l r => do p <- c_item f cur catch c l; do q <- c_item f cur catch (snd p) r; Some (fst p ++ fst q, snd q)
    | NTry t h =>
      let k := S c in
      do p <- c_item f cur k k t;
      do q <- match h with
              | Some h => do q <- c_item f cur catch (snd p) h; Some (SDo (Restore k) :: SDo (Rewind k) :: fst q, snd q)
              | None => Some (c_recovery n k, snd p)
              end;
      Some ((match h with Some _ => [SDo (Save k)] | None => [] end) ++ [SDo (Mark k); SDo Tree; SBlock (fst p)] ++
            (match h with Some _ => [SDo (Restore k)] | None => [] end) ++ [SDo Tree; SIf (EBool false) (SBlock (SLabel k (SDo Tree) :: fst q)) None], snd q)
    | NAnn i =>
      match kind g i with
      | NTerm => Some ([c_token_test catch i; SDo Tree; SDo Lex], c)
      | NNon s => Some (c_call catch s ++ [SDo Tree], c)
      | _ => None
      end
    | NOper b ops _ => do t <- c_operator cur catch b ops; Some (t, c)
    | NSym | NOther | NEvolve _ _ => None
    end
  end.
Fixpoint c_rules (fuel : nat) (cur : id) (c : nat) (es : list id) : option (list (exp * list stmt) * nat) :=
  match es with
  | [] => Some ([], c)
  | e :: es =>
    match kind g e with
    | NEvolve i s => do p <- c_item fuel cur 0 c i; do q <- c_rules fuel cur (snd p) es; Some (c_rule e i s (fst p) :: fst q, snd q)
    | _ => None
    end
  end.
Definition c_body (l : list (exp * list stmt)) : list stmt := [SDo Tree; c_chain l (SBlock [SReturn false]); SDo Tree; SReturn true].

(** ** Texts of expressions *)
Hypothesis FULL1 : forall n, trivial g (first n) = false -> terminals_in (first n) <> [].
Hypothesis FULL2 : forall n, trivial g (follow n) = false -> terminals_in (follow n) <> [].

(** A text of alternatives. *)
Definition conds' (t : list token) (l : list exp) : Prop := l <> [] /\
  (forall r M r', rexp 0 r (e_ors M) r' -> M <> [] -> rexp 0 (t ++ OrOr :: r) (e_ors (l ++ M)) r') /\ (forall r, no_and r -> no_or r -> high r -> rexp 0 (t ++ r) (e_ors l) r).
Lemma r_is t r : rexp 2 (YyToken :: EqEq :: Kind t :: r) (e_is t) r.
Proof. apply (r2_eq _ _ (Kind t :: r)); apply r3_plain; reflexivity. Qed.
Lemma r_not t r : rexp 2 (YyToken :: NotEq :: Kind t :: r) (e_not t) r.
Proof. apply (r2_ne _ _ (Kind t :: r)); apply r3_plain; reflexivity. Qed.
Lemma ors_cons a l : l <> [] -> e_ors (a :: l) = EOr a (e_ors l).
Proof. destruct l; [congruence | reflexivity]. Qed.
Lemma ands_cons a l : l <> [] -> e_ands (a :: l) = EAnd a (e_ands l).
Proof. destruct l; [congruence | reflexivity]. Qed.
Lemma conds_true : conds' [KTrue] [EBool true].
Proof.
  split; [discriminate |]. split.
  - intros r M r' H N. cbn [app]. rewrite ors_cons by exact N. apply (r0_or _ _ r); [| exact H]. apply r1_up; [exact I |]. apply r2_up; [exact I |]. apply r3_plain. reflexivity.
  - intros r A O H. apply r0_up; [exact O |]. apply r1_up; [exact A |]. apply r2_up; [exact H |]. apply r3_plain. reflexivity.
Qed.
Lemma conds_tokens l : l <> [] -> conds' (out_tokens l) (map e_is l).
Proof.
  intros N. split; [destruct l; [congruence | discriminate] |]. induction l as [| t l IH]; [congruence |]. destruct l as [| u l].
  - cbn [out_tokens map app]. split.
    + intros r M r' H J. rewrite ors_cons by exact J. apply (r0_or _ _ r); [| exact H]. apply r1_up; [exact I | apply r_is].
    + intros r A O H. apply r0_up; [exact O |]. apply r1_up; [exact A | apply r_is].
  - destruct (IH ltac:(discriminate)) as [I1 I2]. change (out_tokens (t :: u :: l)) with ([YyToken; EqEq; Kind t; OrOr] ++ out_tokens (u :: l)).
    change (map e_is (t :: u :: l)) with (e_is t :: map e_is (u :: l)). split.
    + intros r M r' H J. rewrite <- app_assoc. cbn [app]. rewrite ors_cons by discriminate. eapply r0_or; [apply r1_up; [| apply r_is]; exact I |]. apply I1; assumption.
    + intros r A O H. rewrite <- app_assoc. cbn [app]. rewrite ors_cons by discriminate. eapply r0_or; [apply r1_up; [| apply r_is]; exact I |]. apply I2; assumption.
Qed.
Lemma conds_set s : (trivial g s = false -> terminals_in s <> []) -> conds' (out_set s) (a_set s).
Proof. intros H. unfold EmitModel.out_set, a_set. destruct (trivial g s); [apply conds_true | apply conds_tokens; auto]. Qed.
Lemma conds_test n : conds' (out_test n) (a_test n).
Proof. unfold EmitModel.out_test, a_test. destruct (is_term g n); [apply conds_tokens; discriminate | apply conds_set; apply FULL1]. Qed.
Lemma conds_app a A b B : conds' a A -> conds' b B -> conds' (a ++ OrOr :: b) (A ++ B).
Proof.
  intros (N & H1 & H2) (M & J1 & J2). split; [intros E; apply app_eq_nil in E; tauto |]. split.
  - intros r L r' H K. rewrite <- !app_assoc. cbn [app]. apply H1; [apply J1; assumption |]. intros E. apply app_eq_nil in E. tauto.
  - intros r X Y Z. rewrite <- app_assoc. cbn [app]. apply H1; [apply J2; assumption | exact M].
Qed.
Lemma conds_rule e i s : conds' (out_test e ++ if eps g first i then OrOr :: out_set (follow s) else []) (a_test e ++ if eps g first i then a_set (follow s) else []).
Proof. destruct (eps g first i); [apply conds_app; [apply conds_test | apply conds_set; apply FULL2] |]. rewrite !app_nil_r. apply conds_test. Qed.
Lemma r_guard t l n r : conds' t l -> rtest (LPar :: out_guard g t n ++ RPar :: r) (c_guard (e_ors l) n) r.
Proof.
  intros (_ & _ & H). apply rt. unfold out_guard, c_guard. destruct (is_cond g n).
  - rewrite <- !app_assoc. cbn [app]. apply r0_up; [exact I |]. eapply r1_and.
    + apply r2_up; [| apply r3_par; apply H]; exact I.
    + apply r1_up; [exact I |]. apply r2_up; [exact I |]. apply r3_par. apply r0_up; [exact I |]. apply r1_up; [exact I |]. apply r2_up; [exact I |]. apply r3_plain. reflexivity.
  - apply H; exact I.
Qed.
Lemma r_test t l r : conds' t l -> rtest (LPar :: t ++ RPar :: r) (e_ors l) r.
Proof. intros (_ & _ & H). apply rt. apply H; exact I. Qed.
Lemma r_plain t e r : plain_exp t = Some e -> rtest (LPar :: t :: RPar :: r) e r.
Proof. intros E. apply rt. apply r0_up; [exact I |]. apply r1_up; [exact I |]. apply r2_up; [exact I |]. apply r3_plain. exact E. Qed.
Lemma r_negated t e r : plain_exp t = Some e -> rtest (LPar :: Not :: t :: RPar :: r) (ENot e) r.
Proof. intros E. apply rt. apply r0_up; [exact I |]. apply r1_up; [exact I |]. apply r2_up; [exact I |]. apply r3_not. apply r3_plain. exact E. Qed.
Lemma r_differs a b x y r : plain_exp a = Some x -> plain_exp b = Some y -> rtest (LPar :: a :: NotEq :: b :: RPar :: r) (ENe x y) r.
Proof. intros E F. apply rt. apply r0_up; [exact I |]. apply r1_up; [exact I |]. eapply r2_ne; apply r3_plain; assumption. Qed.
Lemma r1_op t r : no_and r -> rexp 1 (YyToken :: EqEq :: Kind t :: AndAnd :: User t :: r) (c_op t) r \/ ~ high r.
Proof.
  intros N. assert (D : high r \/ ~ high r) by (destruct r as [| [] r]; cbn; tauto). destruct D as [D | D]; [left | right; exact D].
  eapply r1_and; [apply r_is |]. apply r1_up; [exact N |]. apply r2_up; [exact D |]. apply r3_plain. reflexivity.
Qed.
Lemma r_op t r : rtest (LPar :: YyToken :: EqEq :: Kind t :: AndAnd :: User t :: RPar :: r) (c_op t) r.
Proof. apply rt. apply r0_up; [exact I |]. destruct (r1_op t (RPar :: r) I) as [H | H]; [exact H | destruct H; exact I]. Qed.
Lemma r_no_op t r : rtest (LPar :: Not :: LPar :: YyToken :: EqEq :: Kind t :: AndAnd :: User t :: RPar :: RPar :: r) (ENot (c_op t)) r.
Proof.
  apply rt. apply r0_up; [exact I |]. apply r1_up; [exact I |]. apply r2_up; [exact I |]. apply r3_not. apply r3_par. apply r0_up; [exact I |].
  destruct (r1_op t (RPar :: RPar :: r) I) as [H | H]; [exact H | destruct H; exact I].
Qed.
Lemma r_nots l : forall t r, rexp 1 (YyToken :: NotEq :: Kind t :: out_not_tokens l ++ RPar :: r) (e_ands (map e_not (t :: l))) (RPar :: r).
Proof.
  induction l as [| u l IH]; intros t r; [apply r1_up; [exact I | apply r_not] |].
  change (map e_not (t :: u :: l)) with (e_not t :: map e_not (u :: l)). rewrite ands_cons by discriminate. cbn [out_not_tokens app]. eapply r1_and; [apply r_not | apply IH].
Qed.

(** ** Texts of the pieces *)
Lemma texts_tree : texts tree [SDo Tree]. Proof. apply texts_do. Qed.
Lemma r_fail catch r : not_else r -> rstmt (out_fail managed catch ++ r) (c_fail catch) r.
Proof.
  intros N. destruct catch as [| k]; cbn [out_fail c_fail]; [| apply rs_goto].
  replace (([LBrace] ++ (if managed then [KIf; LPar; Not; Blocked; RPar; LBrace] ++ do_ Complain ++ [RBrace] else do_ Complain) ++ return_false ++ [RBrace]) ++ r)
    with (LBrace :: ((if managed then [KIf; LPar; Not; Blocked; RPar; LBrace] ++ do_ Complain ++ [RBrace] else do_ Complain) ++ return_false) ++ RBrace :: r) by (cbn [app]; rewrite <- !app_assoc; reflexivity).
  apply texts_block. apply (texts_app _ [_] _ [_]); [| apply texts_return]. destruct managed; [| apply texts_do].
  apply texts_one; [exact I |]. intros r' N'. cbn [app do_]. eapply rs_if; [exact N' | apply r_negated; reflexivity |]. apply (texts_block (do_ Complain)). apply texts_do.
Qed.
Lemma texts_call catch s : texts (out_call managed catch s) (c_call catch s).
Proof.
  unfold out_call, c_call. apply (texts_app _ [_] _ [_]); [apply texts_tree |]. apply texts_one; [exact I |]. intros r N. rewrite <- app_assoc. cbn [app].
  eapply rs_if; [exact N | apply r_negated; reflexivity |]. destruct catch as [| k]; [apply r_fail; exact N |]. cbn [out_fail app]. apply (texts_block [KGoto; Lab (S k); Semi]).
  apply texts_one; [exact I |]. intros. apply rs_goto.
Qed.
Lemma texts_token_test catch t : texts (out_token_test managed catch t) [c_token_test catch t].
Proof. apply texts_one; [exact I |]. intros r N. unfold out_token_test. rewrite <- app_assoc. cbn [app]. eapply rs_if; [exact N | apply r_differs; reflexivity |]. apply r_fail. exact N. Qed.
Lemma texts_recovery n k : texts (out_recovery g follow n k) (c_recovery n k).
Proof.
  unfold out_recovery, c_recovery.
  replace ([KIf; LPar; AtMark k; AndAnd; YyToken; NotEq; Kind (geof g); RPar] ++ do_ Lex ++ [KWhile; LPar; YyToken; NotEq; Kind (geof g)] ++ out_not_tokens (terminals_in (follow n)) ++ [RPar; LBrace] ++ do_ Lex ++ [RBrace])
    with (([KIf; LPar; AtMark k; AndAnd; YyToken; NotEq; Kind (geof g); RPar] ++ do_ Lex) ++ ([KWhile; LPar; YyToken; NotEq; Kind (geof g)] ++ out_not_tokens (terminals_in (follow n)) ++ [RPar; LBrace] ++ do_ Lex ++ [RBrace])) by (rewrite <- !app_assoc; reflexivity).
  apply (texts_app _ [_] _ [_]); (apply texts_one; [exact I |]); intros r N; rewrite <- ?app_assoc; cbn [app do_].
  - eapply rs_if; [exact N | | apply rs_do]. apply rt. apply r0_up; [exact I |]. eapply r1_and; [apply r2_up; [| apply r3_plain; reflexivity]; exact I |]. apply r1_up; [exact I | apply r_not].
  - eapply rs_while; [apply rt; apply r0_up; [exact I |]; apply r_nots |]. apply (texts_block (do_ Lex)). apply texts_do.
Qed.
Lemma texts_no_branch catch : texts (out_no_branch catch) [c_no_branch catch].
Proof. destruct catch; apply texts_one; try exact I; intros; [apply (rs_return false) | apply rs_goto]. Qed.

(** An if with its block. *)
Definition ifs (t : list token) (eb : exp * list stmt) : Prop := forall r s, (forall r', not_else r' -> rstmt (t ++ r') (SIf (fst eb) (SBlock (snd eb)) None) r') /\
  (forall r', rstmt r s r' -> rstmt (t ++ KElse :: r) (SIf (fst eb) (SBlock (snd eb)) (Some s)) r').
Definition begins_if (t : list token) : Prop := match t with KIf :: _ => True | _ => False end.
Lemma ifs_intro c e t L : (forall r, rtest (c ++ r) e r) -> texts t L -> ifs ([KIf] ++ c ++ [LBrace] ++ t ++ [RBrace]) (e, L).
Proof.
  intros C T r s. cbn [fst snd]. split; intros r' H; rewrite <- !app_assoc; cbn [app].
  - eapply rs_if; [exact H | apply C |]. apply texts_block. exact T.
  - eapply rs_if_else; [apply C | apply texts_block; exact T | exact H].
Qed.
Definition chained (ts : list (list token)) (l : list (exp * list stmt)) : Prop := Forall2 (fun t eb => begins_if t /\ ifs t eb) ts l.
Lemma chain_else ts l last s r : chained ts l -> ts <> [] -> rstmt (last ++ r) s r -> rstmt (out_chain ts ++ [KElse] ++ last ++ r) (c_chain l s) r.
Proof.
  intros H. induction H as [| t [e b] ts l [_ H] F IH]; intros N L; [congruence |]. destruct ts as [| u ts].
  - inversion F; subst. cbn [out_chain c_chain app]. apply (proj2 (H (last ++ r) s)). exact L.
  - change (out_chain (t :: u :: ts)) with (t ++ [KElse] ++ out_chain (u :: ts)). rewrite <- !app_assoc. cbn [app c_chain]. apply (proj2 (H (out_chain (u :: ts) ++ KElse :: last ++ r) (c_chain l s))).
    apply IH; [discriminate | exact L].
Qed.
Lemma chain_begins ts l r : chained ts l -> ts <> [] -> exists r', out_chain ts ++ r = KIf :: r'.
Proof. intros H N. destruct H as [| [| [] t] eb ts l [B _] F]; [congruence | destruct B..]. destruct ts; cbn [out_chain app]; eauto. Qed.
Lemma texts_chain ts l last s : chained ts l -> ts <> [] -> (forall r, not_else r -> rstmt (last ++ r) s r) -> texts (out_chain ts ++ [KElse] ++ last) [c_chain l s].
Proof.
  intros H N L. destruct (chain_begins ts l ([KElse] ++ last) H N) as [r' E]. rewrite E. apply texts_one; [exact I |]. intros r Nr. rewrite <- E. rewrite <- app_assoc. cbn [app].
  apply (chain_else ts l last s r H N). apply L. exact Nr.
Qed.
Lemma chained_app a A b B : chained a A -> chained b B -> chained (a ++ b) (A ++ B).
Proof. apply Forall2_app. Qed.

(** *** Operators *)
Lemma ifs_op t L T : texts T L -> ifs ([KIf; LPar; YyToken; EqEq; Kind t; AndAnd; User t; RPar; LBrace] ++ T ++ [RBrace]) (c_op t, L).
Proof. intros H. apply (ifs_intro [LPar; YyToken; EqEq; Kind t; AndAnd; User t; RPar]); [intros r; apply r_op | exact H]. Qed.
Ltac split_texts := repeat (apply (texts_app _ [_]); [first [apply texts_do | apply texts_return] |]); first [apply texts_do | apply texts_return].
Lemma op_infix o : match out_infix o, c_infix o with Some t, Some eb => begins_if t /\ ifs t eb | None, None => True | _, _ => False end.
Proof.
  destruct o as [t | t | t | t u | t u]; cbn [out_infix c_infix]; try exact I; (split; [exact I |]).
  - apply (ifs_op t _ (tree ++ do_ Lex)). split_texts.
  - apply (ifs_op t _ (tree ++ do_ (Expect false) ++ do_ Lex)). split_texts.
Qed.
Lemma op_prefix cur catch o : match out_prefix g first managed cur catch o, c_prefix cur catch o with Some t, Some eb => begins_if t /\ ifs t eb | None, None => True | _, _ => False end.
Proof.
  destruct o as [t | t | t | t u | t u]; cbn [out_prefix c_prefix]; try exact I; (split; [exact I |]).
  - apply (ifs_op t _ (tree ++ do_ Lex)). split_texts.
  - match goal with |- ifs ?x _ => match x with ?h ++ ?y => replace x with (h ++ (do_ Lex ++ ([KIf; LPar] ++ out_test cur ++ [RPar; LBrace] ++ (out_call managed catch cur ++
      ([KIf; LPar; Not; LPar; YyToken; EqEq; Kind u; AndAnd; User u; RPar; RPar; LBrace] ++ return_false ++ [RBrace]) ++ tree ++ do_ Lex ++ tree ++ do_ (Expect true)) ++ [RBrace; KElse] ++ return_false)) ++ [RBrace])
      by (rewrite <- !app_assoc; reflexivity) end end.
    apply ifs_op. apply (texts_app _ [_] _ [_]); [apply texts_do |]. apply texts_one; [exact I |]. intros r N. rewrite <- !app_assoc. cbn [app].
    eapply rs_if_else; [apply r_test; apply conds_test | | apply (rs_return false)].
    match goal with |- rstmt (LBrace :: ?x) _ _ => match x with out_call _ _ _ ++ _ => idtac end end.
    replace (out_call managed catch cur ++ KIf :: LPar :: Not :: LPar :: YyToken :: EqEq :: Kind u :: AndAnd :: User u :: RPar :: RPar :: LBrace :: return_false ++ RBrace :: tree ++ do_ Lex ++ tree ++ do_ (Expect true) ++ RBrace :: KElse :: return_false ++ r)
      with ((out_call managed catch cur ++ ([KIf; LPar; Not; LPar; YyToken; EqEq; Kind u; AndAnd; User u; RPar; RPar; LBrace] ++ return_false ++ [RBrace]) ++ tree ++ do_ Lex ++ tree ++ do_ (Expect true)) ++ RBrace :: KElse :: return_false ++ r)
      by (rewrite <- !app_assoc; reflexivity).
    apply texts_block. apply texts_app; [apply texts_call |]. apply (texts_app _ [_]); [| split_texts].
    apply texts_one; [exact I |]. intros r' N'. rewrite <- app_assoc. cbn [app]. eapply rs_if; [exact N' | apply r_no_op |]. rewrite <- app_assoc. apply texts_block. apply texts_return.
Qed.
Lemma choose_chained (f : op -> option (list token)) h l : (forall o, match f o, h o with Some t, Some eb => begins_if t /\ ifs t eb | None, None => True | _, _ => False end) -> chained (choose f l) (choose h l).
Proof.
  intros H. unfold choose. induction l as [| o l IH]; [constructor |]. cbn [flat_map]. apply chained_app; [| exact IH]. specialize (H o).
  destruct (f o), (h o); try (destruct H; fail); [| apply Forall2_nil]. apply Forall2_cons; [exact H | apply Forall2_nil].
Qed.
Definition has_infix (ops : list op) : Prop := exists o, In o ops /\ (is_post o = true \/ is_bin o = true).
Lemma choose_some {A} (f : op -> option A) l o a : In o l -> f o = Some a -> choose f l <> [].
Proof. intros H E N. unfold choose in N. assert (X : In a []) by (rewrite <- N; apply in_flat_map; exists o; split; [exact H | rewrite E; left; reflexivity]). destruct X. Qed.
Lemma texts_operator cur catch b ops t : has_infix ops -> out_operator g first managed cur catch b ops = Some t -> exists L, c_operator cur catch b ops = Some L /\ texts t L.
Proof.
  intros (o & Io & P) E. unfold out_operator in E. unfold c_operator. destruct (existsb is_tern ops); [discriminate |]. destruct (kind g b) as [| | |base| | | | | | | | | | | |]; try discriminate.
  set (infix := choose out_infix (filter is_post ops) ++ choose out_infix (filter is_bin ops)) in E.
  set (prefix := choose (out_prefix g first managed cur catch) (filter is_pre ops) ++ choose (out_prefix g first managed cur catch) (filter is_paren ops)) in E. cbv zeta in E. apply some_same in E. rewrite <- E. clear t E.
  eexists. split; [reflexivity |]. apply (texts_app _ [_] _ [_]); [apply texts_do |].
  assert (CI : chained infix (c_infixes ops)) by (apply chained_app; apply choose_chained; exact op_infix).
  assert (NI : infix <> []).
  { intros N. apply app_eq_nil in N. destruct N as [N1 N2]. destruct P as [P | P].
    - destruct o; try discriminate. revert N1. eapply choose_some; [apply filter_In; split; [exact Io | exact P] | reflexivity].
    - destruct o; try discriminate. revert N2. eapply choose_some; [apply filter_In; split; [exact Io | exact P] | reflexivity]. }
  set (final := [KIf; LPar] ++ out_test base ++ [RPar; LBrace] ++ out_call managed catch base ++ tree ++ do_ (Expect true) ++ [RBrace]).
  assert (CP : chained (prefix ++ [final]) (c_prefixes cur catch base ops)).
  { apply chained_app; [apply chained_app; apply choose_chained; apply op_prefix |]. constructor; [| constructor]. split; [exact I |].
    unfold final. replace ([KIf; LPar] ++ out_test base ++ [RPar; LBrace] ++ out_call managed catch base ++ tree ++ do_ (Expect true) ++ [RBrace])
      with ([KIf] ++ ([LPar] ++ out_test base ++ [RPar]) ++ [LBrace] ++ (out_call managed catch base ++ tree ++ do_ (Expect true)) ++ [RBrace]) by (rewrite <- !app_assoc; reflexivity).
    apply ifs_intro; [intros r; rewrite <- !app_assoc; apply r_test; apply conds_test |]. apply texts_app; [apply texts_call | split_texts]. }
  apply texts_one; [exact I |]. intros r N. unfold c_loop. rewrite <- ?app_assoc. cbn [app].
  eapply rs_while; [apply (r_plain KTrue); reflexivity |].
  match goal with |- rstmt (LBrace :: ?x) _ _ => replace x with
    (([KIf; LPar; Expecting; RPar; LBrace] ++ (out_chain infix ++ [KElse] ++ [KBreak; Semi]) ++ [RBrace; KElse; LBrace] ++ (out_chain (prefix ++ [final]) ++ [KElse] ++ ([LBrace] ++ (do_ Complain ++ return_false) ++ [RBrace])) ++ [RBrace]) ++ RBrace :: r)
    by (rewrite <- ?app_assoc; reflexivity) end.
  apply texts_block. apply texts_one; [exact I |]. intros r' N'. rewrite <- ?app_assoc. cbn [app].
  eapply rs_if_else; [apply (r_plain Expecting); reflexivity | |].
  - match goal with |- rstmt (LBrace :: ?x) _ _ => replace x with ((out_chain infix ++ [KElse] ++ [KBreak; Semi]) ++ RBrace :: KElse :: (LBrace :: (out_chain (prefix ++ [final]) ++ [KElse] ++ ([LBrace] ++ (do_ Complain ++ return_false) ++ [RBrace])) ++ RBrace :: r'))
      by (rewrite <- ?app_assoc; cbn [app]; rewrite <- ?app_assoc; reflexivity) end.
    apply texts_block. apply texts_chain; [exact CI | exact NI |]. intros. apply rs_break.
  - apply texts_block. apply texts_chain; [exact CP | intros X; apply app_eq_nil in X; destruct X; discriminate |]. intros r2 N2. rewrite <- !app_assoc. cbn [app]. apply (texts_block (do_ Complain ++ return_false)). split_texts.
Qed.

(** *** Items *)
Hypothesis INFIX : forall n b ops x, kind g n = NOper b ops x -> has_infix ops.

Lemma ifs_rule e i s t L : texts t L -> begins_if (out_rule g first follow e i s t) /\ ifs (out_rule g first follow e i s t) (c_rule e i s L).
Proof.
  intros T. split; [exact I |]. unfold out_rule, c_rule, out_rule_test, c_rule_test.
  set (cs := out_test e ++ if eps g first i then OrOr :: out_set (follow s) else []).
  set (F := if mem s (gstart g) then [KIf; LPar; Kind (geof g); NotEq; YyToken; RPar; LBrace] ++ return_false ++ [RBrace] else []).
  replace ([KIf; LPar] ++ out_guard g cs i ++ [RPar; LBrace] ++ tree ++ t ++ F ++ [RBrace]) with ([KIf] ++ ([LPar] ++ out_guard g cs i ++ [RPar]) ++ [LBrace] ++ (tree ++ t ++ F) ++ [RBrace])
    by (rewrite <- !app_assoc; reflexivity).
  apply ifs_intro; [intros r; rewrite <- !app_assoc; apply r_guard; apply conds_rule |]. apply (texts_app _ [_]); [apply texts_tree |]. apply texts_app; [exact T |].
  unfold F. destruct (mem s (gstart g)); [| apply texts_nil]. apply texts_one; [exact I |]. intros r N. cbn [app return_false]. eapply rs_if; [exact N | apply r_differs; reflexivity |].
  apply (texts_block return_false). apply texts_return.
Qed.
Definition branch_text (nt : id * list token) : list token := [KIf; LPar] ++ out_guard g (out_test (fst nt)) (fst nt) ++ [RPar; LBrace] ++ snd nt ++ [RBrace].
Lemma branches_chain catch l : l <> [] -> out_branches g first catch l = out_chain (map branch_text l) ++ [KElse] ++ [LBrace] ++ out_no_branch catch ++ [RBrace].
Proof.
  induction l as [| [n t] l IH]; intros N; [congruence |]. cbn [out_branches map]. destruct l as [| q l].
  - cbn [map out_chain]. unfold branch_text. cbn [fst snd]. rewrite <- !app_assoc. reflexivity.
  - rewrite IH by discriminate. change (out_chain (branch_text (n, t) :: map branch_text (q :: l))) with (branch_text (n, t) ++ [KElse] ++ out_chain (map branch_text (q :: l))).
    unfold branch_text at 2. cbn [fst snd]. rewrite <- !app_assoc. reflexivity.
Qed.
Definition same_branches (a : list (id * list token)) (b : list (id * list stmt)) : Prop := Forall2 (fun x y => fst x = fst y /\ texts (snd x) (snd y)) a b.
Lemma texts_branches catch a b : same_branches a b -> texts (out_branches g first catch a) (match b with [] => [] | _ => [c_chain (map c_branch b) (SBlock [c_no_branch catch])] end).
Proof.
  intros H. destruct a as [| x a]; [inversion H; apply texts_nil |]. rewrite branches_chain by discriminate.
  assert (C : chained (map branch_text (x :: a)) (map c_branch b)).
  { clear catch. induction H as [| [n t] [n' L] u v [E T] F IH]; [constructor |]. cbn [fst snd] in E, T. subst n'. constructor; [| exact IH]. split; [exact I |]. unfold branch_text, c_branch. cbn [fst snd].
    replace ([KIf; LPar] ++ out_guard g (out_test n) n ++ [RPar; LBrace] ++ t ++ [RBrace]) with ([KIf] ++ ([LPar] ++ out_guard g (out_test n) n ++ [RPar]) ++ [LBrace] ++ t ++ [RBrace]) by (rewrite <- !app_assoc; reflexivity).
    apply ifs_intro; [intros r; rewrite <- !app_assoc; apply r_guard; apply conds_test | exact T]. }
  destruct b as [| y b]; [inversion H |]. apply (texts_chain _ _ ([LBrace] ++ out_no_branch catch ++ [RBrace])); [exact C | discriminate |].
  intros r _. cbn [app]. rewrite <- app_assoc. apply texts_block. apply texts_no_branch.
Qed.
Lemma texts_each f cur : (forall catch c n t c', out_item g first follow managed f cur catch c n = Some (t, c') -> exists L, c_item f cur catch c n = Some (L, c') /\ texts t L) ->
  forall ns catch c a c', out_each (out_item g first follow managed f cur) catch c ns = Some (a, c') -> exists b, c_each (c_item f cur) catch c ns = Some (b, c') /\ same_branches a b.
Proof.
  intros IH. induction ns as [| n ns J]; intros catch c a c' E; cbn [out_each c_each] in *.
  - injection E as <- <-. eexists. split; [reflexivity | constructor].
  - destruct (out_item _ _ _ _ f cur catch c n) as [[t c1] |] eqn:E1; [| discriminate]. cbn [obind fst snd] in E. destruct (IH _ _ _ _ _ E1) as (L & -> & T). cbn [obind fst snd].
    destruct (out_each _ catch c1 ns) as [[q c2] |] eqn:E2; [| discriminate]. cbn [obind fst snd] in E. destruct (J _ _ _ _ E2) as (b & -> & B). cbn [obind fst snd]. injection E as <- <-.
    eexists. split; [reflexivity |]. constructor; [split; [reflexivity | exact T] | exact B].
Qed.
Ltac sub IH E := match type of E with context [out_item ?a ?b ?c ?d ?f ?cur ?catch ?k ?m] =>
  let E1 := fresh "E" in let t := fresh "t" in let k' := fresh "k" in let L := fresh "L" in let T := fresh "T" in let C := fresh "C" in
  destruct (out_item a b c d f cur catch k m) as [[t k'] |] eqn:E1; [| discriminate]; cbn [obind fst snd] in E; destruct (IH _ _ _ _ _ _ E1) as (L & C & T); rewrite C; cbn [obind fst snd] end.
Ltac finish E := apply some_same, pair_equal_spec in E; let E1 := fresh in let E2 := fresh in destruct E as [E1 E2]; rewrite <- E1, <- E2; clear E1 E2; eexists; split; [reflexivity |].
Theorem texts_item : forall f cur catch c n t c', out_item g first follow managed f cur catch c n = Some (t, c') -> exists L, c_item f cur catch c n = Some (L, c') /\ texts t L.
Proof.
  induction f as [| f IH]; intros cur catch c n t c' E; [discriminate |]. cbn [out_item] in E. cbn [c_item].
  destruct (kind g n) as [| | |s|s|i cc a|i cc a|[i|]|l r|l r|i s|tt h|i|i|b ops x|] eqn:K; try discriminate.
  - finish E. apply texts_nil.
  - finish E. apply (texts_app _ [_] _ [_]); [apply texts_token_test | apply texts_do].
  - finish E. apply texts_call.
  - destruct (search_rule g s) as [e |]; [| discriminate]. destruct (kind g e) as [| | |s0|s0|i0 cc a|i0 cc a|i0|l r|l r|i s'|tt h|i0|i0|b ops x|]; try discriminate. sub IH E. finish E.
    destruct (ifs_rule e i s' _ _ T) as [B H]. apply texts_one; [destruct (out_rule g first follow e i s' t0) as [| []]; destruct B; exact I |]. apply (proj1 (H [] SBreak)).
  - sub IH E. finish E. apply texts_one; [exact I |]. intros r N. rewrite <- !app_assoc. cbn [app]. eapply rs_do_while; [apply texts_block; exact T |]. rewrite <- ?app_assoc. cbn [app]. apply r_test. apply conds_test.
  - sub IH E. finish E. apply texts_one; [exact I |]. intros r N. rewrite <- !app_assoc. cbn [app]. eapply rs_while; [apply r_test; apply conds_test |]. rewrite <- ?app_assoc. cbn [app]. apply texts_block. exact T.
  - sub IH E. finish E. apply texts_app; [exact T | apply texts_tree].
  - finish E. apply texts_tree.
  - destruct (flatten g f [l; r]) as [ns |]; [| discriminate]. cbn [obind] in E |- *. destruct (out_each _ catch c ns) as [[a k] |] eqn:E1; [| discriminate]. cbn [obind fst snd] in E.
    destruct (texts_each f cur (IH cur) ns catch c a k E1) as (b & -> & B). cbn [obind fst snd]. finish E. apply texts_branches. exact B.
  - sub IH E. sub IH E. finish E. apply texts_app; assumption.
  - sub IH E. match type of E with obind ?x _ = _ => destruct x as [[tq kq] |] eqn:EQ; [| discriminate] end. cbn [obind fst snd] in E.
    assert (Q : exists Q, match h with Some h => do q <- c_item f cur catch k h; Some (SDo (Restore (S c)) :: SDo (Rewind (S c)) :: fst q, snd q) | None => Some (c_recovery n (S c), k) end = Some (Q, kq) /\ texts tq Q).
    { destruct h as [h |].
      - sub IH EQ. finish EQ. apply (texts_app _ [_]); [apply texts_do |]. apply (texts_app _ [_]); [apply texts_do | assumption].
      - finish EQ. apply texts_recovery. }
    destruct Q as (Q & -> & TQ). cbn [obind fst snd]. finish E.
    assert (X : texts ([KIf; LPar; KFalse; RPar; LBrace; Lab (S c); Colon] ++ tree ++ tq ++ [RBrace]) [SIf (EBool false) (SBlock (SLabel (S c) (SDo Tree) :: Q)) None]).
    { apply texts_one; [exact I |]. intros r N. rewrite <- !app_assoc. cbn [app]. eapply rs_if; [exact N | apply (r_plain KFalse); reflexivity |].
      replace (Lab (S c) :: Colon :: tree ++ tq ++ RBrace :: r) with (([Lab (S c); Colon] ++ tree ++ tq) ++ RBrace :: r) by (rewrite <- !app_assoc; reflexivity).
      apply texts_block. replace ([Lab (S c); Colon] ++ tree ++ tq) with (([Lab (S c); Colon] ++ tree) ++ tq) by (rewrite <- !app_assoc; reflexivity).
      apply (texts_app _ [_]); [| exact TQ]. apply texts_one; [exact I |]. intros r' _. apply rs_label. apply rs_do. }
    assert (B : texts ([LBrace] ++ t0 ++ [RBrace]) [SBlock L]) by (apply texts_one; [exact I |]; intros r _; cbn [app]; rewrite <- app_assoc; apply texts_block; exact T).
    assert (Y : texts (do_ (Mark (S c)) ++ tree ++ [LBrace] ++ t0 ++ [RBrace]) [SDo (Mark (S c)); SDo Tree; SBlock L]).
    { apply (texts_app _ [_]); [apply texts_do |]. apply (texts_app _ [_] _ [_]); [apply texts_do | exact B]. }
    assert (Z : texts (tree ++ [KIf; LPar; KFalse; RPar; LBrace; Lab (S c); Colon] ++ tree ++ tq ++ [RBrace]) [SDo Tree; SIf (EBool false) (SBlock (SLabel (S c) (SDo Tree) :: Q)) None]) by (apply (texts_app _ [_] _ [_]); [apply texts_do | exact X]).
    match goal with |- texts (?p ++ do_ ?m ++ tree ++ [LBrace] ++ ?u ++ [RBrace] ++ ?v) _ => replace (p ++ do_ m ++ tree ++ [LBrace] ++ u ++ [RBrace] ++ v) with (p ++ (do_ m ++ tree ++ [LBrace] ++ u ++ [RBrace]) ++ v) by (rewrite <- !app_assoc; reflexivity) end.
    apply texts_app; [destruct h; [apply texts_do | apply texts_nil] |]. apply texts_app; [exact Y |]. apply texts_app; [destruct h; [apply texts_do | apply texts_nil] | exact Z].
  - destruct (kind g i) as [| | |s| | | | | | | | | | | |]; try discriminate; finish E.
    + apply (texts_app _ [_]); [apply texts_token_test |]. apply (texts_app _ [_] _ [_]); apply texts_do.
    + apply texts_app; [apply texts_call | apply texts_tree].
  - apply IH. exact E.
  - destruct (out_operator _ _ _ cur catch b ops) as [t' |] eqn:E1; [| discriminate]. cbn [obind] in E. destruct (texts_operator cur catch b ops t' (INFIX _ _ _ _ K) E1) as (L & -> & T). cbn [obind]. finish E. exact T.
Qed.
Lemma texts_rules f cur : forall es c l c', out_rules g first follow managed f cur c es = Some (l, c') -> exists b, c_rules f cur c es = Some (b, c') /\ chained l b.
Proof.
  induction es as [| e es IH]; intros c l c' E; cbn [out_rules c_rules] in *; [injection E as <- <-; eexists; split; [reflexivity | constructor] |].
  destruct (kind g e) as [| | |s0|s0|i0 cc a|i0 cc a|i0|l0 r|l0 r|i s|tt h|i0|i0|b ops x|]; try discriminate.
  destruct (out_item _ _ _ _ f cur 0 c i) as [[t k] |] eqn:E1; [| discriminate]. cbn [obind fst snd] in E. destruct (texts_item _ _ _ _ _ _ _ E1) as (L & -> & T). cbn [obind fst snd].
  destruct (out_rules _ _ _ _ f cur k es) as [[q k'] |] eqn:E2; [| discriminate]. cbn [obind fst snd] in E. destruct (IH _ _ _ E2) as (b & -> & B). cbn [obind fst snd]. finish E.
  constructor; [apply ifs_rule; exact T | exact B].
Qed.
(** The body of a function. *)
Theorem function_reads f c s t c' : env g s <> [] -> out_function g first follow managed f c s = Some (t, c') ->
  exists l, c_rules f s c (env g s) = Some (l, c') /\ rstmt t (SBlock (c_body l)) [].
Proof.
  intros N E. unfold out_function in E. destruct (out_rules _ _ _ _ f s c (env g s)) as [[ts k] |] eqn:E1; [| discriminate]. cbn [obind fst snd] in E.
  destruct (texts_rules _ _ _ _ _ _ E1) as (l & C & H). apply some_same, pair_equal_spec in E. destruct E as [E E']. rewrite <- E, <- E'. clear E E'. exists l. split; [exact C |].
  assert (NE : ts <> []).
  { intros ->. inversion H; subst. destruct (env g s) as [| e es]; [congruence |]. cbn [c_rules] in C. destruct (kind g e); try discriminate. destruct (c_item f s 0 c _) as [[? ?] |]; [| discriminate]. cbn [obind fst snd] in C.
    destruct (c_rules f s _ es) as [[? ?] |]; [| discriminate]. cbn [obind] in C. discriminate. }
  match goal with |- rstmt ?x _ _ => replace x with (LBrace :: (tree ++ (out_chain ts ++ [KElse] ++ [LBrace] ++ return_false ++ [RBrace]) ++ tree ++ [KReturn; KTrue; Semi]) ++ RBrace :: []) by (cbn [app]; rewrite <- !app_assoc; reflexivity) end.
  apply texts_block. unfold c_body. apply (texts_app _ [_]); [apply texts_do |]. apply (texts_app _ [_]).
  - apply (texts_chain ts l ([LBrace] ++ return_false ++ [RBrace])); [exact H | exact NE |]. intros r _. cbn [app]. rewrite <- app_assoc. apply texts_block. apply texts_return.
  - apply (texts_app _ [_] _ [_]); [apply texts_do |]. apply texts_one; [exact I |]. intros. apply (rs_return true).
Qed.
End G.
