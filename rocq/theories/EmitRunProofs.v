(** Executing the statements of EmitReadProofs does what ParserModel says. *)
From Coq Require Import List Bool PeanoNat Lia.
From Verif Require Import Base GrammarModel GrammarSpec ParserModel ParserKeepProofs CppSpec EmitModel EmitReadProofs.
Import ListNotations.

(** ** There is only one way to read *)
Lemma exp_step f level l : read_exp (S f) level l =
    match level with
    | 0 => do p <- read_exp f 1 l; match snd p with OrOr :: r => do q <- read_exp f 0 r; Some (EOr (fst p) (fst q), snd q) | _ => Some p end
    | 1 => do p <- read_exp f 2 l; match snd p with AndAnd :: r => do q <- read_exp f 1 r; Some (EAnd (fst p) (fst q), snd q) | _ => Some p end
    | 2 =>
      do p <- read_exp f 3 l;
      match snd p with
      | EqEq :: r => do q <- read_exp f 3 r; Some (EEq (fst p) (fst q), snd q)
      | NotEq :: r => do q <- read_exp f 3 r; Some (ENe (fst p) (fst q), snd q)
      | _ => Some p
      end
    | _ =>
      match l with
      | Not :: r => do p <- read_exp f 3 r; Some (ENot (fst p), snd p)
      | LPar :: r => do p <- read_exp f 0 r; match snd p with RPar :: r => Some (fst p, r) | _ => None end
      | KTrue :: r => Some (EBool true, r)
      | KFalse :: r => Some (EBool false, r)
      | YyToken :: r => Some (EYyToken, r)
      | Kind t :: r => Some (EKind t, r)
      | Blocked :: r => Some (EBlocked, r)
      | AtMark k :: r => Some (EAtMark k, r)
      | Expecting :: r => Some (EExpecting, r)
      | Call s :: r => Some (ECall s, r)
      | User n :: r => Some (EUser n, r)
      | _ => None
      end
    end.
Proof. reflexivity. Qed.
Ltac more_exp IH E := match type of E with
  | context [read_exp ?f ?v ?l] => let E1 := fresh "E" in destruct (read_exp f v l) as [[? ?] |] eqn:E1; [| discriminate]; rewrite (IH _ _ _ E1); cbn [obind fst snd] in E |- *
  end.
Lemma read_exp_more f : forall v l p, read_exp f v l = Some p -> read_exp (S f) v l = Some p.
Proof.
  induction f as [| f IH]; intros v l p E; [discriminate |]. rewrite exp_step in E. rewrite exp_step. destruct v as [| [| [| v]]].
  - more_exp IH E. match goal with |- match ?r with _ => _ end = _ => destruct r as [| [] r]; try exact E end. more_exp IH E. exact E.
  - more_exp IH E. match goal with |- match ?r with _ => _ end = _ => destruct r as [| [] r]; try exact E end. more_exp IH E. exact E.
  - more_exp IH E. match goal with |- match ?r with _ => _ end = _ => destruct r as [| [] r]; try exact E end; more_exp IH E; exact E.
  - destruct l as [| [] l]; try exact E; more_exp IH E; exact E.
Qed.
Lemma read_test_more f l p : read_test f l = Some p -> read_test (S f) l = Some p.
Proof.
  unfold read_test. destruct l as [| [] l]; try discriminate. destruct (read_exp f 0 l) as [[a r] |] eqn:E; [| discriminate]. rewrite (read_exp_more _ _ _ _ E). intros H. exact H.
Qed.
Lemma read_many_more (one one' : list token -> option (stmt * list token)) : (forall l p, one l = Some p -> one' l = Some p) ->
  forall n n' l q, n <= n' -> read_many one n l = Some q -> read_many one' n' l = Some q.
Proof.
  intros H. induction n as [| n IH]; intros n' l q L E.
  - cbn [read_many] in E. destruct l as [| [] l]; try discriminate; destruct n'; exact E.
  - destruct n' as [| n']; [lia |]. cbn [read_many] in E |- *.
    assert (G : (do p <- one l; do q <- read_many one n (snd p); Some (fst p :: fst q, snd q)) = Some q -> (do p <- one' l; do q <- read_many one' n' (snd p); Some (fst p :: fst q, snd q)) = Some q).
    { destruct (one l) as [[s r] |] eqn:E1; [| discriminate]. rewrite (H _ _ E1). cbn [obind fst snd]. destruct (read_many one n r) as [[M r'] |] eqn:E2; [| discriminate]. rewrite (IH n' _ _ ltac:(lia) E2). intros X; exact X. }
    destruct l as [| [] l]; try exact E; apply G; exact E.
Qed.
Ltac more IH E := match type of E with
  | context [read_test ?f ?l] => let E1 := fresh "E" in destruct (read_test f l) as [[? ?] |] eqn:E1; [| discriminate]; rewrite (read_test_more _ _ _ E1); cbn [obind fst snd] in E |- *
  | context [read_stmt ?f ?l] => let E1 := fresh "E" in destruct (read_stmt f l) as [[? ?] |] eqn:E1; [| discriminate]; rewrite (IH _ _ E1); cbn [obind fst snd] in E |- *
  end.
Lemma stmt_step f l : read_stmt (S f) l =
    match l with
    | Do a :: Semi :: r => Some (SDo a, r)
    | KReturn :: KTrue :: Semi :: r => Some (SReturn true, r)
    | KReturn :: KFalse :: Semi :: r => Some (SReturn false, r)
    | KBreak :: Semi :: r => Some (SBreak, r)
    | KGoto :: Lab k :: Semi :: r => Some (SGoto k, r)
    | Lab k :: Colon :: r => do p <- read_stmt f r; Some (SLabel k (fst p), snd p)
    | KIf :: r =>
      do c <- read_test f r; do p <- read_stmt f (snd c);
      match snd p with
      | KElse :: r => do q <- read_stmt f r; Some (SIf (fst c) (fst p) (Some (fst q)), snd q)
      | _ => Some (SIf (fst c) (fst p) None, snd p)
      end
    | KWhile :: r => do c <- read_test f r; do p <- read_stmt f (snd c); Some (SWhile (fst c) (fst p), snd p)
    | KDo :: r =>
      do p <- read_stmt f r;
      match snd p with
      | KWhile :: r => do c <- read_test f r; match snd c with Semi :: r => Some (SDoWhile (fst p) (fst c), r) | _ => None end
      | _ => None
      end
    | LBrace :: r => do p <- read_many (read_stmt f) f r; match snd p with RBrace :: r => Some (SBlock (fst p), r) | _ => None end
    | _ => None
    end.
Proof. reflexivity. Qed.
Lemma read_stmt_more f : forall l p, read_stmt f l = Some p -> read_stmt (S f) l = Some p.
Proof.
  induction f as [| f IH]; intros l p E; [discriminate |]. rewrite stmt_step in E. rewrite stmt_step. destruct l as [| t l]; [discriminate |]. destruct t; try exact E; try discriminate.
  - more IH E. more IH E. match goal with |- match ?r with _ => _ end = _ => destruct r as [| [] r]; try exact E end. more IH E. exact E.
  - more IH E. more IH E. exact E.
  - more IH E. match goal with |- match ?r with _ => _ end = _ => destruct r as [| [] r]; try exact E end. more IH E. exact E.
  - destruct (read_many (read_stmt f) f l) as [[M r] |] eqn:E1; [| discriminate]. rewrite (read_many_more _ (read_stmt (S f)) IH f (S f) _ _ ltac:(lia) E1). exact E.
  - destruct l as [| [] l]; try exact E. more IH E. exact E.
Qed.
Lemma reads_once l b b' : reads l b -> rstmt l (SBlock b') [] -> b = b'.
Proof.
  intros [f E] [K H]. assert (G : forall d, read_stmt (d + f) l = Some (SBlock b, [])) by (induction d; [exact E | apply read_stmt_more; exact IHd]).
  specialize (G K). rewrite H in G by lia. congruence.
Qed.

(** ** Lists of statements *)
Definition continue (ex : option nat -> stmt -> memory -> result) (B : list stmt) (r : result) : result :=
  match r with
  | Normal m => execs ex None B m
  | Jump k m => if existsb (has k) B then execs ex (Some k) B m else Jump k m
  | r => r
  end.
Lemma execs_skip ex k A : existsb (has k) A = false -> forall B m, execs ex (Some k) (A ++ B) m = execs ex (Some k) B m.
Proof. induction A as [| s A IH]; intros H B m; [reflexivity |]. cbn [existsb] in H. apply orb_false_iff in H. destruct H as [H1 H2]. cbn [app execs]. rewrite H1. apply IH. exact H2. Qed.
Lemma execs_step ex s L m : execs ex None (s :: L) m = continue ex L (ex None s m).
Proof. reflexivity. Qed.
Lemma execs_app_both ex A B : (forall m, execs ex None (A ++ B) m = continue ex B (execs ex None A m)) /\
  (forall k m, existsb (has k) A = true -> execs ex (Some k) (A ++ B) m = continue ex B (execs ex (Some k) A m)).
Proof.
  induction A as [| s A [IH1 IH2]]; [split; [reflexivity | discriminate] |].
  assert (C : forall r, continue ex (A ++ B) r = continue ex B (continue ex A r)).
  { intros r. destruct r as [m | k m | b p | m | |]; try reflexivity; cbn [continue]; [apply IH1 |]. rewrite existsb_app. destruct (existsb (has k) A) eqn:H; [apply IH2; exact H |].
    cbn [orb continue]. destruct (existsb (has k) B); [| reflexivity]. apply execs_skip. exact H. }
  split.
  - intros m. change ((s :: A) ++ B) with (s :: A ++ B). rewrite !execs_step. apply C.
  - intros k m H. cbn [existsb] in H. change ((s :: A) ++ B) with (s :: A ++ B). cbn [execs]. destruct (has k s) eqn:Hs; [apply C |]. apply IH2. exact H.
Qed.
Lemma execs_app ex A B m : execs ex None (A ++ B) m = continue ex B (execs ex None A m).
Proof. apply execs_app_both. Qed.

Lemma at_same m : at_pstate (mp m) m = m.
Proof. destruct m; reflexivity. Qed.

Section X.
Variable g : grammar.
Variable first follow : table.
Variable managed : bool.
Variable tok : nat -> id.
Variable cond : nat -> bool.
Variable body : id -> list stmt.
Notation eval := (eval tok cond body).
Notation exec := (exec tok cond body).
Notation terminals_in := (terminals_in g).
Notation run := (run g first follow tok cond).
Notation c_item := (c_item g first follow managed).
Notation c_rules := (c_rules g first follow managed).
Notation c_call := (c_call managed).
Notation a_test := (a_test g first).

Definition evl (e : exp) (m : memory) (v : value) (m' : memory) : Prop := exists K, forall f, K <= f -> eval f e m = Value v m'.
Definition xs (s : stmt) (m : memory) (r : result) : Prop := exists K, forall f, K <= f -> exec f None s m = r.
Definition xl (L : list stmt) (m : memory) (r : result) : Prop := exists K, forall f, K <= f -> execs (exec f) None L m = r.
Definition xk (k : nat) (L : list stmt) (m : memory) (r : result) : Prop := exists K, forall f, K <= f -> execs (exec f) (Some k) L m = r.

Lemma exec_step f seek s m : exec (S f) seek s m =
    match s with
    | SDo a => act tok a m
    | SReturn b => Return b (mp m)
    | SBreak => Break m
    | SGoto k => Jump k m
    | SLabel j s => match seek with Some k => exec f (if Nat.eqb k j then None else seek) s m | None => exec f None s m end
    | SIf c a b =>
      match seek with
      | None => truth (eval f c m) (fun go m => if go then exec f None a m else match b with Some b => exec f None b m | None => Normal m end)
      | Some k => if has k a then exec f seek a m else match b with Some b => exec f seek b m | None => Stuck end
      end
    | SWhile c b =>
      match seek with
      | None =>
        truth (eval f c m) (fun go m =>
          if go then match exec f None b m with Normal m => exec f None s m | Break m => Normal m | r => r end else Normal m)
      | Some _ => match exec f seek b m with Normal m => exec f None s m | Break m => Normal m | r => r end
      end
    | SDoWhile b c =>
      match exec f seek b m with
      | Normal m => truth (eval f c m) (fun go m => if go then exec f None s m else Normal m)
      | Break m => Normal m
      | r => r
      end
    | SBlock l =>
      match execs (exec f) seek l m with
      | Jump k m => if existsb (has k) l then exec f (Some k) s m else Jump k m
      | r => r
      end
    end.
Proof. reflexivity. Qed.

(** *** Expressions *)
Lemma ev_bool b m : evl (EBool b) m (VBool b) m. Proof. fueled 1. reflexivity. Qed.
Lemma ev_yy m : evl EYyToken m (VKind (ptok (mp m))) m. Proof. fueled 1. reflexivity. Qed.
Lemma ev_kind t m : evl (EKind t) m (VKind t) m. Proof. fueled 1. reflexivity. Qed.
Lemma ev_blocked m : evl EBlocked m (VBool (pblock (mp m))) m. Proof. fueled 1. reflexivity. Qed.
Lemma ev_mark k i m : marked m k = Some i -> evl (EAtMark k) m (VBool (Nat.eqb i (pidx (mp m) - 1))) m. Proof. intros H. fueled 1. cbn. rewrite H. reflexivity. Qed.
Lemma ev_expecting b m : expecting m = Some b -> evl EExpecting m (VBool b) m. Proof. intros H. fueled 1. cbn. rewrite H. reflexivity. Qed.
Lemma ev_user n m : evl (EUser n) m (VBool (fst (ask cond (mp m)))) (at_pstate (snd (ask cond (mp m))) m). Proof. fueled 1. reflexivity. Qed.
Lemma ev_not e m b m' : evl e m (VBool b) m' -> evl (ENot e) m (VBool (negb b)) m'.
Proof. intros [K H]. fueled (S K). cbn [CppSpec.eval]. rewrite H by lia. reflexivity. Qed.
Lemma ev_eq a b m x m1 y m2 : evl a m (VKind x) m1 -> evl b m1 (VKind y) m2 -> evl (EEq a b) m (VBool (Nat.eqb x y)) m2.
Proof. intros [K H] [K' H']. fueled (S (K + K')). cbn [CppSpec.eval]. rewrite H by lia. cbn [kind_of]. rewrite H' by lia. reflexivity. Qed.
Lemma ev_ne a b m x m1 y m2 : evl a m (VKind x) m1 -> evl b m1 (VKind y) m2 -> evl (ENe a b) m (VBool (negb (Nat.eqb x y))) m2.
Proof. intros [K H] [K' H']. fueled (S (K + K')). cbn [CppSpec.eval]. rewrite H by lia. cbn [kind_of]. rewrite H' by lia. reflexivity. Qed.
Lemma ev_and_true a b m m1 y m2 : evl a m (VBool true) m1 -> evl b m1 (VBool y) m2 -> evl (EAnd a b) m (VBool y) m2.
Proof. intros [K H] [K' H']. fueled (S (K + K')). cbn [CppSpec.eval]. rewrite H by lia. cbn [bool_of]. rewrite H' by lia. reflexivity. Qed.
Lemma ev_and_false a b m m1 : evl a m (VBool false) m1 -> evl (EAnd a b) m (VBool false) m1.
Proof. intros [K H]. fueled (S K). cbn [CppSpec.eval]. rewrite H by lia. reflexivity. Qed.
Lemma ev_or_true a b m m1 : evl a m (VBool true) m1 -> evl (EOr a b) m (VBool true) m1.
Proof. intros [K H]. fueled (S K). cbn [CppSpec.eval]. rewrite H by lia. reflexivity. Qed.
Lemma ev_or_false a b m m1 y m2 : evl a m (VBool false) m1 -> evl b m1 (VBool y) m2 -> evl (EOr a b) m (VBool y) m2.
Proof. intros [K H] [K' H']. fueled (S (K + K')). cbn [CppSpec.eval]. rewrite H by lia. cbn [bool_of]. rewrite H' by lia. reflexivity. Qed.
Lemma ev_ors m (val : exp -> bool) l : l <> [] -> (forall e, In e l -> evl e m (VBool (val e)) m) -> evl (e_ors l) m (VBool (existsb val l)) m.
Proof.
  induction l as [| a l IH]; intros N H; [congruence |]. destruct l as [| b l].
  - cbn [e_ors existsb]. rewrite orb_false_r. apply H. left. reflexivity.
  - rewrite ors_cons by discriminate. change (existsb val (a :: b :: l)) with (val a || existsb val (b :: l)). pose proof (H a (or_introl eq_refl)) as Ha. destruct (val a).
    + apply ev_or_true. exact Ha.
    + eapply ev_or_false; [exact Ha |]. apply IH; [discriminate |]. intros e I. apply H. right. exact I.
Qed.
Lemma ev_ands m (val : exp -> bool) l : l <> [] -> (forall e, In e l -> evl e m (VBool (val e)) m) -> evl (e_ands l) m (VBool (forallb val l)) m.
Proof.
  induction l as [| a l IH]; intros N H; [congruence |]. destruct l as [| b l].
  - cbn [e_ands forallb]. rewrite andb_true_r. apply H. left. reflexivity.
  - rewrite ands_cons by discriminate. change (forallb val (a :: b :: l)) with (val a && forallb val (b :: l)). pose proof (H a (or_introl eq_refl)) as Ha. destruct (val a).
    + eapply ev_and_true; [exact Ha |]. apply IH; [discriminate |]. intros e I. apply H. right. exact I.
    + apply ev_and_false. exact Ha.
Qed.

Hypothesis FULL1 : forall n, trivial g (first n) = false -> terminals_in (first n) <> [].
Hypothesis FULL2 : forall n, trivial g (follow n) = false -> terminals_in (follow n) <> [].
Definition val (y : id) (e : exp) : bool :=
  match e with EBool b => b | EEq _ (EKind t) => Nat.eqb y t | ENe _ (EKind t) => negb (Nat.eqb y t) | _ => false end.
Lemma ev_is t m : evl (e_is t) m (VBool (val (ptok (mp m)) (e_is t))) m.
Proof. eapply ev_eq; [apply ev_yy | apply ev_kind]. Qed.
Lemma ev_isnt t m : evl (e_not t) m (VBool (val (ptok (mp m)) (e_not t))) m.
Proof. eapply ev_ne; [apply ev_yy | apply ev_kind]. Qed.
Lemma term_small y : is_term g y = true -> y < size g.
Proof. unfold is_term, kind, size. intros H. destruct (Nat.lt_ge_cases y (List.length (gnodes g))) as [L | L]; [exact L |]. rewrite nth_overflow in H by exact L. discriminate. Qed.
Lemma among s y : existsb (Nat.eqb y) (terminals_in s) = is_term g y && s y.
Proof.
  apply eq_true_iff_eq. rewrite existsb_exists, andb_true_iff. split.
  - intros (x & I & E). apply Nat.eqb_eq in E. subst x. apply filter_In in I. destruct I as [_ I]. apply andb_true_iff in I. tauto.
  - intros [T V]. exists y. split; [| apply Nat.eqb_refl]. apply filter_In. split; [apply in_seq; pose proof (term_small y T); lia |]. rewrite V, T. reflexivity.
Qed.
Lemma existsb_map {A B} (p : B -> bool) (h : A -> B) l : existsb p (map h l) = existsb (fun x => p (h x)) l.
Proof. induction l as [| a l IH]; [reflexivity |]. cbn [map existsb]. rewrite IH. reflexivity. Qed.
Lemma val_set s y : existsb (val y) (a_set g s) = test_set g s y.
Proof. unfold a_set, test_set. destruct (trivial g s); [reflexivity |]. cbn [orb]. rewrite <- among. rewrite existsb_map. reflexivity. Qed.
Lemma val_test n y : existsb (val y) (a_test n) = test g first n y.
Proof. unfold EmitReadProofs.a_test, test. destruct (is_term g n); [cbn; apply orb_false_r | apply val_set]. Qed.
Lemma atoms_set s m e : In e (a_set g s) -> evl e m (VBool (val (ptok (mp m)) e)) m.
Proof. unfold a_set. destruct (trivial g s); intros I. - destruct I as [<- | []]. apply ev_bool. - apply in_map_iff in I. destruct I as (t & <- & _). apply ev_is. Qed.
Lemma atoms_test n m e : In e (a_test n) -> evl e m (VBool (val (ptok (mp m)) e)) m.
Proof. unfold EmitReadProofs.a_test. destruct (is_term g n); [intros [<- | []]; apply ev_is | apply atoms_set]. Qed.
Lemma some_test n : a_test n <> [].
Proof. exact (proj1 (conds_test g first FULL1 n)). Qed.
Lemma ev_test n m : evl (e_ors (a_test n)) m (VBool (test g first n (ptok (mp m)))) m.
Proof. rewrite <- val_test. apply ev_ors; [apply some_test | intros; apply (atoms_test n); assumption]. Qed.
Lemma ev_guard e b n m go st : evl e m (VBool b) m -> guarded g cond b n (mp m) = (go, st) -> evl (c_guard g e n) m (VBool go) (at_pstate st m).
Proof.
  intros H E. unfold guarded in E. unfold c_guard. destruct (is_cond g n).
  - destruct b.
    + eapply ev_and_true; [exact H |]. pose proof (ev_user n m) as U. rewrite E in U. exact U.
    + injection E as <- <-. rewrite at_same. apply ev_and_false. exact H.
  - destruct b; injection E as <- <-; rewrite at_same; exact H.
Qed.
Lemma ev_rule_test e i s m go st : guarded g cond (rule_test g first follow e i s (ptok (mp m))) i (mp m) = (go, st) -> evl (c_rule_test g first follow e i s) m (VBool go) (at_pstate st m).
Proof.
  intros E. unfold c_rule_test. eapply ev_guard; [| exact E]. unfold rule_test. rewrite <- val_test.
  replace (existsb (val (ptok (mp m))) (a_test e) || (eps g first i && test_set g (follow s) (ptok (mp m)))) with (existsb (val (ptok (mp m))) (a_test e ++ if eps g first i then a_set g (follow s) else [])).
  - apply ev_ors; [intros X; apply app_eq_nil in X; destruct (some_test e (proj1 X)) |]. intros x I. apply in_app_or in I. destruct I as [I | I]; [apply (atoms_test e); exact I |].
    destruct (eps g first i); [apply (atoms_set (follow s)); exact I | destruct I].
  - rewrite existsb_app. destruct (eps g first i); [rewrite val_set; reflexivity | reflexivity].
Qed.
Lemma ev_op t m : evl (c_op t) m (VBool (if Nat.eqb (ptok (mp m)) t then fst (ask cond (mp m)) else false)) (if Nat.eqb (ptok (mp m)) t then at_pstate (snd (ask cond (mp m))) m else m).
Proof.
  unfold c_op. pose proof (ev_is t m) as H. cbn [val e_is] in H. destruct (Nat.eqb (ptok (mp m)) t).
  - eapply ev_and_true; [exact H | apply ev_user].
  - apply ev_and_false. exact H.
Qed.

(** *** Statements *)
Lemma x_one s m r : xs s m r -> xl [s] m r.
Proof. intros [K H]. exists K. intros f L. cbn [execs]. rewrite H by exact L. destruct r; reflexivity. Qed.
Lemma x_single s m r : xl [s] m r -> xs s m r.
Proof. intros [K H]. exists K. intros f L. specialize (H f L). cbn [execs] in H. destruct (exec f None s m); exact H. Qed.
Lemma xl_normal A B m m1 r : xl A m (Normal m1) -> xl B m1 r -> xl (A ++ B) m r.
Proof. intros [K H] [K' H']. exists (K + K'). intros f L. rewrite execs_app, H by lia. cbn [continue]. apply H'. lia. Qed.
Lemma xl_return A B m b p : xl A m (Return b p) -> xl (A ++ B) m (Return b p).
Proof. intros [K H]. exists K. intros f L. rewrite execs_app, H by lia. reflexivity. Qed.
Lemma xl_jump A B m k m1 : existsb (has k) B = false -> xl A m (Jump k m1) -> xl (A ++ B) m (Jump k m1).
Proof. intros N [K H]. exists K. intros f L. rewrite execs_app, H by lia. cbn [continue]. rewrite N. reflexivity. Qed.
Lemma xl_catch A B m k m1 r : existsb (has k) B = true -> xl A m (Jump k m1) -> xk k B m1 r -> xl (A ++ B) m r.
Proof. intros N [K H] [K' H']. exists (K + K'). intros f L. rewrite execs_app, H by lia. cbn [continue]. rewrite N. apply H'. lia. Qed.
Lemma xs_act a m r : act tok a m = r -> xs (SDo a) m r.
Proof. intros H. fueled 1. exact H. Qed.
Lemma xl_act a L m m1 r : act tok a m = Normal m1 -> xl L m1 r -> xl (SDo a :: L) m r.
Proof. intros H. apply (xl_normal [SDo a]). apply x_one, xs_act. exact H. Qed.
Lemma xs_block L m r : (forall k m', r = Jump k m' -> existsb (has k) L = false) -> xl L m r -> xs (SBlock L) m r.
Proof. intros N [K H]. fueled (S K). rewrite exec_step, H by lia. destruct r; try reflexivity. rewrite (N _ _ eq_refl). reflexivity. Qed.
Lemma xs_if e a b m go m1 r : evl e m (VBool go) m1 -> match go, b with true, _ => xs a m1 r | false, Some b => xs b m1 r | false, None => r = Normal m1 end -> xs (SIf e a b) m r.
Proof.
  intros [K H] G. destruct go.
  - destruct G as [K' G]. fueled (S (K + K')). rewrite exec_step, H by lia. cbn [truth]. apply G. lia.
  - destruct b as [b |].
    + destruct G as [K' G]. fueled (S (K + K')). rewrite exec_step, H by lia. cbn [truth]. apply G. lia.
    + fueled (S K). rewrite exec_step, H by lia. cbn [truth]. symmetry. exact G.
Qed.

Definition keep (c : nat) (m m' : memory) : Prop := (forall k, k <= c -> saved m' k = saved m k) /\ (forall k, k <= c -> marked m' k = marked m k).
Lemma keep_refl c m : keep c m m. Proof. split; reflexivity. Qed.
Lemma keep_at c m p : keep c m (at_pstate p m). Proof. split; reflexivity. Qed.
Lemma keep_trans c a b d : keep c a b -> keep c b d -> keep c a d.
Proof. intros [H1 H2] [J1 J2]. split; intros k L; [rewrite J1, H1 | rewrite J2, H2]; auto. Qed.
Lemma keep_less c c' a b : c <= c' -> keep c' a b -> keep c a b.
Proof. intros L [H1 H2]. split; intros k Lk; [apply H1 | apply H2]; lia. Qed.
Definition leave (catch : nat) (m : memory) : result := match catch with 0 => Return false (mp m) | k => Jump k m end.
Definition ends (c catch : nat) (m : memory) (L : list stmt) (o : outcome) : Prop :=
  match o with
  | Done st => exists m', mp m' = st /\ keep c m m' /\ xl L m (Normal m')
  | Fail st => exists m', mp m' = st /\ keep c m m' /\ xl L m (leave catch m')
  | _ => True
  end.
Lemma ends_less c c' catch m L o : c <= c' -> ends c' catch m L o -> ends c catch m L o.
Proof. intros H. destruct o; cbn [ends]; auto; intros (m' & A & B & C); exists m'; eauto using keep_less. Qed.
(** [A] is left to the end, then [B]. *)
Lemma ends_seq c catch m A B o k : existsb (has catch) B = false -> ends c catch m A o -> (forall m1, keep c m m1 -> o = Done (mp m1) -> ends c catch m1 B (k (mp m1))) ->
  ends c catch m (A ++ B) (next_do o k).
Proof.
  intros N H J. destruct o as [st | st | |]; cbn [ends next_do] in *; auto.
  - destruct H as (m1 & <- & K1 & X1). specialize (J m1 K1 eq_refl). destruct (k (mp m1)); cbn [ends] in *; auto; destruct J as (m2 & E & K2 & X2); exists m2; (split; [exact E |]; split; [eapply keep_trans; eassumption |]; eapply xl_normal; eassumption).
  - destruct H as (m1 & <- & K1 & X1). exists m1. split; [reflexivity |]. split; [exact K1 |]. destruct catch; cbn [leave] in *; [apply xl_return; exact X1 | apply xl_jump; assumption].
Qed.
(** Something that changes the parser only goes before. *)
Lemma ends_before c catch m m1 A B o : xl A m (Normal m1) -> keep c m m1 -> ends c catch m1 B o -> ends c catch m (A ++ B) o.
Proof. intros X K H. destruct o; cbn [ends] in *; auto; destruct H as (m' & E & K' & X'); exists m'; (split; [exact E |]; split; [eapply keep_trans; eassumption |]; eapply xl_normal; eassumption). Qed.
Lemma ends_after c catch m A B o : existsb (has catch) B = false -> ends c catch m A o -> (forall m1, xl B m1 (Normal m1)) -> ends c catch m (A ++ B) o.
Proof.
  intros N H J. destruct o as [st | st | |]; cbn [ends] in *; auto; destruct H as (m1 & E & K1 & X1); exists m1; (split; [exact E |]; split; [exact K1 |]).
  - eapply xl_normal; [exact X1 | apply J].
  - destruct catch; cbn [leave] in *; [apply xl_return; exact X1 | apply xl_jump; assumption].
Qed.
Lemma ends_block c catch m L o : existsb (has catch) L = false -> ends c catch m L o -> ends c catch m [SBlock L] o.
Proof.
  intros N H. destruct o as [st | st | |]; cbn [ends] in *; auto; destruct H as (m1 & E & K1 & X1); exists m1; (split; [exact E |]; split; [exact K1 |]); apply x_one, xs_block; try exact X1; intros k m' J; [discriminate |].
  destruct catch; cbn [leave] in J; [discriminate |]. injection J as <- <-. exact N.
Qed.
Lemma ends_if c catch m e a b go m1 o : evl e m (VBool go) m1 -> keep c m m1 -> match go, b with true, _ => ends c catch m1 [a] o | false, Some b => ends c catch m1 [b] o | false, None => o = Done (mp m1) end ->
  ends c catch m [SIf e a b] o.
Proof.
  intros E K H. destruct go; [| destruct b as [b |]].
  - destruct o; cbn [ends] in *; auto; destruct H as (m' & E' & K' & X'); exists m'; (split; [exact E' |]; split; [eapply keep_trans; eassumption |]; apply x_one; eapply xs_if; [exact E |]; apply x_single; exact X').
  - destruct o; cbn [ends] in *; auto; destruct H as (m' & E' & K' & X'); exists m'; (split; [exact E' |]; split; [eapply keep_trans; eassumption |]; apply x_one; eapply xs_if; [exact E |]; apply x_single; exact X').
  - subst o. exists m1. split; [reflexivity |]. split; [exact K |]. apply x_one. eapply xs_if; [exact E | reflexivity].
Qed.

(** *** Labels *)
Lemma has_chain k l last : has k (c_chain l last) = existsb (fun eb => existsb (has k) (snd eb)) l || has k last.
Proof. induction l as [| [e b] l IH]; [reflexivity |]. cbn [c_chain has existsb snd]. rewrite IH. apply orb_assoc. Qed.
Lemma has_fail k catch : has k (c_fail managed catch) = false.
Proof. destruct catch; [| reflexivity]. cbn [c_fail has existsb]. destruct managed; reflexivity. Qed.
Lemma has_call k catch s : existsb (has k) (c_call catch s) = false.
Proof. unfold EmitReadProofs.c_call. cbn [existsb has orb]. destruct catch; [rewrite has_fail |]; reflexivity. Qed.
Lemma has_no_branch k catch : has k (SBlock [c_no_branch catch]) = false.
Proof. destruct catch; reflexivity. Qed.
Lemma none_in {A} (p : A -> bool) l : (forall x, In x l -> p x = false) -> existsb p l = false.
Proof. intros H. apply not_true_iff_false. intros E. apply existsb_exists in E. destruct E as (x & I & E). rewrite H in E by exact I. discriminate. Qed.
Lemma choose_in {A} (h : op -> option A) l a : In a (choose h l) -> exists o, In o l /\ h o = Some a.
Proof. intros I. apply in_flat_map in I. destruct I as (o & Io & I). exists o. split; [exact Io |]. destruct (h o) as [a' |]; [destruct I as [<- | []]; reflexivity | destruct I]. Qed.
Lemma has_loop k cur catch base ops : has k (c_loop g first managed cur catch base ops) = false.
Proof.
  unfold c_loop. cbn [has existsb]. rewrite !has_chain. cbn [has existsb orb]. rewrite !orb_false_r. apply orb_false_iff. split; apply none_in; intros [e b] I; cbn [snd].
  - apply in_app_or in I. destruct I as [I | I]; apply choose_in in I; destruct I as (o & _ & E); destruct o; try discriminate; injection E as <- <-; reflexivity.
  - apply in_app_or in I. destruct I as [I | [I | []]].
    + assert (P : exists o, c_prefix g first managed cur catch o = Some (e, b)) by (apply in_app_or in I; destruct I as [I | I]; apply choose_in in I; destruct I as (o & _ & E); eauto).
      destruct P as (o & E). destruct o; try discriminate; injection E as <- <-; [reflexivity |]. cbn [existsb has orb]. destruct catch; [destruct managed |]; reflexivity.
    + injection I as <- <-. destruct catch; [destruct managed |]; reflexivity.
Qed.
Definition unlabelled (c : nat) (L : list stmt) (c' : nat) : Prop := c <= c' /\ forall k, k <= c -> existsb (has k) L = false.
Lemma has_rule k e i s L : existsb (has k) (snd (c_rule g first follow e i s L)) = existsb (has k) L.
Proof. unfold c_rule. cbn [snd existsb has orb]. rewrite existsb_app. destruct (mem s (gstart g)); cbn; apply orb_false_r. Qed.
Lemma each_unlabelled (rec : nat -> nat -> id -> option (list stmt * nat)) : (forall catch c n L c', rec catch c n = Some (L, c') -> unlabelled c L c') ->
  forall ns catch c b c', c_each rec catch c ns = Some (b, c') -> c <= c' /\ forall k, k <= c -> existsb (fun x => existsb (has k) (snd x)) b = false.
Proof.
  intros H. induction ns as [| n ns IH]; intros catch c b c' E; cbn [c_each] in E.
  - injection E as <- <-. split; [lia | reflexivity].
  - destruct (rec catch c n) as [[L c1] |] eqn:E1; [| discriminate]. cbn [obind fst snd] in E. destruct (c_each rec catch c1 ns) as [[q c2] |] eqn:E2; [| discriminate]. cbn [obind fst snd] in E. injection E as <- <-.
    destruct (H _ _ _ _ _ E1) as [A1 A2], (IH _ _ _ _ E2) as [B1 B2]. split; [lia |]. intros k Lk. cbn [existsb snd]. rewrite A2, B2 by lia. reflexivity.
Qed.
Ltac sub IH E := match type of E with context [EmitReadProofs.c_item ?a ?b ?c ?d ?f ?cur ?catch ?k ?m] =>
  let E1 := fresh "E" in let k' := fresh "k" in let L := fresh "L" in let A := fresh "A" in let B := fresh "B" in
  destruct (EmitReadProofs.c_item a b c d f cur catch k m) as [[L k'] |] eqn:E1; [| discriminate]; cbn [obind fst snd] in E; destruct (IH _ _ _ _ _ _ E1) as [A B] end.
Ltac same E := apply some_same, pair_equal_spec in E; let E1 := fresh in let E2 := fresh in destruct E as [E1 E2]; rewrite <- ?E1, <- ?E2; clear E1 E2.
Lemma item_unlabelled : forall ff cur catch c n L c', c_item ff cur catch c n = Some (L, c') -> unlabelled c L c'.
Proof.
  induction ff as [| ff IH]; intros cur catch c n L c' E; [discriminate |]. cbn [EmitReadProofs.c_item] in E.
  destruct (kind g n) as [| | |s|s|i cc a|i cc a|[i|]|l r|l r|i s|tt h|i|i|b ops x|]; try discriminate.
  - same E. split; [lia | reflexivity].
  - same E. split; [lia |]. intros k _. cbn [existsb has orb c_token_test]. rewrite has_fail. reflexivity.
  - same E. split; [lia |]. intros k _. apply has_call.
  - destruct (search_rule g s) as [e |]; [| discriminate]. destruct (kind g e) as [| | |s0|s0|i0 cc a|i0 cc a|i0|l r|l r|i s'|tt h|i0|i0|b ops x|]; try discriminate. sub IH E.
    pose proof (fun k => has_rule k e i s' L0) as HR. destruct (c_rule g first follow e i s' L0) as [t0 b0]. cbn [snd] in HR. same E. split; [exact A |]. intros k0 Lk. cbn [existsb has orb]. rewrite HR, B by exact Lk. reflexivity.
  - sub IH E. same E. split; [exact A |]. intros k0 Lk. cbn [existsb has orb]. rewrite B by exact Lk. reflexivity.
  - sub IH E. same E. split; [exact A |]. intros k0 Lk. cbn [existsb has orb]. rewrite B by exact Lk. reflexivity.
  - sub IH E. same E. split; [exact A |]. intros k0 Lk. rewrite existsb_app, B by exact Lk. reflexivity.
  - same E. split; [lia | reflexivity].
  - destruct (flatten g ff [l; r]) as [ns |]; [| discriminate]. cbn [obind] in E. destruct (c_each (c_item ff cur) catch c ns) as [[b k1] |] eqn:E1; [| discriminate]. cbn [obind fst snd] in E.
    destruct (each_unlabelled _ (IH cur) _ _ _ _ _ E1) as [A B]. same E. split; [exact A |]. intros k Lk. destruct b as [| b0 b]; [reflexivity |]. cbn [existsb]. rewrite has_chain, has_no_branch, !orb_false_r.
    rewrite existsb_map. exact (B k Lk).
  - sub IH E. sub IH E. same E. split; [lia |]. intros k1 Lk. rewrite existsb_app, B, B0 by lia. reflexivity.
  - sub IH E. match type of E with obind ?x _ = _ => destruct x as [[Q kq] |] eqn:EQ; [| discriminate] end. cbn [obind fst snd] in E.
    assert (X : unlabelled k Q kq).
    { destruct h as [h |]; [| same EQ; split; [lia | reflexivity]]. sub IH EQ. same EQ. split; [lia |]. intros j Lj. cbn [existsb has orb]. apply B0. exact Lj. }
    destruct X as [X1 X2]. same E. split; [lia |]. intros j Lj. rewrite !existsb_app. cbn [existsb has orb].
    assert (NJ : Nat.eqb j (S c) = false) by (apply Nat.eqb_neq; lia). rewrite NJ, B, X2 by lia. destruct h; reflexivity.
  - destruct (kind g i) as [| | |s| | | | | | | | | | | |]; try discriminate; same E; (split; [lia |]); intros k _.
    + cbn [existsb has orb c_token_test]. rewrite has_fail. reflexivity.
    + rewrite existsb_app, has_call. reflexivity.
  - exact (IH _ _ _ _ _ _ E).
  - destruct (c_operator g first managed cur catch b ops) as [t |] eqn:E1; [| discriminate]. cbn [obind] in E. same E. split; [lia |]. intros k _. unfold c_operator in E1. destruct (existsb is_tern ops); [discriminate |].
    destruct (kind g b); try discriminate. apply some_same in E1. rewrite <- E1. cbn [existsb]. rewrite has_loop. reflexivity.
Qed.

(** *** Operators *)
Lemma chain_pick {A} (sel : op -> option (id * A)) (cls : op -> bool) (cb : op -> option (exp * list stmt)) (blk : A -> list stmt) :
  (forall o, match sel o with Some (t, a) => cls o = true /\ cb o = Some (c_op t, blk a) | None => cls o = false end) ->
  forall ops m p st1 rest last r, pick cond sel ops (mp m) = (p, st1) ->
  match p with Some a => xs (SBlock (blk a)) (at_pstate st1 m) r | None => xs (c_chain rest last) (at_pstate st1 m) r end ->
  xs (c_chain (choose cb (filter cls ops) ++ rest) last) m r.
Proof.
  intros H. induction ops as [| o ops IH]; intros m p st1 rest last r E X; cbn [pick] in E.
  - injection E as <- <-. rewrite at_same in X. exact X.
  - specialize (H o). cbn [filter]. destruct (sel o) as [[t a] |].
    + destruct H as [-> Hb]. unfold choose. cbn [flat_map]. rewrite Hb. cbn [app]. fold (choose cb (filter cls ops)). cbn [c_chain]. eapply xs_if; [apply ev_op |].
      destruct (Nat.eqb (ptok (mp m)) t).
      * destruct (ask cond (mp m)) as [c st0] eqn:Ea. cbn [fst snd]. destruct c.
        -- injection E as <- <-. exact X.
        -- assert (M : mp (at_pstate st0 m) = st0) by reflexivity. rewrite <- M in E. eapply IH; [exact E |]. destruct p; exact X.
      * eapply IH; [exact E | exact X].
    + rewrite H. eapply IH; eassumption.
Qed.

(** *** Calls *)
Definition open_ (p : pstate) : Prop := managed = false -> pblock p = false.
Definition caught (catch : nat) : bool := negb (Nat.eqb catch 0).
Lemma fail_runs catch m : open_ (mp m) -> xs (c_fail managed catch) m (leave catch (at_pstate (report (caught catch) (mp m)) m)).
Proof.
  intros O. destruct catch as [| k]; [| cbn [c_fail leave caught Nat.eqb negb report orb]; rewrite at_same; fueled 1; reflexivity].
  cbn [c_fail leave caught Nat.eqb negb report orb mp at_pstate]. apply xs_block; [discriminate |]. unfold open_ in O. destruct managed.
  - apply (xl_normal [_] [_] _ (at_pstate (if pblock (mp m) then mp m else complain (mp m)) m)).
    + apply x_one. eapply xs_if; [apply ev_not, ev_blocked |]. destruct (pblock (mp m)); cbn [negb]; [rewrite at_same; reflexivity |].
      apply xs_block; [discriminate |]. apply x_one, xs_act. reflexivity.
    + apply x_one. fueled 1. reflexivity.
  - eapply xl_act; [reflexivity |]. apply x_one. fueled 1. rewrite exec_step. specialize (O eq_refl). cbn. unfold report. cbn. rewrite O. reflexivity.
Qed.
Definition calls (s : id) (m : memory) (o : outcome) : Prop :=
  match o with
  | Done st => evl (ECall s) m (VBool true) (at_pstate st m)
  | Fail st => evl (ECall s) m (VBool false) (at_pstate st m) /\ open_ st
  | _ => True
  end.
Lemma ends_call c catch s m o : calls s m o -> ends c catch m (c_call catch s) (called (caught catch) o).
Proof.
  intros H. destruct o as [st | st | |]; cbn [calls called ends] in *; auto.
  - exists (at_pstate st m). split; [reflexivity |]. split; [apply keep_at |]. eapply xl_act; [reflexivity |]. apply x_one. eapply xs_if; [apply ev_not; exact H | reflexivity].
  - destruct H as [H O]. exists (at_pstate (report (caught catch) st) m). split; [reflexivity |]. split; [apply keep_at |]. eapply xl_act; [reflexivity |]. apply x_one. eapply xs_if; [apply ev_not; exact H |]. cbn [negb].
    pose proof (fail_runs catch (at_pstate st m) O) as F. cbn [mp at_pstate saved marked expecting] in F. destruct catch as [| k]; [exact F |]. cbn [c_fail] in F |- *. apply xs_block; [cbn [leave]; intros ? ? _; reflexivity |].
    apply x_one. exact F.
Qed.
Lemma ends_token c catch t m : open_ (mp m) -> forall B, (forall m1, mp m1 = mp m -> keep c m m1 -> exists m2, mp m2 = yylex tok (mp m) /\ keep c m m2 /\ xl B m1 (Normal m2)) -> existsb (has catch) B = false ->
  ends c catch m (c_token_test managed catch t :: B) (if Nat.eqb (ptok (mp m)) t then Done (yylex tok (mp m)) else Fail (report (caught catch) (mp m))).
Proof.
  intros O B HB N. pose proof (ev_isnt t m) as E. cbn [val e_not] in E. change (c_token_test managed catch t :: B) with ([c_token_test managed catch t] ++ B). destruct (Nat.eqb (ptok (mp m)) t); cbn [ends negb] in *.
  - destruct (HB m eq_refl (keep_refl _ _)) as (m2 & E2 & K2 & X2). exists m2. split; [exact E2 |]. split; [exact K2 |]. eapply xl_normal; [| exact X2]. apply x_one. eapply xs_if; [exact E | reflexivity].
  - exists (at_pstate (report (caught catch) (mp m)) m). split; [reflexivity |]. split; [apply keep_at |]. pose proof (fail_runs catch m O) as F.
    assert (X : xl [c_token_test managed catch t] m (leave catch (at_pstate (report (caught catch) (mp m)) m))) by (apply x_one; eapply xs_if; [exact E | exact F]).
    destruct catch; cbn [leave] in *; [apply xl_return; exact X | apply xl_jump; assumption].
Qed.
Lemma skip_runs c n f : forall m, match skip g follow tok f n (mp m) with
  | Done st => exists m', mp m' = st /\ keep c m m' /\ xs (SWhile (e_ands (map e_not (geof g :: terminals_in (follow n)))) (SBlock [SDo Lex])) m (Normal m')
  | Fail _ => False
  | _ => True
  end.
Proof.
  induction f as [| f IH]; intros m; cbn [skip]; [exact I |].
  assert (V : evl (e_ands (map e_not (geof g :: terminals_in (follow n)))) m (VBool (negb (Nat.eqb (ptok (mp m)) (geof g) || (is_term g (ptok (mp m)) && follow n (ptok (mp m)))))) m).
  { rewrite <- among. replace (negb (Nat.eqb (ptok (mp m)) (geof g) || existsb (Nat.eqb (ptok (mp m))) (terminals_in (follow n)))) with (forallb (val (ptok (mp m))) (map e_not (geof g :: terminals_in (follow n)))).
    - apply ev_ands; [discriminate |]. intros e I. apply in_map_iff in I. destruct I as (t & <- & _). apply ev_isnt.
    - cbn [map forallb val e_not]. rewrite negb_orb. f_equal. clear IH. induction (terminals_in (follow n)) as [| t l IHl]; [reflexivity |]. cbn [map forallb existsb val e_not]. rewrite negb_orb, IHl. reflexivity. }
  destruct (Nat.eqb (ptok (mp m)) (geof g) || (is_term g (ptok (mp m)) && follow n (ptok (mp m)))) eqn:T; cbn [negb] in V.
  - exists m. split; [reflexivity |]. split; [apply keep_refl |]. destruct V as [K V]. fueled (S K). rewrite exec_step, V by lia. reflexivity.
  - specialize (IH (at_pstate (yylex tok (mp m)) m)). cbn [mp at_pstate] in IH. destruct (skip g follow tok f n (yylex tok (mp m))); auto. destruct IH as (m' & E & Kp & [K' X]). exists m'. split; [exact E |]. split; [exact Kp |].
    destruct V as [K V]. assert (B : xs (SBlock [SDo Lex]) m (Normal (at_pstate (yylex tok (mp m)) m))) by (apply xs_block; [discriminate |]; apply x_one, xs_act; reflexivity). destruct B as [K2 B].
    fueled (S (K + K' + K2)). rewrite exec_step, V by lia. cbn [truth]. rewrite B by lia. apply X. lia.
Qed.

(** *** The program *)
Hypothesis NON : forall n s, kind g n = NNon s -> kind g s = NSym.
Hypothesis INL : forall n s e i s', kind g n = NInl s -> search_rule g s = Some e -> kind g e = NEvolve i s' -> mem s' (gstart g) = false /\ forall b ops x, kind g i <> NOper b ops x.
Hypothesis TOP : forall n m b ops x, child g n m -> kind g m = NOper b ops x -> exists s, kind g n = NEvolve m s.
Hypothesis MAN : managed = true \/ forall n t h, kind g n <> NTry t (Some h).
Hypothesis BODY : forall s, kind g s = NSym -> exists ff c l c', c_rules ff s c (env g s) = Some (l, c') /\ body s = c_body l.

Definition odd (n : id) : Prop := forall b ops x, kind g n <> NOper b ops x.
Lemma run_open f cur cc j st st' : (forall n b ops, j = Operand n b ops \/ j = Operator n b ops -> exists b ops x, kind g n = NOper b ops x) -> run f cur cc j st = Done st' \/ run f cur cc j st = Fail st' -> open_ st -> open_ st'.
Proof. intros L E O H. pose proof (run_keeps g first follow tok cond f cur cc j st L) as Kp. rewrite <- (O H). destruct E as [E | E]; rewrite E in Kp; apply Kp. Qed.
Lemma item_open f cur cc n st st' : run f cur cc (Item n) st = Done st' \/ run f cur cc (Item n) st = Fail st' -> open_ st -> open_ st'.
Proof. apply run_open. intros ? ? ? [E | E]; discriminate. Qed.
Lemma rules_open f cur cc es st st' : run f cur cc (Rules es) st = Done st' \/ run f cur cc (Rules es) st = Fail st' -> open_ st -> open_ st'.
Proof. apply run_open. intros ? ? ? [E | E]; discriminate. Qed.
Lemma called_same cc o st : called cc o = Done st -> o = Done st.
Proof. destruct o; cbn; congruence. Qed.
Lemma guarded_open b n st go st' : guarded g cond b n st = (go, st') -> open_ st -> open_ st'.
Proof. intros E O H. rewrite (proj1 (guarded_keeps g cond b n st go st' E)). auto. Qed.
Lemma pick_open {A} (sel : op -> option (id * A)) ops st r st' : pick cond sel ops st = (r, st') -> open_ st -> open_ st'.
Proof. intros E O H. rewrite (proj1 (pick_keeps cond sel ops st r st' E)). auto. Qed.

Definition items_ok (f : nat) : Prop := forall ff cur catch c n L c' m, c_item ff cur catch c n = Some (L, c') -> catch <= c -> kind g cur = NSym -> (catch <> 0 -> odd n) -> open_ (mp m) ->
  ends c catch m L (run f cur (caught catch) (Item n) (mp m)).
Definition rules_ok (f : nat) : Prop := forall ff cur c es l c' m, c_rules ff cur c es = Some (l, c') -> kind g cur = NSym -> open_ (mp m) ->
  ends c 0 m [c_chain l (SBlock [SReturn false])] (run f cur false (Rules es) (mp m)).
Definition branches_ok (f : nat) : Prop := forall ff cur catch c ns b c' m, c_each (c_item ff cur) catch c ns = Some (b, c') -> catch <= c -> kind g cur = NSym -> (forall n, In n ns -> catch <> 0 -> odd n) -> open_ (mp m) ->
  ends c catch m [c_chain (map (c_branch g first) b) (SBlock [c_no_branch catch])] (run f cur (caught catch) (Branches ns) (mp m)).
Definition operators_ok (f : nat) : Prop := forall cur c n b ops base m, (exists b ops x, kind g n = NOper b ops x) -> kind g b = NNon base -> existsb is_tern ops = false -> kind g cur = NSym -> open_ (mp m) ->
  (expecting m = Some false -> ends c 0 m [c_loop g first managed cur 0 base ops] (run f cur false (Operand n b ops) (mp m))) /\
  (expecting m = Some true -> ends c 0 m [c_loop g first managed cur 0 base ops] (run f cur false (Operator n b ops) (mp m))).

Lemma call_ok f s m : rules_ok f -> kind g s = NSym -> open_ (mp m) -> calls s m (run f s false (Rules (env g s)) (mp m)).
Proof.
  intros R Sy O. destruct (BODY s Sy) as (ff & c & l & c' & E & B). pose proof (R ff s c (env g s) l c' (fresh (mp m)) E Sy O) as X. cbn [mp fresh] in X. pose proof (rules_open f s false (env g s) (mp m)) as Op.
  destruct (run f s false (Rules (env g s)) (mp m)) as [st | st | |]; cbn [calls ends] in *; auto.
  - destruct X as (m' & <- & _ & X).
    assert (Y : xs (SBlock (c_body l)) (fresh (mp m)) (Return true (mp m'))).
    { apply xs_block; [discriminate |]. unfold c_body. eapply xl_act; [reflexivity |]. apply (xl_normal [_] [_; _] _ m'); [exact X |]. eapply xl_act; [reflexivity |]. apply x_one. fueled 1. reflexivity. }
    destruct Y as [K Y]. fueled (S K). cbn [CppSpec.eval]. rewrite B, Y by lia. reflexivity.
  - destruct X as (m' & <- & _ & X). split; [| apply (Op (mp m')); auto].
    assert (Y : xs (SBlock (c_body l)) (fresh (mp m)) (Return false (mp m'))).
    { apply xs_block; [discriminate |]. unfold c_body. eapply xl_act; [reflexivity |]. apply (xl_return [_] [_; _]). exact X. }
    destruct Y as [K Y]. fueled (S K). cbn [CppSpec.eval]. rewrite B, Y by lia. reflexivity.
Qed.
Lemma flatten_children f : forall work ns, flatten g f work = Some ns -> forall n, In n ns -> In n work \/ exists a, child g a n /\ forall i s, kind g a <> NEvolve i s.
Proof.
  induction f as [| f IH]; intros work ns E n I; [discriminate |]. cbn [flatten] in E. destruct work as [| x work]; [injection E as <-; destruct I |].
  destruct (kind g x) as [| | |s|s|i cc a|i cc a|i|l r|l r|i s|tt h|i|i|b ops y|] eqn:K;
    try (destruct (flatten g f work) as [rest |] eqn:E1; [| discriminate]; injection E as <-; destruct I as [<- | I]; [left; left; reflexivity |]; destruct (IH _ _ E1 n I) as [H | H]; [left; right; exact H | right; exact H]).
  destruct (IH _ _ E n I) as [[<- | [<- | H]] | H]; [right | right | left; right; exact H | right; exact H]; exists x; (split; [unfold child; rewrite K; auto | intros; congruence]).
Qed.
Lemma inner_odd n m : child g n m -> (forall i s, kind g n <> NEvolve i s) -> odd m.
Proof. intros C N b ops x K. destruct (TOP n m b ops x C K) as [s E]. destruct (N _ _ E). Qed.
Ltac kid K := match type of K with kind g ?a = _ => apply (inner_odd a _) end; [unfold child; rewrite K; auto | intros; congruence].

Lemma step_rules f : items_ok f -> rules_ok f -> rules_ok (S f).
Proof.
  intros I R ff cur c es l c' m E Sy O. destruct es as [| e es]; cbn [EmitReadProofs.c_rules] in E; cbn [ParserModel.run].
  - injection E as <- <-. exists m. split; [reflexivity |]. split; [apply keep_refl |]. apply x_one. cbn [c_chain leave]. apply xs_block; [discriminate |]. apply x_one. fueled 1. reflexivity.
  - destruct (kind g e) as [| | |s0|s0|i0 cc a|i0 cc a|i0|l0 r|l0 r|i s|tt h|i0|i0|b ops x|] eqn:K; try discriminate.
    destruct (c_item ff cur 0 c i) as [[L c1] |] eqn:E1; [| discriminate]. cbn [obind fst snd] in E. destruct (c_rules ff cur c1 es) as [[q c2] |] eqn:E2; [| discriminate]. cbn [obind fst snd] in E. injection E as <- <-.
    destruct (guarded g cond (rule_test g first follow e i s (ptok (mp m))) i (mp m)) as [go st] eqn:G. pose proof (guarded_open _ _ _ _ _ G O) as O1. destruct (item_unlabelled _ _ _ _ _ _ _ E1) as [Le Un].
    unfold c_rule. cbn [c_chain]. eapply ends_if; [apply ev_rule_test; exact G | apply keep_at |]. destruct go.
    + apply ends_block; [cbn [existsb has orb]; rewrite existsb_app, Un by lia; destruct (mem s (gstart g)); reflexivity |].
      eapply (ends_before _ _ _ _ [_]); [apply x_one, xs_act; reflexivity | apply keep_refl |].
      apply ends_seq; [destruct (mem s (gstart g)); reflexivity | |].
      * exact (I ff cur 0 c i L c1 (at_pstate st m) E1 (Nat.le_0_l _) Sy (fun N => match N eq_refl with end) O1).
      * intros m1 _ _. destruct (mem s (gstart g)); cbn [andb]; [| exists m1; split; [reflexivity |]; split; [apply keep_refl |]; exists 0; reflexivity].
        assert (V : evl (ENe (EKind (geof g)) EYyToken) m1 (VBool (negb (Nat.eqb (ptok (mp m1)) (geof g)))) m1) by (rewrite Nat.eqb_sym; eapply ev_ne; [apply ev_kind | apply ev_yy]).
        eapply ends_if; [exact V | apply keep_refl |]. destruct (Nat.eqb (ptok (mp m1)) (geof g)); cbn [negb]; [reflexivity |]. exists m1. split; [reflexivity |]. split; [apply keep_refl |].
        apply x_one, xs_block; [discriminate |]. apply x_one. fueled 1. reflexivity.
    + apply (ends_less c c1); [exact Le |]. exact (R ff cur c1 es q c2 (at_pstate st m) E2 Sy O1).
Qed.
Lemma step_branches f : items_ok f -> branches_ok f -> branches_ok (S f).
Proof.
  intros I B ff cur catch c ns b c' m E Lc Sy Od O. destruct ns as [| n ns]; cbn [c_each] in E; cbn [ParserModel.run].
  - injection E as <- <-. exists m. split; [reflexivity |]. split; [apply keep_refl |]. apply x_one. cbn [map c_chain]. apply xs_block; [intros k m' _; destruct catch; reflexivity |]. apply x_one. destruct catch; fueled 1; reflexivity.
  - destruct (c_item ff cur catch c n) as [[L c1] |] eqn:E1; [| discriminate]. cbn [obind fst snd] in E. destruct (c_each (c_item ff cur) catch c1 ns) as [[q c2] |] eqn:E2; [| discriminate]. cbn [obind fst snd] in E. injection E as <- <-.
    destruct (guarded g cond (test g first n (ptok (mp m))) n (mp m)) as [go st] eqn:G. pose proof (guarded_open _ _ _ _ _ G O) as O1. destruct (item_unlabelled _ _ _ _ _ _ _ E1) as [Le Un].
    cbn [map c_branch fst snd c_chain]. eapply ends_if; [eapply ev_guard; [apply ev_test | exact G] | apply keep_at |]. destruct go.
    + apply ends_block; [apply Un; exact Lc |]. exact (I ff cur catch c n L c1 (at_pstate st m) E1 Lc Sy (Od n (or_introl eq_refl)) O1).
    + apply (ends_less c c1); [exact Le |]. exact (B ff cur catch c1 ns q c2 (at_pstate st m) E2 ltac:(lia) Sy (fun x Ix => Od x (or_intror Ix)) O1).
Qed.

Lemma loop_end cur base ops m r b : expecting m = Some b ->
  xs (if b then c_chain (c_infixes ops) SBreak else c_chain (c_prefixes g first managed cur 0 base ops) (SBlock [SDo Complain; SReturn false])) m r ->
  match r with Normal m1 => forall r', xs (c_loop g first managed cur 0 base ops) m1 r' -> xs (c_loop g first managed cur 0 base ops) m r' | Break m1 => xs (c_loop g first managed cur 0 base ops) m (Normal m1) | Return v p => xs (c_loop g first managed cur 0 base ops) m (Return v p) | _ => True end.
Proof.
  intros Ex X. destruct r as [m1 | k m1 | v p | m1 | |]; auto.
  - intros r' [K' Y]. assert (B : xs (SBlock [SIf EExpecting (SBlock [c_chain (c_infixes ops) SBreak]) (Some (SBlock [c_chain (c_prefixes g first managed cur 0 base ops) (SBlock [SDo Complain; SReturn false])]))]) m (Normal m1)).
    { apply xs_block; [discriminate |]. apply x_one. eapply xs_if; [apply ev_expecting; exact Ex |]. destruct b; (apply xs_block; [discriminate |]; apply x_one; exact X). }
    destruct B as [K B]. fueled (S (S (K + K'))). unfold c_loop. rewrite exec_step. destruct f as [| f]; [lia |]. change (eval (S f) (EBool true) m) with (Value (VBool true) m). cbn [truth]. rewrite B by lia. apply Y. lia.
  - assert (B : xs (SBlock [SIf EExpecting (SBlock [c_chain (c_infixes ops) SBreak]) (Some (SBlock [c_chain (c_prefixes g first managed cur 0 base ops) (SBlock [SDo Complain; SReturn false])]))]) m (Return v p)).
    { apply xs_block; [discriminate |]. apply x_one. eapply xs_if; [apply ev_expecting; exact Ex |]. destruct b; (apply xs_block; [discriminate |]; apply x_one; exact X). }
    destruct B as [K B]. fueled (S (S K)). unfold c_loop. rewrite exec_step. destruct f as [| f]; [lia |]. change (eval (S f) (EBool true) m) with (Value (VBool true) m). cbn [truth]. rewrite B by lia. reflexivity.
  - assert (B : xs (SBlock [SIf EExpecting (SBlock [c_chain (c_infixes ops) SBreak]) (Some (SBlock [c_chain (c_prefixes g first managed cur 0 base ops) (SBlock [SDo Complain; SReturn false])]))]) m (Break m1)).
    { apply xs_block; [discriminate |]. apply x_one. eapply xs_if; [apply ev_expecting; exact Ex |]. destruct b; (apply xs_block; [discriminate |]; apply x_one; exact X). }
    destruct B as [K B]. fueled (S (S K)). unfold c_loop. rewrite exec_step. destruct f as [| f]; [lia |]. change (eval (S f) (EBool true) m) with (Value (VBool true) m). cbn [truth]. rewrite B by lia. reflexivity.
Qed.
(** One more round. *)
Lemma loop_again c cur base ops m b m1 o : expecting m = Some b ->
  xs (if b then c_chain (c_infixes ops) SBreak else c_chain (c_prefixes g first managed cur 0 base ops) (SBlock [SDo Complain; SReturn false])) m (Normal m1) -> keep c m m1 ->
  ends c 0 m1 [c_loop g first managed cur 0 base ops] o -> ends c 0 m [c_loop g first managed cur 0 base ops] o.
Proof.
  intros Ex X Kp H. pose proof (loop_end cur base ops m _ b Ex X) as L. cbn in L. destruct o; cbn [ends] in *; auto; destruct H as (m' & E & K' & Y); exists m'; (split; [exact E |]; split; [eapply keep_trans; eassumption |]; apply x_one, L, x_single, Y).
Qed.
Lemma loop_fails c cur base ops m b p : expecting m = Some b ->
  xs (if b then c_chain (c_infixes ops) SBreak else c_chain (c_prefixes g first managed cur 0 base ops) (SBlock [SDo Complain; SReturn false])) m (Return false p) ->
  ends c 0 m [c_loop g first managed cur 0 base ops] (Fail p).
Proof.
  intros Ex X. pose proof (loop_end cur base ops m _ b Ex X) as L. cbn in L. exists (at_pstate p m). split; [reflexivity |]. split; [apply keep_at |]. apply x_one. exact L.
Qed.
Definition expect_ (b : bool) (m : memory) : memory := Memory (mp m) (saved m) (marked m) (Some b).
Lemma keep_expect c b m m1 : keep c m m1 -> keep c m (expect_ b m1). Proof. intros [A B]. split; [exact A | exact B]. Qed.
Lemma no_tern ops st : existsb is_tern ops = false -> pick cond sel_tern ops st = (None, st).
Proof. induction ops as [| o ops IH]; [reflexivity |]. cbn [existsb]. intros H. apply orb_false_iff in H. destruct H as [H1 H2]. cbn [pick]. destruct o; try discriminate; apply IH; exact H2. Qed.
Definition paren_block (cur u : id) : list stmt := [SDo Lex;
  SIf (e_ors (a_test cur)) (SBlock (c_call 0 cur ++ [SIf (ENot (c_op u)) (SBlock [SReturn false]) None; SDo Tree; SDo Lex; SDo Tree; SDo (Expect true)])) (Some (SReturn false))].
Lemma step_operators f : items_ok f -> rules_ok f -> operators_ok f -> operators_ok (S f).
Proof.
  intros I R P cur c n b ops base m Ln Kb NT Sy O. split; intros Ex; cbn [ParserModel.run].
  - assert (PRE : forall o, match sel_pre o with Some (t, _) => is_pre o = true /\ c_prefix g first managed cur 0 o = Some (c_op t, [SDo Tree; SDo Lex]) | None => is_pre o = false end) by (intros []; cbn; auto).
    assert (PAR : forall o, match sel_paren o with Some (t, u) => is_paren o = true /\ c_prefix g first managed cur 0 o = Some (c_op t, paren_block cur u) | None => is_paren o = false end) by (intros []; cbn; auto).
    destruct (pick cond sel_pre ops (mp m)) as [p st] eqn:P1. pose proof (pick_open _ _ _ _ _ P1 O) as O1.
    assert (C1 : forall r, match p with Some _ => xs (SBlock [SDo Tree; SDo Lex]) (at_pstate st m) r | None => xs (c_chain (choose (c_prefix g first managed cur 0) (filter is_paren ops) ++ [(e_ors (a_test base), c_call 0 base ++ [SDo Tree; SDo (Expect true)])]) (SBlock [SDo Complain; SReturn false])) (at_pstate st m) r end ->
      xs (c_chain (c_prefixes g first managed cur 0 base ops) (SBlock [SDo Complain; SReturn false])) m r).
    { intros r X. unfold c_prefixes. rewrite <- app_assoc. exact (chain_pick sel_pre is_pre _ (fun _ => [SDo Tree; SDo Lex]) PRE ops m p st _ _ r P1 X). }
    destruct p as [p |].
    + eapply (loop_again c cur base ops m false); [exact Ex | apply C1; apply xs_block; [discriminate |]; eapply xl_act; [reflexivity |]; apply x_one, xs_act; reflexivity | split; reflexivity |].
      apply (P cur c n b ops base (at_pstate (yylex tok st) m) Ln Kb NT Sy); [exact O1 | exact Ex].
    + destruct (pick cond sel_paren ops st) as [q st2] eqn:P2. pose proof (pick_open _ _ _ _ _ P2 O1) as O2.
      assert (C2 : forall r, match q with Some u => xs (SBlock (paren_block cur u)) (at_pstate st2 m) r | None => xs (c_chain [(e_ors (a_test base), c_call 0 base ++ [SDo Tree; SDo (Expect true)])] (SBlock [SDo Complain; SReturn false])) (at_pstate st2 m) r end ->
        xs (c_chain (c_prefixes g first managed cur 0 base ops) (SBlock [SDo Complain; SReturn false])) m r).
      { intros r X. apply C1. exact (chain_pick sel_paren is_paren _ (paren_block cur) PAR ops (at_pstate st m) q st2 _ _ r P2 X). }
      destruct q as [u |].
      * set (m3 := at_pstate (yylex tok st2) m). assert (C3 : forall r, (forall k m', r <> Jump k m') -> xs (SIf (e_ors (a_test cur)) (SBlock (c_call 0 cur ++ [SIf (ENot (c_op u)) (SBlock [SReturn false]) None; SDo Tree; SDo Lex; SDo Tree; SDo (Expect true)])) (Some (SReturn false))) m3 r ->
          xs (c_chain (c_prefixes g first managed cur 0 base ops) (SBlock [SDo Complain; SReturn false])) m r).
        { intros r NJ X. apply C2. apply xs_block; [intros k m' E; destruct (NJ _ _ E) |]. eapply xl_act; [reflexivity |]. apply x_one. exact X. }
        pose proof (ev_test cur m3) as V. change (ptok (mp m3)) with (ptok (yylex tok st2)) in V. destruct (test g first cur (ptok (yylex tok st2))).
        2: { eapply loop_fails; [exact Ex |]. apply C3; [discriminate |]. eapply xs_if; [exact V |]. fueled 1. reflexivity. }
        pose proof (call_ok f cur m3 R Sy O2) as CA. change (mp m3) with (yylex tok st2) in CA. pose proof (rules_open f cur false (env g cur) (yylex tok st2)) as OP.
        pose proof (ends_call c 0 cur m3 _ CA) as EC. cbn [caught Nat.eqb negb] in EC. destruct (called false (run f cur false (Rules (env g cur)) (yylex tok st2))) as [st3 | st3 | |] eqn:EQ; cbn [next_do]; try exact Logic.I.
        -- apply called_same in EQ. assert (O3 : open_ st3) by (apply OP; auto). rewrite EQ in CA. cbn [calls] in CA. clear EC OP.
           assert (X3 : xl (c_call 0 cur) m3 (Normal (at_pstate st3 m3))) by (eapply xl_act; [reflexivity |]; apply x_one; eapply xs_if; [apply ev_not; exact CA | reflexivity]).
           pose proof (ev_op u (at_pstate st3 m3)) as U. change (mp (at_pstate st3 m3)) with st3 in U. destruct (Nat.eqb (ptok st3) u).
           ++ destruct (ask cond st3) as [cc st4] eqn:A. cbn [fst snd] in U. destruct cc.
              ** eapply (loop_again c cur base ops m false _ _ Ex).
                 --- apply C3; [discriminate |]. eapply xs_if; [exact V |]. apply xs_block; [discriminate |]. eapply xl_normal; [exact X3 |]. apply (xl_normal [_] [_; _; _; _] _ (at_pstate st4 (at_pstate st3 m3))).
                     +++ apply x_one. eapply xs_if; [apply ev_not; exact U | reflexivity].
                     +++ eapply xl_act; [reflexivity |]. eapply xl_act; [reflexivity |]. eapply xl_act; [reflexivity |]. apply x_one, xs_act. reflexivity.
                 --- apply keep_expect. split; reflexivity.
                 --- apply (P cur c n b ops base (expect_ true (at_pstate (yylex tok st4) m)) Ln Kb NT Sy); [| reflexivity]. intros H. change (pblock st4 = false). unfold ask in A. injection A as _ <-. exact (O3 H).
              ** eapply loop_fails; [exact Ex |]. apply C3; [discriminate |]. eapply xs_if; [exact V |]. apply xs_block; [discriminate |]. eapply xl_normal; [exact X3 |]. apply (xl_return [_] [_; _; _; _]).
                 apply x_one. eapply xs_if; [apply ev_not; exact U |]. cbn [negb]. apply xs_block; [discriminate |]. apply x_one. fueled 1. reflexivity.
           ++ eapply loop_fails; [exact Ex |]. apply C3; [discriminate |]. eapply xs_if; [exact V |]. apply xs_block; [discriminate |]. eapply xl_normal; [exact X3 |]. apply (xl_return [_] [_; _; _; _]).
              apply x_one. eapply xs_if; [apply ev_not; exact U |]. cbn [negb]. apply xs_block; [discriminate |]. apply x_one. fueled 1. reflexivity.
        -- cbn [ends leave] in EC. destruct EC as (m4 & <- & _ & X4). eapply loop_fails; [exact Ex |]. apply C3; [discriminate |]. eapply xs_if; [exact V |]. apply xs_block; [discriminate |]. apply xl_return. exact X4.
      * pose proof (ev_test base (at_pstate st2 m)) as V. change (ptok (mp (at_pstate st2 m))) with (ptok st2) in V. unfold base_symbol. rewrite Kb. destruct (test g first base (ptok st2)).
        2: { eapply loop_fails; [exact Ex |]. apply C2. cbn [c_chain]. eapply xs_if; [exact V |]. apply xs_block; [discriminate |]. eapply xl_act; [reflexivity |]. apply x_one. fueled 1. reflexivity. }
        pose proof (I 1 cur 0 c b (c_call 0 base) c (at_pstate st2 m) ltac:(cbn [EmitReadProofs.c_item]; rewrite Kb; reflexivity) ltac:(lia) Sy (fun N => match N eq_refl with end) O2) as X.
        change (mp (at_pstate st2 m)) with st2 in X. pose proof (item_open f cur false b st2) as OP. cbn [caught Nat.eqb negb] in X.
        destruct (run f cur false (Item b) st2) as [st3 | st3 | |]; cbn [next_do ends leave] in *; auto.
        -- destruct X as (m4 & <- & K4 & X4). assert (O4 : open_ (mp m4)) by (apply (OP (mp m4)); auto). assert (X5 : xs (c_chain (c_prefixes g first managed cur 0 base ops) (SBlock [SDo Complain; SReturn false])) m (Normal (expect_ true m4))).
           { apply C2. cbn [c_chain]. eapply xs_if; [exact V |]. apply xs_block; [discriminate |]. eapply xl_normal; [exact X4 |]. eapply xl_act; [reflexivity |]. apply x_one, xs_act. reflexivity. }
           pose proof (proj2 (P cur c n b ops base (expect_ true m4) Ln Kb NT Sy O4) eq_refl) as N. change (mp (expect_ true m4)) with (mp m4) in N.
           eapply (loop_again c cur base ops m false _ _ Ex X5); [apply keep_expect; exact K4 | exact N].
        -- destruct X as (m4 & <- & K4 & X4). apply (loop_fails c cur base ops m false (mp m4) Ex). apply C2. cbn [c_chain]. eapply xs_if; [exact V |]. apply xs_block; [discriminate |]. apply xl_return. exact X4.
  - assert (POST : forall o, match sel_post o with Some (t, _) => is_post o = true /\ c_infix o = Some (c_op t, [SDo Tree; SDo Lex]) | None => is_post o = false end) by (intros []; cbn; auto).
    assert (BIN : forall o, match sel_bin o with Some (t, _) => is_bin o = true /\ c_infix o = Some (c_op t, [SDo Tree; SDo (Expect false); SDo Lex]) | None => is_bin o = false end) by (intros []; cbn; auto).
    destruct (pick cond sel_post ops (mp m)) as [p st] eqn:P1. pose proof (pick_open _ _ _ _ _ P1 O) as O1.
    assert (C1 : forall r, match p with Some _ => xs (SBlock [SDo Tree; SDo Lex]) (at_pstate st m) r | None => xs (c_chain (choose c_infix (filter is_bin ops)) SBreak) (at_pstate st m) r end -> xs (c_chain (c_infixes ops) SBreak) m r).
    { intros r X. exact (chain_pick sel_post is_post _ (fun _ => [SDo Tree; SDo Lex]) POST ops m p st _ _ r P1 X). }
    destruct p as [p |].
    + eapply (loop_again c cur base ops m true); [exact Ex | apply C1; apply xs_block; [discriminate |]; eapply xl_act; [reflexivity |]; apply x_one, xs_act; reflexivity | split; reflexivity |].
      apply (P cur c n b ops base (at_pstate (yylex tok st) m) Ln Kb NT Sy); [exact O1 | exact Ex].
    + destruct (pick cond sel_bin ops st) as [q st2] eqn:P2. pose proof (pick_open _ _ _ _ _ P2 O1) as O2.
      assert (C2 : forall r, match q with Some _ => xs (SBlock [SDo Tree; SDo (Expect false); SDo Lex]) (at_pstate st2 m) r | None => xs SBreak (at_pstate st2 m) r end -> xs (c_chain (c_infixes ops) SBreak) m r).
      { intros r X. apply C1. rewrite <- (app_nil_r (choose c_infix (filter is_bin ops))). exact (chain_pick sel_bin is_bin _ (fun _ => [SDo Tree; SDo (Expect false); SDo Lex]) BIN ops (at_pstate st m) q st2 [] SBreak r P2 X). }
      destruct q as [q |].
      * eapply (loop_again c cur base ops m true); [exact Ex | apply C2; apply xs_block; [discriminate |]; eapply xl_act; [reflexivity |]; eapply xl_act; [reflexivity |]; apply x_one, xs_act; reflexivity | split; reflexivity |].
        apply (P cur c n b ops base (expect_ false (at_pstate (yylex tok st2) m)) Ln Kb NT Sy); [exact O2 | reflexivity].
      * rewrite no_tern by exact NT. exists (at_pstate st2 m). split; [reflexivity |]. split; [apply keep_at |]. apply x_one. apply (loop_end cur base ops m (Break (at_pstate st2 m)) true Ex). apply C2. fueled 1. reflexivity.
Qed.

Ltac lower IH E := match type of E with context [EmitReadProofs.c_item ?a ?b ?c ?d ?f ?cur ?catch ?k ?m] =>
  let E1 := fresh "E" in let k' := fresh "k" in let L := fresh "L" in let A := fresh "A" in let B := fresh "B" in
  destruct (EmitReadProofs.c_item a b c d f cur catch k m) as [[L k'] |] eqn:E1; [| discriminate]; cbn [obind fst snd] in E; destruct (item_unlabelled _ _ _ _ _ _ _ E1) as [A B] end.
Lemma rewind_runs k i m : marked m k = Some i -> xs (SDo (Rewind k)) m (Normal (at_pstate (rewind tok i (mp m)) m)).
Proof. intros H. apply xs_act. cbn [act]. rewrite H. reflexivity. Qed.
Lemma restore_runs k b m : saved m k = Some b -> xs (SDo (Restore k)) m (Normal (at_pstate (block b (mp m)) m)).
Proof. intros H. apply xs_act. cbn [act]. rewrite H. reflexivity. Qed.
(** Into the block behind the label. *)
Lemma xk_label k e Q A m r : existsb (has k) A = false -> (forall j m', r = Jump j m' -> existsb (has j) (SLabel k (SDo Tree) :: Q) = false) -> xl Q m r -> xk k (A ++ [SIf e (SBlock (SLabel k (SDo Tree) :: Q)) None]) m r.
Proof.
  intros N NJ [K H]. exists (S (S (S (S K)))). intros f L. rewrite execs_skip by exact N. cbn [execs has existsb]. rewrite Nat.eqb_refl. cbn [orb]. destruct f as [| f]; [lia |]. rewrite exec_step. cbn [has existsb]. rewrite Nat.eqb_refl. cbn [orb].
  destruct f as [| f]; [lia |]. rewrite exec_step. cbn [execs has]. rewrite Nat.eqb_refl. cbn [orb]. destruct f as [| f]; [lia |]. rewrite exec_step, Nat.eqb_refl. destruct f as [| f]; [lia |]. rewrite exec_step. cbn [act].
  rewrite H by lia. destruct r; try reflexivity. rewrite (NJ _ _ eq_refl). reflexivity.
Qed.
Lemma step_items f : items_ok f -> rules_ok f -> branches_ok f -> operators_ok f -> items_ok (S f).
Proof.
  intros I R Br Op ff cur catch c n L c' m E Lc Sy Od O. destruct ff as [| ff]; [discriminate |]. cbn [EmitReadProofs.c_item] in E. cbn [ParserModel.run].
  destruct (kind g n) as [| | |s|s|i cc a|i cc a|[i|]|l r|l r|i s|t h|i|i|b ops x|] eqn:K; try discriminate.
  - same E. exists m. split; [reflexivity |]. split; [apply keep_refl |]. exists 0. reflexivity.
  - same E. apply ends_token; [exact O | | reflexivity]. intros m1 E1 K1. exists (at_pstate (yylex tok (mp m1)) m1). cbn [mp at_pstate]. rewrite E1. split; [reflexivity |]. split; [exact K1 |]. rewrite <- E1. apply x_one, xs_act. reflexivity.
  - same E. apply ends_call. apply call_ok; [exact R | exact (NON _ _ K) | exact O].
  - destruct (search_rule g s) as [e |] eqn:SR; [| discriminate]. destruct (kind g e) as [| | |s0|s0|i0 cc a|i0 cc a|i0|l r|l r|i s'|t h|i0|i0|b ops x|] eqn:Ke; try discriminate. lower I E.
    destruct (INL n s e i s' K SR Ke) as [NS NO]. unfold c_rule in E. rewrite NS in *. cbn [andb]. rewrite app_nil_r in E. same E.
    destruct (guarded g cond (rule_test g first follow e i s' (ptok (mp m))) i (mp m)) as [go st] eqn:G. pose proof (guarded_open _ _ _ _ _ G O) as O1.
    eapply ends_if; [apply ev_rule_test; exact G | apply keep_at |]. destruct go; [| reflexivity].
    apply ends_block; [cbn [existsb has orb]; apply B; exact Lc |]. eapply (ends_before _ _ _ _ [_]); [apply x_one, xs_act; reflexivity | apply keep_refl |].
    pose proof (I ff cur catch c i L0 k (at_pstate st m) E0 Lc Sy (fun _ => NO) O1) as X. change (mp (at_pstate st m)) with st in X. destruct (run f cur (caught catch) (Item i) st); exact X.
  - lower I E. pose proof E as E'. same E.
    assert (OI : catch <> 0 -> odd i) by (intros _; kid K). pose proof (I ff cur catch c i L0 k m E0 Lc Sy OI O) as X. apply ends_block in X; [| apply B; exact Lc].
    pose proof (item_open f cur (caught catch) i (mp m)) as OP. destruct (run f cur (caught catch) (Item i) (mp m)) as [st | st | |]; cbn [next_do ends] in *; auto.
    + destruct X as (m1 & <- & K1 & X1). assert (O1 : open_ (mp m1)) by (apply OP; auto). apply x_single in X1. destruct X1 as [N1 X1]. destruct (ev_test n m1) as [N2 V].
      pose proof (I (S ff) cur catch c n [SDoWhile (SBlock L0) (e_ors (a_test n))] k m1 ltac:(cbn [EmitReadProofs.c_item]; rewrite K, E0; reflexivity) Lc Sy Od O1) as Y.
      destruct (test g first n (ptok (mp m1))).
      * destruct (run f cur (caught catch) (Item n) (mp m1)); cbn [ends] in *; auto; destruct Y as (m2 & E2 & K2 & Y); exists m2; (split; [exact E2 |]; split; [eapply keep_trans; eassumption |]); apply x_one; apply x_single in Y; destruct Y as [N3 Y];
          fueled (S (N1 + N2 + N3)); rewrite exec_step, X1 by lia; rewrite V by lia; cbn [truth]; apply Y; lia.
      * exists m1. split; [reflexivity |]. split; [exact K1 |]. apply x_one. fueled (S (N1 + N2)). rewrite exec_step, X1 by lia. rewrite V by lia. reflexivity.
    + destruct X as (m1 & <- & K1 & X1). exists m1. split; [reflexivity |]. split; [exact K1 |]. apply x_one. apply x_single in X1. destruct X1 as [N1 X1]. fueled (S N1). rewrite exec_step, X1 by lia. destruct catch; reflexivity.
  - lower I E. same E.
    assert (OI : catch <> 0 -> odd i) by (intros _; kid K). destruct (ev_test n m) as [N2 V]. destruct (test g first n (ptok (mp m))).
    2: { exists m. split; [reflexivity |]. split; [apply keep_refl |]. apply x_one. fueled (S N2). rewrite exec_step, V by lia. reflexivity. }
    pose proof (I ff cur catch c i L0 k m E0 Lc Sy OI O) as X. apply ends_block in X; [| apply B; exact Lc].
    pose proof (item_open f cur (caught catch) i (mp m)) as OP. destruct (run f cur (caught catch) (Item i) (mp m)) as [st | st | |]; cbn [next_do ends] in *; auto.
    + destruct X as (m1 & <- & K1 & X1). assert (O1 : open_ (mp m1)) by (apply OP; auto). apply x_single in X1. destruct X1 as [N1 X1].
      pose proof (I (S ff) cur catch c n [SWhile (e_ors (a_test n)) (SBlock L0)] k m1 ltac:(cbn [EmitReadProofs.c_item]; rewrite K, E0; reflexivity) Lc Sy Od O1) as Y.
      destruct (run f cur (caught catch) (Item n) (mp m1)); cbn [ends] in *; auto; destruct Y as (m2 & E2 & K2 & Y); exists m2; (split; [exact E2 |]; split; [eapply keep_trans; eassumption |]); apply x_one; apply x_single in Y; destruct Y as [N3 Y];
        fueled (S (N1 + N2 + N3)); rewrite exec_step, V by lia; cbn [truth]; rewrite X1 by lia; apply Y; lia.
    + destruct X as (m1 & <- & K1 & X1). exists m1. split; [reflexivity |]. split; [exact K1 |]. apply x_one. apply x_single in X1. destruct X1 as [N1 X1]. fueled (S (N1 + N2)). rewrite exec_step, V by lia. cbn [truth]. rewrite X1 by lia. destruct catch; reflexivity.
  - lower I E. same E. apply ends_after; [reflexivity | | intros m1; apply x_one, xs_act; reflexivity]. apply (I ff cur catch c i L0 k m E0 Lc Sy); [intros _; kid K | exact O].
  - same E. exists m. split; [reflexivity |]. split; [apply keep_refl |]. apply x_one, xs_act. reflexivity.
  - destruct (flatten g ff [l; r]) as [ns |] eqn:F1; [| discriminate]. cbn [obind] in E. destruct (c_each (c_item ff cur) catch c ns) as [[b k] |] eqn:E1; [| discriminate]. cbn [obind fst snd] in E.
    destruct (flatten g f [l; r]) as [ns' |] eqn:F2; [| exact Logic.I]. assert (ns' = ns).
    { assert (MORE : forall d f w a, flatten g f w = Some a -> flatten g (d + f) w = Some a).
      { clear. assert (ONE : forall f w a, flatten g f w = Some a -> flatten g (S f) w = Some a).
        { induction f as [| f IH]; intros w a H; [discriminate |]. cbn [flatten] in H. change (match w with [] => Some [] | n :: work => match kind g n with NAlt l r => flatten g (S f) (l :: r :: work) | _ => do rest <- flatten g (S f) work; Some (n :: rest) end end = Some a).
          destruct w as [| x w]; [exact H |]. destruct (kind g x); try (destruct (flatten g f w) as [rest |] eqn:Q; [| discriminate]; rewrite (IH _ _ Q); exact H). apply IH. exact H. }
        induction d; intros f w a H; [exact H |]. apply ONE. apply IHd. exact H. }
      apply (MORE f) in F1. apply (MORE ff) in F2. rewrite Nat.add_comm in F1. rewrite F1 in F2. congruence. }
    subst ns'. assert (NE : b <> []).
    { intros ->. destruct ns as [| n0 ns]; [| cbn [c_each] in E1; destruct (c_item ff cur catch c n0) as [[? ?] |]; [| discriminate]; cbn [obind] in E1; destruct (c_each (c_item ff cur) catch _ ns) as [[? ?] |]; discriminate].
      clear - F1. assert (NN : forall f w, w <> [] -> flatten g f w <> Some []).
      { induction f as [| f IH]; intros w N H; [discriminate |]. cbn [flatten] in H. destruct w as [| x w]; [congruence |]. destruct (kind g x); try (destruct (flatten g f w); discriminate). refine (IH _ _ H). congruence. }
      refine (NN _ _ _ F1). congruence. }
    destruct b as [| b0 b]; [congruence |]. same E. apply (Br ff cur catch c ns (b0 :: b) k m E1 Lc Sy); [| exact O]. intros x Ix _. destruct (flatten_children _ _ _ F1 x Ix) as [[<- | [<- | []]] | (a & C & N)]; [kid K | kid K | exact (inner_odd a x C N)].
  - lower I E. lower I E. same E. apply ends_seq; [apply B0; lia | |].
    + apply (I ff cur catch c l L0 k m E0 Lc Sy); [intros _; kid K | exact O].
    + intros m1 K1 Q. apply (ends_less c k); [exact A |]. apply (I ff cur catch k r L1 k0 m1 E1 ltac:(lia) Sy); [intros _; kid K |]. eapply item_open; [left; exact Q | exact O].
  - lower I E. match type of E with obind ?x _ = _ => destruct x as [[Q kq] |] eqn:EQ; [| discriminate] end. cbn [obind fst snd] in E. assert (OT : S c <> 0 -> odd t) by (intros _; destruct h; kid K).
    assert (CK : Nat.eqb catch (S c) = false) by (apply Nat.eqb_neq; lia).
    destruct h as [h |].
    + destruct MAN as [MT | MT]; [| destruct (MT n t h K)]. lower I EQ. apply some_same, pair_equal_spec in EQ. destruct EQ as [EQ _]. same E.
      set (p0 := mp m). set (m1 := Memory (block true p0) (set (saved m) (S c) (pblock p0)) (set (marked m) (S c) (pidx p0 - 1)) (expecting m)).
      assert (X0 : xl [SDo (Save (S c)); SDo (Mark (S c)); SDo Tree] m (Normal m1)) by (eapply xl_act; [reflexivity |]; eapply xl_act; [reflexivity |]; apply x_one, xs_act; reflexivity).
      assert (K1 : keep c m m1) by (split; intros j Lj; unfold m1, set; cbn [saved marked]; (destruct (Nat.eqb j (S c)) eqn:J; [apply Nat.eqb_eq in J; lia | reflexivity])).
      pose proof (I ff cur (S c) (S c) t L0 k m1 E0 (Nat.le_refl _) Sy OT ltac:(intros H; congruence)) as X. change (caught (S c)) with true in X. change (mp m1) with (block true p0) in X. apply ends_block in X; [| apply B; lia].
      assert (SV : forall m2, keep (S c) m1 m2 -> saved m2 (S c) = Some (pblock p0) /\ marked m2 (S c) = Some (pidx p0 - 1)).
      { intros m2 [J1 J2]. rewrite J1, J2 by lia. unfold m1, set. cbn [saved marked]. rewrite Nat.eqb_refl. auto. }
      change ([SDo (Save (S c))] ++ [SDo (Mark (S c)); SDo Tree; SBlock L0] ++ [SDo (Restore (S c))] ++ [SDo Tree; SIf (EBool false) (SBlock (SLabel (S c) (SDo Tree) :: Q)) None])
        with ([SDo (Save (S c)); SDo (Mark (S c)); SDo Tree] ++ [SBlock L0] ++ [SDo (Restore (S c)); SDo Tree] ++ [SIf (EBool false) (SBlock (SLabel (S c) (SDo Tree) :: Q)) None]).
      destruct (run f cur true (Item t) (block true p0)) as [st | st | |]; cbn [ends] in X; auto; destruct X as (m2 & <- & K2 & X2); destruct (SV m2 K2) as [S1 S2].
      * exists (at_pstate (block (pblock p0) (mp m2)) m2). split; [reflexivity |]. split; [eapply keep_trans; [exact K1 |]; eapply keep_trans; [eapply keep_less; [| exact K2]; lia | apply keep_at] |].
        eapply xl_normal; [exact X0 |]. eapply xl_normal; [exact X2 |]. apply (xl_normal [_] [_; _] _ (at_pstate (block (pblock p0) (mp m2)) m2)); [apply x_one, restore_runs; exact S1 |].
        eapply xl_act; [reflexivity |]. apply x_one. eapply xs_if; [apply ev_bool | reflexivity].
      * cbn [leave] in X2. set (m3 := at_pstate (rewind tok (pidx p0 - 1) (block (pblock p0) (mp m2))) m2).
        assert (X3 : xl [SDo (Restore (S c)); SDo (Rewind (S c))] m2 (Normal m3)).
        { apply (xl_normal [_] [_] _ (at_pstate (block (pblock p0) (mp m2)) m2)); [apply x_one, restore_runs; exact S1 |]. apply x_one. exact (rewind_runs (S c) (pidx p0 - 1) (at_pstate (block (pblock p0) (mp m2)) m2) S2). }
        pose proof (I ff cur catch k h L1 k0 m3 E1 ltac:(lia) Sy ltac:(intros _; kid K) ltac:(intros H; congruence)) as Y. change (mp m3) with (rewind tok (pidx p0 - 1) (block (pblock p0) (mp m2))) in Y.
        assert (KK : forall m4, keep k m3 m4 -> keep c m m4) by (intros m4 J; eapply keep_trans; [exact K1 |]; eapply keep_trans; [eapply keep_less; [| exact K2]; lia |]; eapply keep_trans; [apply (keep_at c m2) |]; eapply keep_less; [| exact J]; lia).
        assert (LL : forall m4 r, (r = Normal m4 \/ r = leave catch m4) -> xl L1 m3 r -> xl ([SDo (Save (S c)); SDo (Mark (S c)); SDo Tree] ++ [SBlock L0] ++ [SDo (Restore (S c)); SDo Tree] ++ [SIf (EBool false) (SBlock (SLabel (S c) (SDo Tree) :: Q)) None]) m r).
        { intros m4 r Hr Z. eapply xl_normal; [exact X0 |]. eapply xl_catch; [| exact X2 |]; [cbn [app existsb has orb]; rewrite Nat.eqb_refl; reflexivity |]. rewrite <- EQ. apply xk_label; [reflexivity | | apply (xl_normal [_; _] L1 _ m3); assumption].
          intros j m' ->. destruct Hr as [Hr | Hr]; [discriminate |]. destruct catch as [| catch]; [discriminate |]. cbn [leave] in Hr. injection Hr as -> _. cbn [existsb has orb]. rewrite CK. cbn [orb]. apply B0. lia. }
        destruct (run f cur (caught catch) (Item h) (rewind tok (pidx p0 - 1) (block (pblock p0) (mp m2)))) as [st4 | st4 | |]; cbn [ends] in *; auto; destruct Y as (m4 & <- & K4 & Y); exists m4; (split; [reflexivity |]; split; [apply KK; exact K4 |]); apply (LL m4); auto.
    + apply some_same, pair_equal_spec in EQ. destruct EQ as [EQ EQ']. subst kq. same E. rewrite <- EQ. clear Q EQ.
      set (p0 := mp m). set (m1 := Memory p0 (saved m) (set (marked m) (S c) (pidx p0 - 1)) (expecting m)).
      assert (X0 : xl [SDo (Mark (S c)); SDo Tree] m (Normal m1)) by (eapply xl_act; [reflexivity |]; apply x_one, xs_act; reflexivity).
      assert (K1 : keep c m m1) by (split; intros j Lj; unfold m1, set; cbn [saved marked]; [reflexivity |]; (destruct (Nat.eqb j (S c)) eqn:J; [apply Nat.eqb_eq in J; lia | reflexivity])).
      pose proof (I ff cur (S c) (S c) t L0 k m1 E0 (Nat.le_refl _) Sy OT O) as X. change (caught (S c)) with true in X. change (mp m1) with p0 in X. apply ends_block in X; [| apply B; lia].
      change ([] ++ [SDo (Mark (S c)); SDo Tree; SBlock L0] ++ [] ++ [SDo Tree; SIf (EBool false) (SBlock (SLabel (S c) (SDo Tree) :: c_recovery g follow n (S c))) None])
        with ([SDo (Mark (S c)); SDo Tree] ++ [SBlock L0] ++ [SDo Tree] ++ [SIf (EBool false) (SBlock (SLabel (S c) (SDo Tree) :: c_recovery g follow n (S c))) None]).
      destruct (run f cur true (Item t) p0) as [st | st | |]; cbn [ends] in X; auto; destruct X as (m2 & <- & K2 & X2).
      * exists m2. split; [reflexivity |]. split; [eapply keep_trans; [exact K1 |]; eapply keep_less; [| exact K2]; lia |]. eapply xl_normal; [exact X0 |]. eapply xl_normal; [exact X2 |]. eapply (xl_act _ [_]); [reflexivity |].
        apply x_one. eapply xs_if; [apply ev_bool | reflexivity].
      * cbn [leave] in X2. assert (S2 : marked m2 (S c) = Some (pidx p0 - 1)) by (destruct K2 as [_ J2]; rewrite J2 by lia; unfold m1, set; cbn [marked]; rewrite Nat.eqb_refl; reflexivity).
        set (go := Nat.eqb (pidx p0 - 1) (pidx (mp m2) - 1) && negb (Nat.eqb (ptok (mp m2)) (geof g))). set (st3 := if go then yylex tok (mp m2) else mp m2).
        assert (X3 : xs (SIf (EAnd (EAtMark (S c)) (e_not (geof g))) (SDo Lex) None) m2 (Normal (at_pstate st3 m2))).
        { assert (V : evl (EAnd (EAtMark (S c)) (e_not (geof g))) m2 (VBool go) m2).
          { unfold go. pose proof (ev_mark (S c) _ m2 S2) as V. destruct (Nat.eqb (pidx p0 - 1) (pidx (mp m2) - 1)); cbn [andb]; [eapply ev_and_true; [exact V | apply ev_isnt] | apply ev_and_false; exact V]. }
          eapply xs_if; [exact V |]. unfold st3. destruct go; [apply xs_act; reflexivity | rewrite at_same; reflexivity]. }
        pose proof (skip_runs c n f (at_pstate st3 m2)) as SK. change (mp (at_pstate st3 m2)) with st3 in SK. fold go. fold st3.
        destruct (skip g follow tok f n st3) as [st4 | st4 | |]; cbn [ends]; auto; [| destruct SK]. destruct SK as (m4 & <- & K4 & Y). exists m4. split; [reflexivity |].
        split; [eapply keep_trans; [exact K1 |]; eapply keep_trans; [eapply keep_less; [| exact K2]; lia |]; eapply keep_trans; [apply (keep_at c m2) | exact K4] |].
        eapply xl_normal; [exact X0 |]. eapply xl_catch; [| exact X2 |]; [cbn [app existsb has orb]; rewrite Nat.eqb_refl; reflexivity |]. apply xk_label; [reflexivity | discriminate |].
        unfold c_recovery. apply (xl_normal [_] [_] _ (at_pstate st3 m2)); apply x_one; assumption.
  - destruct (kind g i) as [| | |s| | | | | | | | | | | |] eqn:Ki; try discriminate; (destruct f as [| f]; [exact Logic.I |]); cbn [ParserModel.run]; rewrite Ki; same E.
    + apply ends_token; [exact O | | reflexivity]. intros m1 E1 K1. exists (at_pstate (yylex tok (mp m1)) m1). cbn [mp at_pstate]. rewrite E1. split; [reflexivity |]. split; [exact K1 |]. rewrite <- E1. eapply xl_act; [reflexivity |]. apply x_one, xs_act. reflexivity.
    + apply ends_after; [reflexivity | | intros m1; apply x_one, xs_act; reflexivity].
      pose proof (I 1 cur catch c i (c_call catch s) c m ltac:(cbn [EmitReadProofs.c_item]; rewrite Ki; reflexivity) Lc Sy ltac:(intros _ ? ? ?; congruence) O) as X. cbn [ParserModel.run] in X. rewrite Ki in X. exact X.
  - apply (I ff cur catch c i L c' m E Lc Sy); [intros _; kid K | exact O].
  - assert (catch = 0) by (destruct (Nat.eq_dec catch 0) as [H | H]; [exact H | destruct (Od H b ops x K)]). subst catch. unfold c_operator in E. destruct (existsb is_tern ops) eqn:NT; [discriminate |]. destruct (kind g b) as [| | |base| | | | | | | | | | | |] eqn:Kb; try discriminate. cbn [obind] in E. same E.
    eapply (ends_before _ _ _ (expect_ false m) [_]); [apply x_one, xs_act; reflexivity | apply keep_expect, keep_refl |]. change (mp m) with (mp (expect_ false m)).
    apply (Op cur c n b ops base (expect_ false m)); eauto.
Qed.
Theorem all_ok f : items_ok f /\ rules_ok f /\ branches_ok f /\ operators_ok f.
Proof.
  induction f as [| f (I & R & B & P)].
  - split; [| split; [| split]]; unfold items_ok, rules_ok, branches_ok, operators_ok; intros; cbn [ParserModel.run ends]; auto.
  - split; [apply step_items; assumption |]. split; [apply step_rules; assumption |]. split; [apply step_branches; assumption | apply step_operators; assumption].
Qed.
(** A call of a parse function. *)
Theorem call_runs f s p : kind g s = NSym -> open_ p ->
  match run f s false (Rules (env g s)) p with
  | Done p' => exists K, forall k, K <= k -> call tok cond body k s p = Return true p'
  | Fail p' => exists K, forall k, K <= k -> call tok cond body k s p = Return false p'
  | _ => True
  end.
Proof.
  intros Sy O. pose proof (call_ok f s (fresh p) (proj1 (proj2 (all_ok f))) Sy O) as C. change (mp (fresh p)) with p in C.
  assert (G : forall b p', evl (ECall s) (fresh p) (VBool b) (at_pstate p' (fresh p)) -> exists K, forall k, K <= k -> call tok cond body k s p = Return b p').
  { intros b p' [K V]. exists K. intros k Lk. specialize (V (S k) ltac:(lia)). change (match exec k None (SBlock (body s)) (fresh p) with Return b p => Value (VBool b) (at_pstate p (fresh p)) | Gone => EGone | _ => EStuck end = Value (VBool b) (at_pstate p' (fresh p))) in V. unfold call.
    destruct (exec k None (SBlock (body s)) (fresh p)) ; try discriminate. unfold at_pstate in V. congruence. }
  destruct (run f s false (Rules (env g s)) p); cbn [calls] in C; auto. apply G. apply C.
Qed.
End X.
