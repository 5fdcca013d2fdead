(** Reading grammar files: what the checks of the table give. *)
From Coq Require Import List NArith Bool PeanoNat Lia String Ascii.
From Verif Require Import YaccModel YaccSpec YaccProofs YaccEndProofs FlexModel ScanModel GramModel GramTableProofs.
Import ListNotations.

(** ** Numbers of tokens *)
Lemma pos_le x l n : (pos x l n <= n + N.of_nat (List.length l))%N.
Proof.
  revert n. induction l as [| y l IH]; intro n; cbn [pos List.length]; [lia |].
  destruct (String.eqb x y); [lia | specialize (IH (N.succ n)); lia].
Qed.
Lemma tok_small x : (tok_of x < N.succ nt)%N.
Proof. unfold tok_of, nt. pose proof (pos_le x tokens 0). lia. Qed.
Lemma tok_zero x : tok_of x = 0%N -> x = "$end"%string.
Proof.
  unfold tok_of. change tokens with ("$end"%string :: tl tokens). cbn [pos]. destruct (String.eqb x "$end") eqn:E; [intros _; apply String.eqb_eq, E |].
  intro H. assert (L : forall l n, (n <= pos x l n)%N).
  { induction l as [| y l IH]; intro n; cbn [pos]; [lia |]. destruct (String.eqb x y); [lia | specialize (IH (N.succ n)); lia]. }
  specialize (L (tl tokens) (N.succ 0)). lia.
Qed.

Definition proper (l : list (N * val)) : Prop := Forall (fun x => fst x <> 0%N) l.

(** No rule of the scanner returns $end. *)
Lemma given m r cfg s t tk v s' : In r (rules m) -> ScanModel.act r cfg s t = Give tk v s' -> tk <> Tok "$end".
Proof.
  intros I G E. subst tk. destruct m; cbn [rules] in I;
    unfold initial_rules, code_rules, parserclass_rules, arguments_rules, header_rules, varname_rules, lexer_rules in I; cbn [In] in I;
    repeat (destruct I as [<- | I]; [cbv [skip nl nl_more more_of one word valued bracket r0 start_code ScanModel.act] in G;
      repeat match type of G with context [match pos s with _ => _ end] => destruct (ScanModel.pos s) end;
      repeat match type of G with (if ?c then _ else _) = _ => destruct c | (match ?c with _ => _ end) = _ => destruct c end;
      try discriminate G | ]); try contradiction.
Qed.

Lemma best_member l s r n h : best l s = Some (r, n, h) -> In r l.
Proof.
  revert n h. induction l as [| x l IH]; intros n h H; cbn [best] in H; [discriminate |].
  destruct (matched x s) as [[[| k] j] |].
  - right. eapply IH, H.
  - destruct (best l s) as [[[r' n'] h'] |].
    + destruct (Nat.ltb (S k) n'); injection H as <- <- <-; [right; eapply IH; reflexivity | left; reflexivity].
    + injection H as <- <- <-. left. reflexivity.
  - right. eapply IH, H.
Qed.
Lemma scan_proper f : forall cfg st s l st', scan f cfg st s = Scanned l st' -> Forall (fun x => ltok x <> Tok "$end") l.
Proof.
  induction f as [| f IH]; intros cfg st s l st'; cbn [scan]; [discriminate |].
  destruct s as [| c u].
  - unfold at_end. destruct (smode st); intro E; inversion E; constructor.
  - destruct (step cfg st (c :: u)) as [[st1 | t v st1 | st1 | st1 |] u1] eqn:E; try discriminate.
    + apply IH.
    + destruct (scan f cfg st1 u1) as [l1 s1 | | |] eqn:E1; try discriminate. cbn [also]. intro H. injection H as <- <-.
      constructor; [| eapply IH, E1]. cbn [ltok]. unfold step in E.
      destruct (best (rules (smode st)) (c :: u)) as [[[r n] h] |] eqn:B; [| discriminate].
      destruct (ScanModel.act r cfg _ _) as [s2 | t2 v2 s2 | s2 | s2 |] eqn:A; inversion E; subst.
      eapply given; [eapply best_member, B | exact A].
Qed.
Lemma input_proper l : Forall (fun x => ltok x <> Tok "$end") l -> proper (input l).
Proof.
  intro F. unfold proper, input. apply Forall_map. eapply Forall_impl; [| exact F]. intros [t v n] H E. cbn in *.
  apply tok_zero in E. destruct t as [c | x]; cbn in E; [discriminate | subst; contradiction].
Qed.
Lemma scanned_proper cfg bytes l s : scan_file cfg bytes = Scanned l s -> proper (input l).
Proof. intro H. apply input_proper. eapply scan_proper, H. Qed.
Lemma input_small l : Forall (fun x => (fst x < N.succ nt)%N) (input l).
Proof. unfold input. apply Forall_map, Forall_forall. intros x _. apply tok_small. Qed.

(** ** Reading *)
Theorem accepted_tree n ast l v w : proper l -> read_tokens n ast l = Accepted val world v w ->
  exists t, tree_of productions val (start_symbol productions) t l /\ does val world sem [] t (empty_world ast) v w.
Proof.
  intros P E. unfold read_tokens in E. rewrite states_eq in E.
  apply (parse_sound productions grammar_states 0 table_checked val world sem (empty_world ast) n [] [] (empty_world ast)) in E; [exact E | constructor | exact P].
Qed.
Theorem reading_never_stuck n ast l : proper l -> read_tokens n ast l <> Stuck val world.
Proof.
  intro P. unfold read_tokens. rewrite states_eq.
  eapply (never_stuck productions grammar_states 0 table_checked val world sem (empty_world ast) n [] [] (empty_world ast)); [constructor | exact P].
Qed.
Theorem reading_ends ast l : Forall (fun x => (fst x < N.succ nt)%N) l -> exists n, read_tokens n ast l <> YaccModel.NoFuel val world.
Proof.
  intro F. unfold read_tokens. rewrite states_eq.
  eapply (parse_ends productions grammar_states 0 (N.succ nt) val world sem 40 settle_checked ltac:(unfold nt; lia) l [] (empty_world ast)); [constructor | exact F].
Qed.
Theorem reading_more n m ast l : n <= m -> read_tokens n ast l <> YaccModel.NoFuel val world -> read_tokens m ast l = read_tokens n ast l.
Proof. apply parse_more. Qed.
Theorem error_prefix n ast l r w : proper l -> read_tokens n ast l = SyntaxError val world r w ->
  exists u v, l = u ++ r /\ sentence productions val (u ++ v).
Proof.
  intros P E. unfold read_tokens in E. rewrite states_eq in E.
  eapply (error_place productions grammar_states 0 (N.succ nt) val world sem table_checked ltac:(unfold nt; lia) just_checked productive_checked VNone (empty_world ast)); [exact P | exact E].
Qed.
Theorem error_only_next n ast l r w : read_tokens n ast l = SyntaxError val world r w ->
  exists u, l = u ++ r /\ forall r', ahead 0 val r' = ahead 0 val r -> read_tokens n ast (u ++ r') = SyntaxError val world r' w.
Proof. apply error_local. Qed.
