(** The lexer over encoded text, and its rule sets: C114 and C115. *)
From Coq Require Import List NArith ZArith Lia Bool PeanoNat Permutation.
From Verif Require Import Base CharSetModel AutomatonModel AutomatonSpec CsetLaws AutomatonProps UtfModel UtfSpec UtfProofs UtfProps
  LexerModel LexerSpec LexerProofs LexRuleModel LexerProps IterModel IterSpec IterProofs RulesetProofs.
Import ListNotations.
Local Open Scope nat_scope.

(** Any number of reads from the beginning of a text. *)
Definition over_units C n fuel sets r text := lex_n C (unit_iterator text) n fuel sets (begin_at (unit_iterator text) 0 r).
Definition over_utf8 C keep n fuel sets r buf := lex_n C (utf8_iterator keep buf) n fuel sets (begin_at (utf8_iterator keep buf) 0 r).
Definition over_utf8_16 C n fuel sets r buf := lex_n C (utf8_16_iterator buf) n fuel sets (begin_at (utf8_16_iterator buf) (0, 0%N) r).
Definition over_utf16 C n fuel sets r buf := lex_n C (utf16_iterator buf) n fuel sets (begin_at (utf16_iterator buf) 0 r).

(** C114: reading the UTF-8 bytes of a text finds the tokens of its characters,
    every one at the bytes of its characters, if the text given back for
    lookaheads and barriers is ASCII. *)
Theorem C114_utf8 : forall C sets text n fuel r, Forall (fun c => scalar c /\ ~ non_character c) text -> Forall (gives_back (fun c => c < 0x80)%N) sets ->
  same_out (offset utf8_char text) (over_units C n fuel sets r text) (over_utf8 C allowed n fuel sets r (utf8 text)) /\
  (Forall (fun c => c < 0x10000)%N text ->
   same_out (offset utf8_char text) (over_units C n fuel sets r text) (over_utf8 C ucs2_keep n fuel sets r (utf8 text)) /\
   same_out (offset utf8_char text) (over_units C n fuel sets r text) (over_utf8_16 C n fuel sets r (utf8 text))) /\
  (Forall (fun c => c < 0x80)%N text ->
   same_out (offset utf8_char text) (over_units C n fuel sets r text) (over_utf8 C (fun _ => false) n fuel sets r (utf8 text))).
Proof.
  intros C sets text n fuel r H G.
  assert (B : forall c, In c text -> (c < 0x110000)%N /\ allowed c = true).
  { intros c I. pose proof (proj1 (Forall_forall _ _) H c I) as ((P & _) & NC). unfold code_point in P. split; [exact P|]. apply allowed_iff; [lia|].
    intros D. apply NC. unfold non_character, dropped in *. lia. }
  split; [|split].
  - apply utf8_same; [|exact G]. apply Forall_forall. intros c I. destruct (B c I) as (B1 & B2). split; [lia|]. unfold kept8. rewrite B2. apply orb_true_r.
  - intros S. assert (B3 : forall c, In c text -> (c < 0x10000)%N) by (apply Forall_forall; exact S). split.
    + apply utf8_same; [|exact G]. apply Forall_forall. intros c I. destruct (B c I) as (B1 & B2). specialize (B3 c I). split; [lia|]. unfold kept8, ucs2_keep. rewrite B2.
      replace (c <=? 65535)%N with true by (symmetry; apply N.leb_le; lia). apply orb_true_r.
    + apply utf8_16_same; [|exact G]. apply Forall_forall. intros c I. destruct (B c I) as (B1 & B2). split; [exact (B3 c I)|]. unfold kept16. rewrite B2. apply orb_true_r.
  - intros S. apply utf8_same; [|exact G]. apply Forall_forall. intros c I. pose proof (proj1 (Forall_forall _ _) S c I) as B3. cbn beta in B3. split; [lia|].
    unfold kept8. replace (c <? 128)%N with true by (symmetry; apply N.ltb_lt; exact B3). reflexivity.
Qed.
Print Assumptions C114_utf8.
(** The same for UTF-16, if the text given back is of the basic plane. *)
Theorem C114_utf16 : forall C sets text n fuel r, Forall scalar text -> Forall (gives_back (fun c => c < 0x10000)%N) sets ->
  same_out (offset utf16_char text) (over_units C n fuel sets r text) (over_utf16 C n fuel sets r (utf16 text)).
Proof.
  intros C sets text n fuel r H G. apply utf16_same; [|exact G]. eapply Forall_impl; [|exact H]. unfold scalar, high_half. cbn. intros a (Q1 & Q2). split; [exact Q1|lia].
Qed.
Print Assumptions C114_utf16.

(** Tokens, rule set and calls at the end. *)
Definition result {I} (o : out (lexing I)) : out (list token * nat * list event) :=
  match o with Done l => Done (x_tokens l, x_set l, x_log l) | Undefined => Undefined | Exits => Exits | Unfinished => Unfinished end.
Definition Wide := seq_cset 0x110000.
Definition chr (x : N) : nfa Wide := nfa_set Wide (MkSeq [(x, N.succ x)] false).
(** The automaton of rules, and the actions of plain rules. *)
Definition wide_dfa (rules : list (nfa Wide)) : dfa Wide := match lexer_dfa Wide 60 same_order rules with Some d => d | None => MkDfa 0 [] [] 0 end.
(** Case: é is returned as 1001, U+1F600 as 1002, blanks are skipped. *)
Example C114_case : let sets := [MkSet (wide_dfa [chr 0xe9; chr 0x1f600; chr 0x20]) None [MkRule 0 [] (Return 1001); MkRule 0 [] (Return 1002); MkRule 0 [] Skip]] in
  let text := [0xe9; 0x20; 0x1f600; 0xe9]%N in
  Forall (fun c => scalar c /\ ~ non_character c) text /\ Forall (gives_back (fun c => c < 0x80)%N) sets /\
  result (over_units Wide 4 20 sets 0 text) = Done ([MkToken 1001 0 0; MkToken 1002 2 2; MkToken 1001 3 3; eof_at 4], 0, []) /\
  result (over_utf8 Wide allowed 4 20 sets 0 (utf8 text)) = Done ([MkToken 1001 0 1; MkToken 1002 3 6; MkToken 1001 7 8; eof_at 9], 0, []) /\
  result (over_utf16 Wide 4 20 sets 0 (utf16 text)) = Done ([MkToken 1001 0 0; MkToken 1002 2 3; MkToken 1001 4 4; eof_at 5], 0, []).
Proof.
  intros sets text. split; [repeat constructor; unfold scalar, code_point, non_character; cbn; lia|]. split.
  { constructor; [|constructor]. intros k a w q A _ _. assert (r_back a = 0) as -> by (destruct k as [|[|[|k]]]; cbn in A; [injection A as <-; reflexivity..|destruct k; discriminate A]).
    split; [lia|]. rewrite Nat.sub_0_r, skipn_all. constructor. }
  split; [vm_compute; reflexivity|]. split; vm_compute; reflexivity.
Qed.
(** Lookaheads count characters, the position counts units: the rule
    [a %la(é)] of a lexer over UTF-8 keeps half of the é in its token. *)
Theorem C114_lookahead_refuted : exists rule n d, compile_rule Wide 60 same_order (LLook (chr 0x61) (chr 0xe9) (Return 1001)) = Some [(rule, MkAction n (Return 1001))] /\
  lexer_dfa Wide 60 same_order [rule] = Some d /\ let sets := [MkSet d None [MkRule n [] (Return 1001)]] in let text := [0x61; 0xe9]%N in
  result (over_units Wide 1 20 sets 0 text) = Done ([MkToken 1001 0 0], 0, []) /\
  result (over_utf8 Wide allowed 1 20 sets 0 (utf8 text)) = Done ([MkToken 1001 0 1], 0, []) /\
  offset utf8_char text 1 = 1.
Proof.
  eexists _, _, _. split; [vm_compute; reflexivity|]. split; [vm_compute; reflexivity|]. cbv zeta.
  split; [vm_compute; reflexivity|]. split; [vm_compute; reflexivity|reflexivity].
Qed.
Print Assumptions C114_lookahead_refuted.
(** QUtf8ToUtf16Iterator keeps the second half of a character when the lexer
    goes back in front of it: with the rules [a] and U+1F600, the text
    a U+1F600 a has three tokens, but after the first one the lexer reads the
    half U+DE00 and ends the program. *)
Theorem C114_surrogate_refuted :
  let sets := [MkSet (wide_dfa [chr 0x61; nfa_concat Wide (chr 0xd83d) (chr 0xde00)]) None [MkRule 0 [] (Return 1001); MkRule 0 [] (Return 1002)]] in
  let text := [0x61; 0x1f600; 0x61]%N in
  Forall (fun c => scalar c /\ ~ non_character c) text /\
  result (over_units Wide 4 20 sets 0 (utf16 text)) = Done ([MkToken 1001 0 0; MkToken 1002 1 2; MkToken 1001 3 3; eof_at 4], 0, []) /\
  result (over_utf8_16 Wide 1 20 sets 0 (utf8 text)) = Done ([MkToken 1001 0 0], 0, []) /\
  result (over_utf8_16 Wide 2 20 sets 0 (utf8 text)) = Exits.
Proof.
  intros sets text. split; [repeat constructor; unfold scalar, code_point, non_character; cbn; lia|].
  split; [vm_compute; reflexivity|]. split; vm_compute; reflexivity.
Qed.
Print Assumptions C114_surrogate_refuted.

(** C115: in every rule set the rules of this set alone decide the next token,
    and the next set is the one last set by the actions; the program ends only
    where no rule of a set without %fail matches. *)
Theorem C115_next : forall C ok ord text defs sets f, supported C ok -> (forall l, Permutation (ord l) l) -> Forall (fun c => c < c_size C)%N text ->
  Forall2 (built C ok ord f) defs sets ->
  Forall (fun rs => (forall ss, s_fail rs = Some ss -> declared C sets ss) /\ Forall (fun a => declared C sets (r_sets a)) (s_rules rs)) sets ->
  Forall2 (keeps C) defs sets ->
  let I := unit_iterator text in
  forall fuel (l : lexing I), x_it l <= length text -> x_set l < length sets -> length text - x_it l + 1 < fuel ->
  (exists (l' : lexing I) t ev, lex C I fuel sets l = Done l' /\ x_tokens l' = x_tokens l ++ [t] /\ x_log l' = x_log l ++ ev /\
     next_in text (map (map (lang C)) defs) (map s_rules sets) (map s_fail sets) (x_set l) (if x_cont l then x_spos l else x_it l) (x_it l) t (x_it l') (x_set l') ev /\
     x_it l' <= length text /\ x_set l' < length sets) \/
  (lex C I fuel sets l = Exits /\ stuck_in text (map (map (lang C)) defs) (map s_rules sets) (map s_fail sets) (x_set l) (x_it l)).
Proof.
  intros C ok ord text defs sets f S P TX BU DE KE I fuel l B1 B2 B3.
  exact (lex_next C ok (supported_laws C ok S) ord P text TX defs sets f BU DE KE fuel l B1 B2 B3).
Qed.
Print Assumptions C115_next.
(** That token, position, set and calls are the only ones. *)
Theorem C115_only : forall text langs acts fails r s p t p' r' ev, next_in text langs acts fails r s p t p' r' ev ->
  (forall t2 p2 r2 ev2, next_in text langs acts fails r s p t2 p2 r2 ev2 -> t2 = t /\ p2 = p' /\ r2 = r' /\ ev2 = ev) /\ ~ stuck_in text langs acts fails r p.
Proof. exact next_in_once. Qed.
Print Assumptions C115_only.
(** With at most one lxSET_RULE_SET in an action, %leave code runs for the set
    that was current and %enter code for the new one, in turn, on every input
    and over every iterator. *)
Theorem C115_in_turn_partial : forall C I sets n fuel l l', Forall (once C) sets -> lex_n C I n fuel sets l = Done l' -> x_log l = [] ->
  in_turn (x_set l) (x_log l') (x_set l').
Proof.
  intros C I sets n fuel l l' O H E. apply (lex_n_turn C I sets O (x_set l) n fuel l l'); [|exact H]. rewrite E. constructor.
Qed.
Print Assumptions C115_in_turn_partial.

(** Case: "if" enters the set 1, a letter there returns to the set 0; blanks
    are skipped in one set and belong to the next token in the other. *)
Definition ex_dfa : dfa Asc := match lexer_dfa Asc 100 same_order ex_rules with Some d => d | None => MkDfa 0 [] [] 0 end.
Definition ex_sets : list (rule_set Asc) :=
  [MkSet ex_dfa None [MkRule 0 [1] (Return 1001); MkRule 0 [] (Return 1002); MkRule 0 [] Skip];
   MkSet ex_dfa (Some [0]) [MkRule 0 [] (Return 1003); MkRule 0 [0] (Return 1004); MkRule 0 [] Continue]].
Example C115_case : let text := [105; 102; 32; 120; 105; 102]%N in
  Forall2 (built Asc Asc_ok same_order 100) [ex_rules; ex_rules] ex_sets /\
  Forall (fun rs => (forall ss, s_fail rs = Some ss -> declared Asc ex_sets ss) /\ Forall (fun a => declared Asc ex_sets (r_sets a)) (s_rules rs)) ex_sets /\
  Forall2 (keeps Asc) [ex_rules; ex_rules] ex_sets /\ Forall (once Asc) ex_sets /\
  result (over_units Asc 4 20 ex_sets 0 text) =
    Done ([MkToken 1001 0 1; MkToken 1004 2 3; MkToken 1001 4 5; eof_at 6], 1, [Leaving 0; Entering 1; Leaving 1; Entering 0; Leaving 0; Entering 1]).
Proof.
  intros text. destruct C34_35_case as (X1 & X2 & _).
  assert (KP : forall rs, Forall (fun a => r_back a = 0) (s_rules rs) -> keeps Asc ex_rules rs).
  { intros rs F k w a A M. rewrite Forall_forall in F. rewrite (F a (nth_error_In _ _ A)). apply ex_match in M.
    destruct M as [(_ & ->)|[(_ & x & -> & _)|(_ & x & -> & _)]]; cbn; lia. }
  split.
  { assert (LD : lexer_dfa Asc 100 same_order ex_rules = Some ex_dfa) by (vm_compute; reflexivity).
    constructor; [|constructor; [|constructor]]; (split; [discriminate|]; split; [exact X1|]; split; [exact X2|]; split; [exact LD|reflexivity]). }
  split.
  { unfold declared. constructor; [|constructor; [|constructor]]; (split; [intros ss E; cbn [s_fail] in E; first [discriminate E|injection E as <-; constructor; [cbn [length ex_sets]; lia|constructor]]|cbn [s_rules]; repeat (constructor; [cbn [r_sets]; repeat (constructor; [cbn [length ex_sets]; lia|]); constructor|]); constructor]). }
  split; [constructor; [|constructor; [|constructor]]; apply KP; cbn [s_rules]; repeat (constructor; [reflexivity|]); constructor|].
  split; [constructor; [|constructor; [|constructor]]; (split; [intros ss E; cbn [s_fail] in E; first [discriminate E|injection E as <-; cbn [length]; lia]|cbn [s_rules]; repeat (constructor; [cbn [r_sets length]; lia|]); constructor])|].
  vm_compute. reflexivity.
Qed.
(** Two changes in one action: the code of the first set runs as if it were
    left twice, the set in between is never left. *)
Theorem C115_in_turn_refuted : exists sets ts r log, result (over_units Asc 1 20 sets 0 [105; 102]%N) = Done (ts, r, log) /\
  log = [Leaving 0; Entering 1; Leaving 0; Entering 2] /\ ~ in_turn 0 log r.
Proof.
  exists [MkSet ex_dfa None [MkRule 0 [1; 2] (Return 1001)]]. eexists _, _, _. split; [vm_compute; reflexivity|]. split; [reflexivity|].
  intros H. inversion H as [|? ? ? ? H2]; subst. inversion H2.
Qed.
Print Assumptions C115_in_turn_refuted.
(** The first rule set is left without having been entered: the constructor
    does not run the %enter code of the set start. *)
Theorem C115_start_refuted : exists ts r log, result (over_units Asc 1 20 ex_sets 0 [105; 102]%N) = Done (ts, r, log) /\ nth_error log 0 = Some (Leaving 0) /\ ~ In (Entering 0) log.
Proof. eexists _, _, _. split; [vm_compute; reflexivity|]. split; [reflexivity|]. cbn. intros [H|[H|[]]]; discriminate H. Qed.
Print Assumptions C115_start_refuted.
