(** Properties C34, C35, C63, C64: the generated lexer, lookahead, barrier. *)
From Coq Require Import List NArith ZArith Lia Bool PeanoNat Permutation ZifyBool ZifyN ZifyNat.
From Verif Require Import Base AutomatonModel AutomatonSpec CharSetModel CharSetSpec CsetLaws ThompsonProofs NfaDiagModel NfaDiagProofs NfaApiSpec NfaApiProofs
  LexerModel LexerSpec LexerProofs LexRuleModel LexRuleProofs AutomatonProps.
Import ListNotations.

(** C34: on any rule set in which every rule is the first one for some word
    and some unmatched word is a prefix of a matched one. *)
Theorem C34_longest_match_partial : forall C ok ord rules, supported C ok -> (forall l, Permutation (ord l) l) ->
  rules <> [] -> Forall (single C ok) rules -> used (map (lang C) rules) ->
  (exists F d, forall f, F <= f -> lexer_dfa C f ord rules = Some d) /\
  forall f d nxt len, lexer_dfa C f ord rules = Some d -> proper_iter nxt len -> (forall p c p', nxt p = Some (c, p') -> (c < c_size C)%N) ->
  forall fuel p, len - p < fuel -> exists q k, scan C nxt fuel d 0 p p 0 = Some (q, k) /\
    match k with
    | 0 => q = p /\ no_match nxt (map (lang C) rules) p
    | S k0 => k0 < length rules /\ exists w, longest nxt (map (lang C) rules) p k0 w q
    end.
Proof.
  intros C ok ord rules S P NE SI U. pose proof (supported_laws C ok S) as L. split.
  - apply (lexer_dfa_ends C ok L (fun _ => None) 0 ltac:(discriminate) ord P rules NE SI U).
  - intros f d nxt len H PI IC fuel p B. apply (scan_longest C ok L nxt len PI IC ord P fuel f rules d p NE SI U H B).
Qed.
Print Assumptions C34_longest_match_partial.
(** Two rules for the same text: "aab" becomes a token of the first, though only "ab" matches. *)
Theorem C34_longest_match_refuted : exists r d, api Asc Asc_ok r /\ lexer_dfa Asc 90 same_order [r; r] = Some d /\
  scan Asc (unit_iter [97; 97; 98]%N) 10 d 0 0 0 0 = Some (3, 1) /\
  no_match (unit_iter [97; 97; 98]%N) (map (lang Asc) [r; r]) 0.
Proof.
  exists (nfa_concat Asc (ltr 97) (ltr 98)). eexists. split; [repeat constructor; apply ltr_api; lia|]. split; [vm_compute; reflexivity|]. split; [vm_compute; reflexivity|].
  pose proof (supported_laws _ _ Asc_supported) as L.
  intros j w q R (P & J & W). assert (E : w = [97; 98]%N).
  { assert (Q : lang Asc (nfa_concat Asc (ltr 97) (ltr 98)) w) by (destruct j as [|[|j]]; cbn in J; [injection J as <-; exact W|injection J as <-; exact W|destruct j; discriminate J]).
    apply (concat_lang _ _ L) in Q; [|apply (api_ok _ _ L), ltr_api; lia..]. destruct Q as (x & y & -> & X & Y). apply ltr_lang in X; [|lia]. apply ltr_lang in Y; [|lia]. subst. reflexivity. }
  subst w. apply unit_reads in R. cbn in R. destruct R as (_ & R). discriminate R.
Qed.
Print Assumptions C34_longest_match_refuted.
(** The interpreter of the automaton (DFA::nextAction) finds the same. *)
Theorem C34_interpreter_agrees : forall C ok ord rules f d nxt len, supported C ok -> (forall l, Permutation (ord l) l) ->
  rules <> [] -> Forall (single C ok) rules -> used (map (lang C) rules) -> lexer_dfa C f ord rules = Some d ->
  proper_iter nxt len -> (forall p c p', nxt p = Some (c, p') -> (c < c_size C)%N) ->
  forall fuel p, next_action C nxt fuel d 0 p p None =
    match scan C nxt fuel d 0 p p 0 with Some (q, k) => Some (q, if Nat.eqb k 0 then None else Some k) | None => None end.
Proof.
  intros C ok ord rules f d nxt len S P NE SI U H PI IC fuel p. pose proof (supported_laws C ok S) as L.
  destruct (lexer_dfa_ok C ok L nxt len IC ord P f rules d NE SI U H) as (W & D & _).
  apply (next_action_scan C ok L nxt IC d W D fuel 0 p p 0).
Qed.
Print Assumptions C34_interpreter_agrees.

(** C35: repeated reads cut the input into consecutive pieces; every token is
    such a piece; then only EOF tokens follow, at the end of the input or
    where no rule matches. *)
Theorem C35_reads_cover_input : forall C ok ord rules acts f d nxt len, supported C ok -> (forall l, Permutation (ord l) l) ->
  rules <> [] -> Forall (single C ok) rules -> used (map (lang C) rules) -> lexer_dfa C f ord rules = Some d ->
  proper_iter nxt len -> (forall p c p', nxt p = Some (c, p') -> (c < c_size C)%N) ->
  length acts = length rules ->
  (forall k w p q a, nth_error acts k = Some a -> matches (map (lang C) rules) k w -> reads nxt p w q -> p < q - a_back a) ->
  forall n fuel, len < n -> len + 1 < fuel -> exists l ps m, reads_n C nxt n fuel d acts start = Some l /\
    pieces 0 ps (l_pos l) /\ 0 < m /\ l_tokens l = tokens_of ps ++ repeat (eof_at (l_pos l)) m /\ length (l_tokens l) = n /\
    (nxt (l_pos l) = None \/ no_match nxt (map (lang C) rules) (l_pos l)).
Proof.
  intros C ok ord rules acts f d nxt len S P NE SI U H PI IC LA AD n fuel B1 B2. pose proof (supported_laws C ok S) as L.
  destruct (reads_cover C ok L nxt len PI IC ord P rules acts NE SI U LA AD f d H n fuel B2) as (l & R & CO).
  destruct (covered_end C nxt len IC rules acts LA n l CO B1) as (ST & ps & m & E1 & E2 & E3).
  exists l, ps, m. split; [exact R|]. split; [exact E1|]. split; [exact E2|]. split; [exact E3|]. split; [|exact ST].
  destruct CO as (ps' & m' & _ & _ & X & _). exact X.
Qed.
Print Assumptions C35_reads_cover_input.
(** Which token each read delivers. *)
Theorem C35_read_token : forall C ok ord rules acts f d nxt len, supported C ok -> (forall l, Permutation (ord l) l) ->
  rules <> [] -> Forall (single C ok) rules -> used (map (lang C) rules) -> lexer_dfa C f ord rules = Some d ->
  proper_iter nxt len -> (forall p c p', nxt p = Some (c, p') -> (c < c_size C)%N) ->
  length acts = length rules ->
  (forall k w p q a, nth_error acts k = Some a -> matches (map (lang C) rules) k w -> reads nxt p w q -> p < q - a_back a) ->
  forall fuel l, l_pos l <= len -> len - l_pos l + 1 < fuel -> exists l' t, read C nxt fuel d acts l = Some l' /\ l_tokens l' = l_tokens l ++ [t] /\
    next_token nxt (map (lang C) rules) acts (if l_cont l then l_spos l else l_pos l) (l_pos l) t (l_pos l').
Proof.
  intros C ok ord rules acts f d nxt len S P NE SI U H PI IC LA AD fuel l B1 B2. pose proof (supported_laws C ok S) as L.
  destruct (read_ok C ok L nxt len PI IC ord P rules acts NE SI U LA AD f d H fuel l B1 B2) as (l' & t & R1 & R2 & R3 & _). exists l', t. auto.
Qed.
Print Assumptions C35_read_token.

(** Case: "if" returns 1001, a lower case letter 1002, blanks are skipped. *)
Definition az : seqset := MkSeq [(97, 123)]%N false.
Definition blank : seqset := MkSeq [(32, 33)]%N false.
Definition ex_rules : list (nfa Asc) := [nfa_word Asc [105; 102]%N; nfa_set Asc az; nfa_set Asc blank].
Definition ex_acts : list action := [MkAction 0 (Return 1001); MkAction 0 (Return 1002); MkAction 0 Skip].
Lemma az_ok : Asc_ok az. Proof. unfold Asc_ok, seq_ok, canonical; cbn; lia. Qed.
Lemma blank_ok : Asc_ok blank. Proof. unfold Asc_ok, seq_ok, canonical; cbn; lia. Qed.
Lemma ex_match k w : matches (map (lang Asc) ex_rules) k w <->
  (k = 0 /\ w = [105; 102]%N) \/ (k = 1 /\ exists x, w = [x] /\ c_acc Asc az x = true) \/ (k = 2 /\ exists x, w = [x] /\ c_acc Asc blank x = true).
Proof.
  pose proof (supported_laws _ _ Asc_supported) as L. assert (IC : in_codec Asc [105; 102]%N) by repeat constructor.
  unfold matches. split.
  - intros (P & E & H). destruct k as [|[|[|k]]]; cbn [ex_rules map nth_error] in E; [| | |destruct k; discriminate E]; injection E as <-.
    + left. split; [reflexivity|]. apply (word_lang _ _ L _ _ IC) in H. exact H.
    + right. left. split; [reflexivity|]. apply (set_lang Asc Asc_ok) in H; [exact H|exact az_ok|reflexivity].
    + right. right. split; [reflexivity|]. apply (set_lang Asc Asc_ok) in H; [exact H|exact blank_ok|reflexivity].
  - intros [(-> & ->)|[(-> & H)|(-> & H)]]; eexists; (split; [reflexivity|]).
    + apply (word_lang _ _ L _ _ IC). reflexivity.
    + apply (set_lang Asc Asc_ok); [exact az_ok|reflexivity|exact H].
    + apply (set_lang Asc Asc_ok); [exact blank_ok|reflexivity|exact H].
Qed.
Example C34_35_case : let nxt := unit_iter [105; 102; 32; 120; 105; 102]%N in
  Forall (single Asc Asc_ok) ex_rules /\ used (map (lang Asc) ex_rules) /\ proper_iter nxt 6 /\
  (forall k w p q a, nth_error ex_acts k = Some a -> matches (map (lang Asc) ex_rules) k w -> reads nxt p w q -> p < q - a_back a) /\
  exists d l, lexer_dfa Asc 100 same_order ex_rules = Some d /\ reads_n Asc nxt 4 20 d ex_acts start = Some l /\
    l_tokens l = [MkToken 1001 0 1; MkToken 1002 3 3; MkToken 1001 4 5; eof_at 6].
Proof.
  intros nxt. pose proof (supported_laws _ _ Asc_supported) as L. split.
  { constructor; [apply (word_single _ _ L); repeat constructor|]. constructor; [apply set_single, az_ok|]. constructor; [apply set_single, blank_ok|constructor]. }
  split.
  { split.
    - intros k K. destruct k as [|[|[|k]]]; [| | |cbn in K; lia].
      + exists [105; 102]%N. split; [apply ex_match; auto|lia].
      + exists [97]%N. split; [apply ex_match; right; left; split; [reflexivity|exists 97%N; auto]|]. intros j B K'. apply ex_match in K'. destruct K' as [(_ & E)|[(E & _)|(E & _)]]; try discriminate E; lia.
      + exists [32]%N. split; [apply ex_match; right; right; split; [reflexivity|exists 32%N; auto]|]. intros j B K'. apply ex_match in K'.
        destruct K' as [(_ & E)|[(_ & x & E & A)|(E & _)]]; [discriminate E| |lia]. injection E as <-. discriminate A.
    - exists [], [97%N], 1. split; [|apply ex_match; right; left; split; [reflexivity|exists 97%N; auto]].
      intros i K. apply ex_match in K. destruct K as [(_ & E)|[(_ & x & E & _)|(_ & x & E & _)]]; discriminate E. }
  split; [apply (unit_proper [105; 102; 32; 120; 105; 102]%N)|]. split.
  { intros k w p q a E K R. assert (a_back a = 0).
    { destruct k as [|[|[|k]]]; cbn in E; [injection E as <-; reflexivity..|destruct k; discriminate E]. }
    assert (0 < length w) by (apply ex_match in K; destruct K as [(_ & ->)|[(_ & x & -> & _)|(_ & x & -> & _)]]; cbn; lia).
    apply unit_reads in R. lia. }
  eexists _, _. split; [vm_compute; reflexivity|]. split; [vm_compute; reflexivity|]. reflexivity.
Qed.
(** Text taken by a rule that ends with %continue is lost at the end of the
    input. *)
Theorem C35_trailing_continue_refuted : exists d l, lexer_dfa Asc 100 same_order [nfa_word Asc [97; 98]%N] = Some d /\
  reads_n Asc (unit_iter [97; 98]%N) 2 20 d [MkAction 0 Continue] start = Some l /\ l_tokens l = [eof_at 2; eof_at 2].
Proof. eexists _, _. split; [vm_compute; reflexivity|]. split; vm_compute; reflexivity. Qed.
Print Assumptions C35_trailing_continue_refuted.

(** C63: a rule [a %la(s)] whose lookahead has words of one positive length
    matches a word of [a] followed by one of [s] and goes back to the end of the
    former. *)
Theorem C63_lookahead_partial : forall C ok ord f a s fin l n, supported C ok -> single C ok a -> api C ok s ->
  0 < n -> (exists v, lang C s v) -> (forall v, lang C s v -> length v = n) -> isUnbounded C s <> Some true ->
  compile_rule C f ord (LLook a s fin) = Some l ->
  exists a', l = [(a', MkAction n fin)] /\ single C ok a' /\
    forall w, lang C a' w <-> exists u v, w = u ++ v /\ lang C a u /\ lang C s v /\ consumed w n = u.
Proof.
  intros C ok ord f a s fin l n S Sa As Pn (v0 & V0) V U H. pose proof (supported_laws C ok S) as L.
  destruct (api_ok C ok L s As) as (Ss & T & Y).
  destruct (look_ok C ok L ord f a s fin l Sa Ss T Y H) as [(a' & m & E1 & E2 & E3 & E4)|(_ & [K|[(x & y & X & K & Q)|K]])].
  - assert (m = n) by (rewrite <- (E3 _ V0); apply V; exact V0). subst m. exists a'. split; [exact E1|]. split; [exact E2|].
    intros w. rewrite E4. split; intros (u & v & X); exists u, v; [intuition|]. destruct X as (X1 & X2 & X3 & X4). rewrite (V v X3). auto.
  - apply V in K. cbn in K. lia.
  - apply V in X. apply V in K. lia.
  - contradiction.
Qed.
Print Assumptions C63_lookahead_partial.
(** Over one unit per character the token ends exactly where the lookahead
    begins. *)
Theorem C63_token_ends_before_lookahead : forall rules buf p k w q u v,
  longest (unit_iter buf) rules p k w q -> w = u ++ v -> q - length v = p + length u /\ firstn (length u) (skipn p buf) = u.
Proof.
  intros rules buf p k w q u v (R & _) ->. apply unit_reads in R. rewrite app_length in R. destruct R as (R1 & R2). split; [lia|].
  apply (f_equal (firstn (length u))) in R2. rewrite firstn_firstn, Nat.min_l, firstn_app, firstn_all, Nat.sub_diag, firstn_O, app_nil_r in R2 by lia. exact R2.
Qed.
Print Assumptions C63_token_ends_before_lookahead.
(** A lookahead that some words of different lengths belong to is ignored
    (a message is printed). *)
Theorem C63_variable_lookahead_refuted : exists a s l, api Asc Asc_ok a /\ api Asc Asc_ok s /\
  compile_rule Asc 50 same_order (LLook a s (Return 1001)) = Some l /\ l = [(a, MkAction 0 (Return 1001))] /\
  lang Asc a [97%N] /\ ~ lang Asc s [].
Proof.
  exists (ltr 97), (nfa_or Asc (ltr 98) (nfa_concat Asc (ltr 98) (ltr 99))). eexists. split; [apply ltr_api; lia|].
  split; [repeat constructor; apply ltr_api; lia|]. split; [vm_compute; reflexivity|]. split; [reflexivity|]. split; [apply ltr_lang; [lia|reflexivity]|].
  pose proof (supported_laws _ _ Asc_supported) as L. assert (S : forall x, (x < 127)%N -> single Asc Asc_ok (ltr x)) by (intros x H; apply (api_ok _ _ L), ltr_api, H).
  intros H. apply (or_lang _ _ L) in H; [|apply S; lia|apply (concat_single _ _ L); apply S; lia]. destruct H as [H|H]; [apply ltr_lang in H; [discriminate H|lia]|].
  apply (concat_lang _ _ L) in H; [|apply S; lia..]. destruct H as (x & y & E & X & _). apply ltr_lang in X; [|lia]. subst x. discriminate E.
Qed.
Print Assumptions C63_variable_lookahead_refuted.

(** C64 *)
Theorem C64_barrier_partial : forall C ok ord f a b fin l n, supported C ok -> (forall l, Permutation (ord l) l) -> single C ok a -> api C ok b ->
  0 < n -> (exists v, lang C b v) -> (forall v, lang C b v -> length v = n) -> isUnbounded C b <> Some true ->
  compile_rule C f ord (LBarrier a b fin) = Some l ->
  exists st cr, l = [(st, MkAction 0 fin); (cr, MkAction n fin)] /\ single C ok st /\ single C ok cr /\
    (forall w, lang C st w <-> lang C a w /\ ~ inside (lang C b) w) /\
    (forall w, lang C cr w <-> exists u v, w = u ++ v /\ lang C a u /\ lang C b v /\ consumed w n = u /\
       forall w' c, w = w' ++ [c] -> ~ inside (lang C b) w').
Proof.
  intros C ok ord f a b fin l n S P Sa Ab Pn (v0 & V0) V U H. pose proof (supported_laws C ok S) as L.
  destruct (api_ok C ok L b Ab) as (Sb & T & Y).
  destruct (barrier_ok C ok L ord P f a b fin l Sa Sb T Y H) as [(st & cr & m & E1 & E2 & E3 & E4 & E5 & E6)|(_ & [K|[(x & y & X & K & Q)|K]])].
  - assert (m = n) by (rewrite <- (E4 _ V0); apply V; exact V0). subst m. exists st, cr. repeat (split; [assumption|]).
    intros w. rewrite E6. split; intros (u & v & X); exists u, v; [intuition|]. destruct X as (X1 & X2 & X3 & X4 & X5). rewrite (V v X3). repeat (split; [assumption|]). exact X5.
  - apply V in K. cbn in K. lia.
  - apply V in X. apply V in K. lia.
  - contradiction.
Qed.
Print Assumptions C64_barrier_partial.
Theorem C64_barrier_not_in_text : forall C ok ord f a b fin l n, supported C ok -> (forall l, Permutation (ord l) l) -> single C ok a -> api C ok b ->
  0 < n -> (exists v, lang C b v) -> (forall v, lang C b v -> length v = n) -> isUnbounded C b <> Some true ->
  compile_rule C f ord (LBarrier a b fin) = Some l -> forall a' act w, In (a', act) l -> lang C a' w ->
  lang C a (consumed w (a_back act)) /\ ~ inside (lang C b) (consumed w (a_back act)).
Proof.
  intros C ok ord f a b fin l n S P Sa Ab Pn (v0 & V0) V U H. pose proof (supported_laws C ok S) as L. destruct (api_ok C ok L b Ab) as (Sb & T & Y).
  apply (barrier_never_inside C ok L ord P f a b fin l Sa Sb T Y); [|exact H].
  intros [K|[(x & y & X & K & Q)|K]]; [apply V in K; cbn in K; lia|apply V in X; apply V in K; lia|contradiction].
Qed.
Print Assumptions C64_barrier_not_in_text.
(** A barrier with words of different lengths is ignored. *)
Theorem C64_variable_barrier_refuted : exists a b l w, api Asc Asc_ok a /\ api Asc Asc_ok b /\
  compile_rule Asc 50 same_order (LBarrier a b (Return 1001)) = Some l /\ l = [(a, MkAction 0 (Return 1001))] /\
  lang Asc a w /\ LexerSpec.inside (lang Asc b) w /\ ~ lang Asc b [].
Proof.
  exists (nfa_concat Asc (ltr 97) (ltr 98)), (nfa_or Asc (ltr 98) (nfa_concat Asc (ltr 98) (ltr 99))). eexists _, [97; 98]%N. split; [repeat constructor; apply ltr_api; lia|].
  split; [repeat constructor; apply ltr_api; lia|]. split; [vm_compute; reflexivity|]. split; [reflexivity|].
  pose proof (supported_laws _ _ Asc_supported) as L. assert (S : forall x, (x < 127)%N -> single Asc Asc_ok (ltr x)) by (intros x H; apply (api_ok _ _ L), ltr_api, H).
  split; [|split].
  - apply (concat_lang _ _ L); [apply S; lia..|]. exists [97%N], [98%N]. split; [reflexivity|]. split; apply ltr_lang; auto; lia.
  - exists [97%N], [98%N], []. split; [reflexivity|]. apply (or_lang _ _ L); [apply S; lia|apply (concat_single _ _ L); apply S; lia|]. left. apply ltr_lang; [lia|reflexivity].
  - intros H. apply (or_lang _ _ L) in H; [|apply S; lia|apply (concat_single _ _ L); apply S; lia]. destruct H as [H|H]; [apply ltr_lang in H; [discriminate H|lia]|].
    apply (concat_lang _ _ L) in H; [|apply S; lia..]. destruct H as (x & y & E & X & _). apply ltr_lang in X; [|lia]. subst x. discriminate E.
Qed.
Print Assumptions C64_variable_barrier_refuted.
Example C63_64_case : exists l m, compile_rule Asc 60 same_order (LLook (ltr 97) (nfa_word Asc [98; 99]%N) (Return 1001)) = Some l /\ length l = 1 /\
  compile_rule Asc 60 same_order (LBarrier (nfa_star Asc (nfa_set Asc az)) (nfa_word Asc [98; 99]%N) (Return 1001)) = Some m /\ length m = 2 /\
  isUnbounded Asc (nfa_word Asc [98; 99]%N) = Some false /\ api Asc Asc_ok (nfa_concat Asc (ltr 98) (ltr 99)) /\
  (forall v, lang Asc (nfa_concat Asc (ltr 98) (ltr 99)) v -> length v = 2).
Proof.
  eexists _, _. split; [vm_compute; reflexivity|]. split; [reflexivity|]. split; [vm_compute; reflexivity|]. split; [reflexivity|]. split; [vm_compute; reflexivity|].
  split; [repeat constructor; apply ltr_api; lia|]. pose proof (supported_laws _ _ Asc_supported) as L.
  intros v H. apply (concat_lang _ _ L) in H; [|apply (api_ok _ _ L), ltr_api; lia..]. destruct H as (x & y & -> & X & Y).
  apply ltr_lang in X; [|lia]. apply ltr_lang in Y; [|lia]. subst. reflexivity.
Qed.
