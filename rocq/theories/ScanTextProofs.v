(** Proofs about the scanner of grammar files: the start of code blocks, arguments of rules,
    strings, types of variables. *)
From Coq Require Import List Ascii String Bool PeanoNat ZArith Lia.
From Verif Require Import FlexModel FlexSpec FlexProofs ScanModel ScanSpec ScanProofs ScanPlaceProofs
  ScanCodeProofs.
Import ListNotations.

(** ** Steps of simple rules *)
Definition calm (st st' : scanner) : Prop :=
  smode st' = smode st /\ frame st st' /\ yyline st' = yyline st.

Lemma split_step (q s : text) : firstn (List.length q) (q ++ s) = q /\ skipn (List.length q) (q ++ s) = s.
Proof.
  rewrite firstn_app, Nat.sub_diag, firstn_all, skipn_app, Nat.sub_diag, skipn_all.
  cbn [firstn skipn]. rewrite app_nil_r. auto.
Qed.

Lemma more_step cfg st q s p :
  best (rules (smode st)) (q ++ s) = Some (more_of p, List.length q, List.length q) ->
  exists st', step cfg st (q ++ s) = (Go st', s) /\ calm st st' /\ kept st' = kept st ++ q.
Proof.
  intro B. eexists. rewrite (step_best _ _ _ _ _ _ B). destruct (split_step q s) as [-> ->].
  split; [reflexivity |]. repeat split.
Qed.

Lemma skip_step cfg st q s p :
  best (rules (smode st)) (q ++ s) = Some (skip p, List.length q, List.length q) ->
  exists st', step cfg st (q ++ s) = (Go st', s) /\ calm st st' /\ kept st' = [].
Proof.
  intro B. eexists. rewrite (step_best _ _ _ _ _ _ B). destruct (split_step q s) as [-> ->].
  split; [reflexivity |]. repeat split.
Qed.

(** Literals. *)
Definition prefix (l s : text) : bool := if list_eq_dec ascii_dec (firstn (List.length l) s) l then true else false.

Lemma prefix_spec l s : prefix l s = true <-> exists u, s = l ++ u.
Proof.
  unfold prefix. destruct (list_eq_dec ascii_dec (firstn (List.length l) s) l) as [E | E].
  - split; [| reflexivity]. intros _. exists (skipn (List.length l) s). rewrite <- E at 1. symmetry. apply firstn_skipn.
  - split; [discriminate |]. intros (u & ->). exfalso. apply E. apply split_step.
Qed.

Lemma longest_lit_ l s : longest (lit_ l) s = if prefix l s then Some (List.length l) else None.
Proof.
  destruct (prefix l s) eqn:P.
  - apply prefix_spec in P. destruct P as (u & ->). apply longest_some. split; [rewrite app_length; lia |].
    split; [apply lang_lit_; apply split_step |].
    intros m L Lg. apply lang_lit_ in Lg. rewrite <- Lg. rewrite firstn_length_le by exact L. lia.
  - pose proof (longest_spec s (lit_ l)) as H. destruct (longest (lit_ l) s) as [n |]; [exfalso | reflexivity].
    destruct H as (A & B & _). apply lang_lit_ in B.
    assert (N : prefix l s = true); [| congruence]. apply prefix_spec. exists (skipn n s). rewrite <- B. symmetry. apply firstn_skipn.
Qed.

(** ** The start of a block *)

Lemma best_open_initial t : best (rules INITIAL) (OPEN ++ t) = Some (r0 (lit "[:") start_code, 2, 2).
Proof.
  change (OPEN ++ t) with ("["%char :: ":"%char :: t). rewrite best_places.
  assert (P : places INITIAL "["%char = [58; 59; 64]) by (vm_compute; reflexivity). rewrite P. clear P.
  cbn [map]. set (x := nth 58 _ _). set (y := nth 59 _ _). set (z := nth 64 _ _).
  assert (X : matched x ("["%char :: ":"%char :: t) = Some (1, 1)).
  { unfold matched. cbn [x nth rules initial_rules trail r0 pat]. rewrite longest_chr. reflexivity. }
  assert (Y : matched y ("["%char :: ":"%char :: t) = Some (2, 2)).
  { unfold matched. cbn [y nth rules initial_rules trail r0 pat lit lit_ chars]. rewrite longest_lit2. reflexivity. }
  assert (Z : matched z ("["%char :: ":"%char :: t) = Some (1, 1)).
  { unfold matched. cbn [z nth rules initial_rules trail r0 pat]. rewrite longest_dot by discriminate. reflexivity. }
  cbn [best]. rewrite X, Y, Z. reflexivity.
Qed.

Lemma best_open_lexer t : best (rules RULE_LEXER) (OPEN ++ t) = Some (r0 (lit "[:") start_code, 2, 2).
Proof.
  change (OPEN ++ t) with ("["%char :: ":"%char :: t). rewrite best_places.
  assert (P : places RULE_LEXER "["%char = [5; 26]) by (vm_compute; reflexivity). rewrite P. clear P.
  cbn [map]. set (x := nth 5 _ _). set (y := nth 26 _ _).
  assert (X : matched x ("["%char :: ":"%char :: t) = Some (1, 1)).
  { unfold matched. cbn [x nth rules lexer_rules trail r0 pat bracket]. rewrite longest_chr. reflexivity. }
  assert (Y : matched y ("["%char :: ":"%char :: t) = Some (2, 2)).
  { unfold matched. cbn [y nth rules lexer_rules trail r0 pat lit lit_ chars]. rewrite longest_lit2. reflexivity. }
  cbn [best]. rewrite X, Y. reflexivity.
Qed.

Lemma open_step cfg st t :
  smode st = INITIAL \/ smode st = RULE_LEXER ->
  exists st', step cfg st (OPEN ++ t) = (Go st', t) /\ smode st' = CODE /\ kept st' = [] /\
    code_line st' = yyline st /\ code_col st' = List.length (line_of st) + 2 /\
    pos st' = pos st /\ yyline st' = yyline st /\ echoed st' = echoed st.
Proof.
  intro M. assert (B : best (rules (smode st)) (OPEN ++ t) = Some (r0 (lit "[:") start_code, 2, 2)).
  { destruct M as [-> | ->]; [apply best_open_initial | apply best_open_lexer]. }
  eexists. rewrite (step_best _ _ _ _ _ _ B). split; [reflexivity |].
  repeat split.
Qed.

(** A whole block. *)
Lemma block_run cfg st body rest :
  smode st = INITIAL \/ smode st = RULE_LEXER -> code_body body ->
  exists st' v, reads cfg st (OPEN ++ body ++ CLOSE ++ rest)
      [Lexeme (Tok "T_CODE") v (yyline st')] st' rest /\
    v = copy_code cfg (code_starts (yyline st) (List.length (line_of st) + 2) st) body /\
    smode st' = (match pos st with RuleLexer => RULE_LEXER | _ => INITIAL end) /\ kept st' = [] /\
    pos st' = pos st /\ yyline st' = yyline st + newlines body /\ echoed st' = echoed st.
Proof.
  intros M CB. destruct (open_step cfg st (body ++ CLOSE ++ rest) M) as (st1 & ST & M1 & K1 & L1 & C1 & P1 & Y1 & E1).
  destruct (code_run cfg body st1 rest M1 CB) as (st' & R & M' & K' & F' & Y').
  exists st', (copy_code cfg st1 (kept st1 ++ body)). split.
  - eapply rd_go; [discriminate | exact ST | exact R].
  - rewrite K1. destruct F' as (P' & _ & _ & _ & E'). split.
    + unfold copy_code. cbn [code_starts code_line code_col app]. rewrite L1, C1. reflexivity.
    + rewrite M', P1. split; [reflexivity |]. split; [exact K' |]. split; [congruence |]. split; [lia | congruence].
Qed.

Lemma block_unclosed cfg st t :
  smode st = INITIAL \/ smode st = RULE_LEXER -> never_closed t ->
  exists l c, scan_from cfg st (OPEN ++ t) = LexError [] l c.
Proof.
  intros M N. destruct (open_step cfg st t M) as (st1 & ST & M1 & _).
  destruct (code_unclosed cfg t st1 M1 N) as (l & c & E). exists l, c.
  rewrite scan_from_step by discriminate. rewrite ST. exact E.
Qed.

(** ** Strings *)
Definition in_string : re := RStar (RAlt (noneof [CR; LF; QUOTE]) (RSeq (chr BSL) (noneof [CR; LF]))).

Lemma lang_noneof l w : lang (noneof l) w <-> exists c, w = [c] /\ ~ In c l.
Proof.
  unfold noneof. rewrite lang_cls. split; intros (c & -> & H); exists c; (split; [reflexivity |]).
  - intro J. apply negb_true_iff in H. unfold among in H.
    assert (T : existsb (Ascii.eqb c) l = true) by (apply existsb_exists; exists c; split; [exact J | apply Ascii.eqb_refl]).
    congruence.
  - apply negb_true_iff. unfold among. destruct (existsb (Ascii.eqb c) l) eqn:E; [| reflexivity].
    apply existsb_exists in E. destruct E as (d & J & D). apply Ascii.eqb_eq in D. subst d. contradiction.
Qed.

Definition quoted (w : text) : Prop :=
  ~ In CR w /\ ~ In LF w /\ forall a b, w = a ++ QUOTE :: b -> ends_in BSL a.

Lemma ends_in_cons c d a : ends_in c a -> ends_in c (d :: a).
Proof. intros (u & ->). exists (d :: u). reflexivity. Qed.
Lemma ends_in_tail c d e a : ends_in c (d :: e :: a) -> ends_in c (e :: a).
Proof. intro H. assert (NE : e :: a <> []) by discriminate. exact (proj1 (ends_in_app c [d] (e :: a) NE) H). Qed.

Lemma lang_in_string : forall n w, List.length w < n -> lang in_string w <-> quoted w.
Proof.
  intros n w L. split.
  - clear L. intro H. unfold in_string in H. remember (RStar _) as r eqn:R. induction H; try discriminate R.
    + repeat split; intros; try contradiction; [intros [] | intros [] |]. destruct a0; discriminate H.
    + injection R as ->. destruct (IHlang2 eq_refl) as (A & B & C). apply lang_alt' in H. destruct H as [H | H].
      * apply lang_noneof in H. destruct H as (c & -> & N). cbn [app]. repeat split.
        -- intros [-> | X]; [apply N; cbn; auto | exact (A X)].
        -- intros [-> | X]; [apply N; cbn; auto | exact (B X)].
        -- intros a b E. destruct a as [| d a]; [injection E as -> _; exfalso; apply N; cbn; auto |].
           injection E as -> E. apply ends_in_cons. exact (C _ _ E).
      * apply lang_seq' in H. destruct H as (x & y & -> & X & Y). apply lang_chr in X. subst x.
        apply lang_noneof in Y. destruct Y as (d & -> & N). cbn [app]. repeat split.
        -- intros [X | [-> | X]]; [discriminate X | apply N; cbn; auto | exact (A X)].
        -- intros [X | [-> | X]]; [discriminate X | apply N; cbn; auto | exact (B X)].
        -- intros a b E. destruct a as [| e [| f a]]; [discriminate E | |].
           ++ injection E as <- _ _. exists []. reflexivity.
           ++ injection E as <- <- E. do 2 apply ends_in_cons. exact (C _ _ E).
  - revert w L; induction n as [| n IH]; intros w L (A & B & C); [lia |].
    destruct w as [| c w]; [apply l_nil |].
    assert (NC : c <> CR) by (intros ->; apply A; left; reflexivity).
    assert (NL : c <> LF) by (intros ->; apply B; left; reflexivity).
    assert (NQ : c <> QUOTE). { intros ->. destruct (C [] w eq_refl) as (u & U). destruct u; discriminate U. }
    cbn [List.length] in L.
    assert (A' : ~ In CR w) by (intro; apply A; right; assumption).
    assert (B' : ~ In LF w) by (intro; apply B; right; assumption).
    assert (D : (exists v, w = QUOTE :: v) \/ forall v, w <> QUOTE :: v).
    { destruct w as [| d w]; [right; discriminate |].
      destruct (Ascii.eqb_spec d QUOTE) as [-> | N]; [left; eauto | right; intros v E; injection E as E _; contradiction]. }
    destruct D as [(v & ->) | D].
    + assert (c = BSL). { destruct (C [c] v eq_refl) as (u & U). destruct u as [| ? [|]]; [injection U as ->; reflexivity | discriminate U | discriminate U]. }
      subst c. change (BSL :: QUOTE :: v) with ([BSL; QUOTE] ++ v). apply l_star.
      * apply l_altr. change [BSL; QUOTE] with ([BSL] ++ [QUOTE]). apply l_seq; [apply lang_chr; reflexivity |].
        apply lang_noneof. exists QUOTE. split; [reflexivity |]. intros [X | [X | []]]; discriminate X.
      * apply IH; [cbn [List.length] in L; lia |]. repeat split.
        -- intro; apply A'; right; assumption.
        -- intro; apply B'; right; assumption.
        -- intros a b E. specialize (C (BSL :: QUOTE :: a) b). rewrite E in C. specialize (C eq_refl).
           apply ends_in_tail in C. destruct a as [| d a]; [destruct C as (u & U); destruct u as [| ? [|]]; discriminate U |].
           apply ends_in_tail in C. exact C.
    + change (c :: w) with ([c] ++ w). apply l_star.
      * apply l_altl. apply lang_noneof. exists c. split; [reflexivity |]. intros [X | [X | [X | []]]]; congruence.
      * apply IH; [lia |]. repeat split; auto. intros a b E. specialize (C (c :: a) b). rewrite E in C. specialize (C eq_refl).
        destruct a as [| d a]; [exfalso; exact (D b E) |]. apply ends_in_tail in C. exact C.
Qed.

Lemma lang_string x : lang StringRe x <-> exists w, x = QUOTE :: w ++ [QUOTE] /\ quoted w.
Proof.
  unfold StringRe. fold in_string. rewrite lang_seq'. split.
  - intros (u & v & -> & U & V). apply lang_chr in U. subst u. apply lang_seq' in V.
    destruct V as (w & y & -> & W & Y). apply lang_chr in Y. subst y. exists w. split; [reflexivity |].
    apply (lang_in_string (S (List.length w))); [lia | exact W].
  - intros (w & -> & W). exists [QUOTE], (w ++ [QUOTE]). split; [reflexivity |]. split; [apply lang_chr; reflexivity |].
    apply l_seq; [| apply lang_chr; reflexivity]. apply (lang_in_string (S (List.length w))); [lia | exact W].
Qed.

Lemma longest_string w s : string_body w ->
  longest StringRe (QUOTE :: w ++ QUOTE :: s) = Some (List.length (QUOTE :: w ++ [QUOTE])).
Proof.
  intros (A & B & C & D). apply longest_some.
  assert (E : QUOTE :: w ++ QUOTE :: s = (QUOTE :: w ++ [QUOTE]) ++ s).
  { cbn [app]. rewrite <- app_assoc. reflexivity. }
  rewrite E. split; [rewrite (app_length (QUOTE :: _)); lia |].
  destruct (split_step (QUOTE :: w ++ [QUOTE]) s) as [F _].
  split; [rewrite F; apply lang_string; exists w; repeat split; auto |].
  intros m L Lg. apply lang_string in Lg. destruct Lg as (w' & E' & (A' & B' & D')).
  destruct (Nat.le_gt_cases m (List.length (QUOTE :: w ++ [QUOTE]))) as [| G]; [assumption |]. exfalso.
  rewrite firstn_app, firstn_all2 in E' by lia.
  destruct (firstn (m - List.length (QUOTE :: w ++ [QUOTE])) s) as [| d x] eqn:X.
  { apply (f_equal (@List.length ascii)) in X. rewrite firstn_length in X. rewrite app_length in L. cbn [List.length] in *. lia. }
  assert (NE : d :: x <> []) by discriminate. destruct (exists_last NE) as (x' & e & Ex). rewrite Ex in E'.
  cbn [app] in E'. injection E' as E'. rewrite app_assoc in E'. apply app_inj_tail in E'. destruct E' as [E' _].
  apply C. apply (D' w x'). rewrite <- E', <- app_assoc. reflexivity.
Qed.

Lemma longest_no_string w s : ~ In QUOTE w -> (s = [] \/ exists c t, s = c :: t /\ (c = CR \/ c = LF)) ->
  longest StringRe (QUOTE :: w ++ s) = None.
Proof.
  intros N T. pose proof (longest_spec (QUOTE :: w ++ s) StringRe) as H.
  destruct (longest StringRe (QUOTE :: w ++ s)) as [n |]; [exfalso | reflexivity].
  destruct H as (_ & H & _). apply lang_string in H. destruct H as (v & E & (A & B & _)).
  destruct n as [| n]; [discriminate E |]. cbn [firstn] in E. injection E as E.
  assert (P : exists z, w ++ s = v ++ QUOTE :: z).
  { exists (skipn n (w ++ s)). rewrite <- (firstn_skipn n (w ++ s)) at 1. rewrite E, <- app_assoc. reflexivity. }
  destruct P as (z & P). clear E n.
  revert v A B P. induction w as [| c w IH]; intros v A B P.
  - cbn [app] in P. destruct T as [-> | (c & t & -> & C)]; [destruct v; discriminate P |].
    destruct v as [| d v]; [injection P as -> _; destruct C; discriminate |].
    injection P as -> _. destruct C as [-> | ->]; [apply A | apply B]; left; reflexivity.
  - destruct v as [| d v]; [injection P as -> _; apply N; left; reflexivity |].
    injection P as -> P. apply (IH (fun X => N (or_intror X)) v); [intro; apply A; right; assumption | intro; apply B; right; assumption | exact P].
Qed.

(** ** Arguments of rules *)
Definition in_args (c : ascii) : bool := negb (among ["["%char; "]"%char; LF; CR; QUOTE] c).
Definition args_text : rule := more_of (RStar (RCls in_args)).

Lemma args_best c t : best (rules RULE_ARGUMENTS) (c :: t) =
  best [nl_more; more_of StringRe; more_of (chr QUOTE); args_text; nth 4 arguments_rules no_rule; nth 5 arguments_rules no_rule] (c :: t).
Proof. reflexivity. Qed.

Lemma m_plain r s : trail r = None -> matched r s = match longest (pat r) s with Some n => Some (n, n) | None => None end.
Proof. intro T. unfold matched. rewrite T. reflexivity. Qed.

Lemma m_more p s : matched (more_of p) s = match longest p s with Some n => Some (n, n) | None => None end.
Proof. reflexivity. Qed.

Lemma m_chr_no r c d t : trail r = None -> pat r = chr c -> c <> d -> matched r (d :: t) = None.
Proof.
  intros T P N. rewrite m_plain, P, longest_chr by exact T. destruct (Ascii.eqb_spec c d); [contradiction | reflexivity].
Qed.
Lemma m_chr r c t : trail r = None -> pat r = chr c -> matched r (c :: t) = Some (1, 1).
Proof. intros T P. rewrite m_plain, P, longest_chr, Ascii.eqb_refl by exact T. reflexivity. Qed.

Lemma longest_string_no c t : c <> QUOTE -> longest StringRe (c :: t) = None.
Proof.
  intro N. unfold StringRe. rewrite longest_cons. unfold chr at 1, is. cbn [deriv nullable andb].
  destruct (Ascii.eqb_spec QUOTE c); [congruence |]. cbn [seq]. rewrite longest_none. reflexivity.
Qed.

Lemma in_args_not c : in_args c = true -> c <> "["%char /\ c <> "]"%char /\ c <> LF /\ c <> CR /\ c <> QUOTE.
Proof. intro H. repeat split; intros ->; discriminate H. Qed.

Lemma best_args_text w s : w <> [] -> forallb in_args w = true -> stops in_args s ->
  best (rules RULE_ARGUMENTS) (w ++ s) = Some (args_text, List.length w, List.length w).
Proof.
  intros NE W St. destruct w as [| c w]; [contradiction |].
  assert (C : in_args c = true) by (cbn [forallb] in W; apply andb_true_iff in W; apply W).
  destruct (in_args_not c C) as (N1 & N2 & N3 & N4 & N5).
  assert (M : matched args_text ((c :: w) ++ s) = Some (List.length (c :: w), List.length (c :: w))).
  { rewrite m_plain by reflexivity. cbn [args_text more_of r0 pat]. rewrite longest_star_cls by assumption. reflexivity. }
  cbn [app] in *. rewrite args_best. cbn [best].
  rewrite m_nl_no by assumption.
  rewrite m_more. rewrite longest_string_no by exact N5.
  rewrite (m_chr_no (more_of (chr QUOTE)) QUOTE) by (reflexivity || congruence). rewrite M.
  rewrite (m_chr_no (nth 4 arguments_rules no_rule) "["%char) by (reflexivity || congruence).
  rewrite (m_chr_no (nth 5 arguments_rules no_rule) "]"%char) by (reflexivity || congruence). reflexivity.
Qed.

Lemma args_none c t : in_args c = false -> matched args_text (c :: t) = Some (0, 0).
Proof.
  intro C. rewrite m_plain by reflexivity. cbn [args_text more_of r0 pat].
  pose proof (longest_star_cls in_args [] (c :: t) eq_refl C) as L. cbn [app List.length] in L. rewrite L. reflexivity.
Qed.

Lemma best_args_string w s : string_body w ->
  best (rules RULE_ARGUMENTS) ((QUOTE :: w ++ [QUOTE]) ++ s) =
    Some (more_of StringRe, List.length (QUOTE :: w ++ [QUOTE]), List.length (QUOTE :: w ++ [QUOTE])).
Proof.
  intro SB.
  assert (E : (QUOTE :: w ++ [QUOTE]) ++ s = QUOTE :: w ++ QUOTE :: s) by (cbn [app]; rewrite <- app_assoc; reflexivity).
  rewrite E, args_best. cbn [best]. rewrite m_nl_no by discriminate.
  rewrite m_more. rewrite longest_string by exact SB.
  rewrite (m_chr (more_of (chr QUOTE)) QUOTE) by reflexivity. rewrite args_none by reflexivity.
  rewrite (m_chr_no (nth 4 arguments_rules no_rule) "["%char) by (reflexivity || discriminate).
  rewrite (m_chr_no (nth 5 arguments_rules no_rule) "]"%char) by (reflexivity || discriminate).
  cbn [List.length]. rewrite app_length. cbn [List.length]. rewrite Nat.add_1_r. reflexivity.
Qed.

Lemma best_args_close s : best (rules RULE_ARGUMENTS) ("]"%char :: s) = Some (nth 5 arguments_rules no_rule, 1, 1).
Proof.
  rewrite args_best. cbn [best]. rewrite m_nl_no by discriminate.
  rewrite m_more. rewrite longest_string_no by discriminate.
  rewrite (m_chr_no (more_of (chr QUOTE)) QUOTE) by (reflexivity || discriminate). rewrite args_none by reflexivity.
  rewrite (m_chr_no (nth 4 arguments_rules no_rule) "["%char) by (reflexivity || discriminate).
  rewrite (m_chr (nth 5 arguments_rules no_rule) "]"%char) by reflexivity. reflexivity.
Qed.

Lemma plain_drop w : forall b, forallb in_args w = true -> plain_arguments (w ++ b) -> plain_arguments b.
Proof.
  induction w as [| c w IH]; intros b W P; [exact P |].
  cbn [forallb] in W. apply andb_true_iff in W. destruct W as [C W]. inversion P; subst.
  - apply IH; assumption.
  - exfalso. destruct (in_args_not _ C) as (_ & _ & _ & _ & N). apply N; reflexivity.
Qed.

Lemma simple_string w : (forall c, In c w -> ~ In c [QUOTE; BSL; CR; LF]) -> string_body w.
Proof.
  intro H. repeat split.
  - intro J. apply (H _ J). cbn; auto.
  - intro J. apply (H _ J). cbn; auto.
  - intros (u & ->). apply (H BSL); [apply in_elt | cbn; auto].
  - intros a b ->. exfalso. apply (H QUOTE); [apply in_elt | cbn; auto].
Qed.

Lemma args_reads cfg : forall n body st z,
  List.length body < n -> smode st = RULE_ARGUMENTS -> plain_arguments body ->
  exists st', reads cfg st (body ++ "]"%char :: z) [] st' ("]"%char :: z) /\ smode st' = RULE_ARGUMENTS /\
    kept st' = kept st ++ body /\ frame st st' /\ yyline st' = yyline st + newlines body.
Proof.
  induction n as [| n IH]; intros body st z L M P; [lia |].
  destruct body as [| c t].
  { exists st. repeat split; [apply rd_none | exact M | rewrite app_nil_r; reflexivity | cbn [newlines]; lia]. }
  assert (GO : forall q b st1, c :: t = q ++ b -> q <> [] -> plain_arguments b -> newlines (c :: t) = newlines q + newlines b ->
    step cfg st ((c :: t) ++ "]"%char :: z) = (Go st1, b ++ "]"%char :: z) -> smode st1 = RULE_ARGUMENTS ->
    kept st1 = kept st ++ q -> frame st st1 -> yyline st1 = yyline st + newlines q ->
    exists st', reads cfg st ((c :: t) ++ "]"%char :: z) [] st' ("]"%char :: z) /\ smode st' = RULE_ARGUMENTS /\
      kept st' = kept st ++ c :: t /\ frame st st' /\ yyline st' = yyline st + newlines (c :: t)).
  { intros q b st1 E Q Pb NL ST M1 K1 F1 Y1.
    assert (Lb : List.length b < n).
    { apply (f_equal (@List.length ascii)) in E. rewrite app_length in E. destruct q; [contradiction |]. cbn [List.length] in *. lia. }
    destruct (IH b st1 z Lb M1 Pb) as (st' & R & M' & K' & F' & Y').
    exists st'. split; [eapply rd_go; [discriminate | exact ST | exact R] |].
    split; [exact M' |]. split; [rewrite K', K1, E, app_assoc; reflexivity |].
    split; [eapply frame_trans; eassumption |]. lia. }
  inversion P as [| c' a N Pa | w a W Pa]; subst.
  - destruct (in_args c) eqn:C.
    + pose proof (take_drop in_args (c :: t)) as E. set (w := takew in_args (c :: t)) in *. set (b := dropw in_args (c :: t)) in *.
      assert (W : forallb in_args w = true) by apply takew_all.
      assert (Wn : w <> []) by (unfold w; cbn [takew]; rewrite C; discriminate).
      assert (St : stops in_args (b ++ "]"%char :: z)).
      { pose proof (dropw_stops in_args (c :: t)) as D. fold b in D. destruct b; [reflexivity | exact D]. }
      pose proof (best_args_text w (b ++ "]"%char :: z) Wn W St) as B. rewrite <- M in B.
      destruct (more_step cfg st w (b ++ "]"%char :: z) _ B) as (st1 & S1 & (S2 & S3 & S4) & S5).
      destruct (not_in_nl in_args w W eq_refl eq_refl) as [N1 N2].
      apply (GO w b st1); auto.
      * rewrite E in P. exact (plain_drop _ _ W P).
      * rewrite E. apply newlines_app. apply not_cut_in. exact N1.
      * rewrite E, <- app_assoc. exact S1.
      * congruence.
      * rewrite (newlines_none w) by assumption. lia.
    + assert (CN : c = CR \/ c = LF).
      { unfold in_args, among in C. cbn [existsb] in C.
        destruct (Ascii.eqb_spec c "["); [exfalso; apply N; cbn; auto |].
        destruct (Ascii.eqb_spec c "]"); [exfalso; apply N; cbn; auto |].
        destruct (Ascii.eqb_spec c LF); [auto |]. destruct (Ascii.eqb_spec c CR); [auto |].
        destruct (Ascii.eqb_spec c QUOTE); [exfalso; apply N; cbn; auto | discriminate C]. }
      assert (NM : nl_at (smode st) = nl_more) by (rewrite M; reflexivity).
      destruct (more_turn cfg st c (t ++ "]"%char :: z) NM CN) as (q & s' & st1 & E & S1 & Q & S2 & S3 & S4 & S5).
      assert (X : exists b, c :: t = q ++ b /\ s' = b ++ "]"%char :: z /\ plain_arguments b).
      { destruct Q as [-> | [-> | [-> _]]]; cbn [app] in E; injection E as -> E.
        - exists t; auto.
        - destruct t as [| d t]; [discriminate E |].
          cbn [app] in E. injection E as -> E. exists t. repeat split; auto. inversion Pa; subst; assumption.
        - exists t; auto. }
      destruct X as (b & X & -> & Pb).
      assert (Q' : q = [LF] \/ q = [CR; LF] \/ q = [CR] /\ forall v, b <> LF :: v).
      { destruct Q as [Q | [Q | [Q H]]]; auto. right; right. split; [exact Q |]. intros v V. apply (H (v ++ "]"%char :: z)). rewrite V. reflexivity. }
      assert (NQ : newlines q = 1) by (destruct Q as [-> | [-> | [-> _]]]; reflexivity).
      apply (GO q b st1); auto.
      * destruct Q as [-> | [-> | [-> _]]]; discriminate.
      * rewrite X, NQ. apply turn_newlines. exact Q'.
      * congruence.
      * lia.
  - pose proof (simple_string w W) as SB.
    assert (E : QUOTE :: w ++ QUOTE :: a = (QUOTE :: w ++ [QUOTE]) ++ a) by (cbn [app]; rewrite <- app_assoc; reflexivity).
    pose proof (best_args_string w (a ++ "]"%char :: z) SB) as B. rewrite <- M in B.
    destruct (more_step cfg st _ (a ++ "]"%char :: z) _ B) as (st1 & S1 & (S2 & S3 & S4) & S5).
    assert (N : ~ In CR (QUOTE :: w ++ [QUOTE]) /\ ~ In LF (QUOTE :: w ++ [QUOTE])).
    { destruct SB as (A1 & A2 & _). split; (intros [X | X]; [discriminate X |]; apply in_app_or in X; destruct X as [X | [X | []]]; [contradiction | discriminate X]). }
    destruct N as [N1 N2].
    apply (GO (QUOTE :: w ++ [QUOTE]) a st1); auto.
    + discriminate.
    + rewrite E. apply newlines_app. apply not_cut_in. exact N1.
    + rewrite E, <- app_assoc. exact S1.
    + congruence.
    + rewrite (newlines_none _ N1 N2). lia.
Qed.

Lemma best_bracket c t : c <> ":"%char -> best (rules INITIAL) ("["%char :: c :: t) = Some (nth 58 initial_rules no_rule, 1, 1).
Proof.
  intro N. rewrite best_places.
  assert (P : places INITIAL "["%char = [58; 59; 64]) by (vm_compute; reflexivity). rewrite P. clear P.
  cbn [map]. set (x := nth 58 _ _). set (y := nth 59 _ _). set (z := nth 64 _ _).
  assert (X : matched x ("["%char :: c :: t) = Some (1, 1)).
  { unfold matched. cbn [x nth rules initial_rules trail r0 pat]. rewrite longest_chr. reflexivity. }
  assert (Y : matched y ("["%char :: c :: t) = None).
  { unfold matched. cbn [y nth rules initial_rules trail r0 pat lit lit_ chars]. rewrite longest_lit2_no; [reflexivity |].
    intros u E. injection E as E _. contradiction. }
  assert (Z : matched z ("["%char :: c :: t) = Some (1, 1)).
  { unfold matched. cbn [z nth rules initial_rules trail r0 pat]. rewrite longest_dot by discriminate. reflexivity. }
  cbn [best]. rewrite X, Y, Z. reflexivity.
Qed.

Lemma args_run cfg st body rest :
  smode st = INITIAL -> pos st = RuleBody -> plain_arguments body -> (forall u, body <> COLON :: u) ->
  exists st' v, reads cfg st ("["%char :: body ++ "]"%char :: rest)
      [Lexeme (Tok "T_RULE_ARGUMENTS") v (yyline st')] st' rest /\
    v = copy_code cfg (code_starts (yyline st) (code_col st) st) body /\
    smode st' = INITIAL /\ kept st' = [] /\ pos st' = RuleBody /\ yyline st' = yyline st + newlines body /\
    echoed st' = echoed st.
Proof.
  intros M Po P NC.
  assert (B : best (rules (smode st)) ("["%char :: body ++ "]"%char :: rest) = Some (nth 58 initial_rules no_rule, 1, 1)).
  { rewrite M. destruct body as [| c t]; [apply best_bracket; discriminate |]. cbn [app]. apply best_bracket. intros ->. exact (NC t eq_refl). }
  pose proof (step_best cfg _ _ _ _ _ B) as ST. cbn [firstn skipn] in ST.
  cbn [act nth initial_rules r0] in ST. change (pos (append_line (kept st ++ ["["%char]) (unkept st))) with (pos st) in ST.
  rewrite Po in ST.
  set (st1 := begin RULE_ARGUMENTS _) in ST.
  destruct (args_reads cfg (S (List.length body)) body st1 rest (Nat.lt_succ_diag_r _) eq_refl P) as (st2 & R & M2 & K2 & F2 & Y2).
  pose proof (best_args_close rest) as B2. rewrite <- M2 in B2.
  pose proof (step_best cfg _ _ _ _ _ B2) as ST2. cbn [firstn skipn] in ST2. cbn [act nth arguments_rules r0] in ST2.
  set (s0 := opens _ _) in ST2.
  assert (O : Z.ltb (open s0) 0 = true).
  { unfold s0. cbn [opens open append_line unkept]. destruct F2 as (_ & -> & _). reflexivity. }
  rewrite O in ST2.
  assert (FN : firstn (List.length (kept st2 ++ ["]"%char]) - 1) (kept st2 ++ ["]"%char]) = body).
  { rewrite app_length. cbn [List.length]. rewrite Nat.add_sub. destruct (split_step (kept st2) ["]"%char]) as [-> _].
    rewrite K2. reflexivity. }
  rewrite FN in ST2. destruct F2 as (Po2 & _ & L2 & C2 & E2).
  exists (begin INITIAL s0), (copy_code cfg s0 body). split; [| split].
  - change [Lexeme (Tok "T_RULE_ARGUMENTS") (copy_code cfg s0 body) (yyline (begin INITIAL s0))] with
      ([] ++ [Lexeme (Tok "T_RULE_ARGUMENTS") (copy_code cfg s0 body) (yyline (begin INITIAL s0))]).
    eapply reads_app; [eapply rd_go; [discriminate | exact ST | exact R] |].
    eapply rd_give; [discriminate | exact ST2 | apply rd_none].
  - unfold copy_code, s0. cbn [opens append_line unkept code_starts code_line code_col]. rewrite L2, C2. reflexivity.
  - unfold s0. cbn [begin opens append_line unkept smode kept pos yyline echoed]. rewrite Po2, E2.
    repeat split; [exact Po | exact Y2].
Qed.

(** ** Types of variables *)
Definition in_type (c : ascii) : bool := negb (among [";"%char; CR; LF] c).
Definition type_text : rule := more_of (RStar (RCls in_type)).

Lemma type_best c t : best (rules RULE_PARAMETERS_VARNAME) (c :: t) =
  best [nl_more; type_text; nth 2 varname_rules no_rule; nth 3 varname_rules no_rule] (c :: t).
Proof. reflexivity. Qed.

Lemma best_type_text w s : w <> [] -> forallb in_type w = true -> stops in_type s ->
  best (rules RULE_PARAMETERS_VARNAME) (w ++ s) = Some (type_text, List.length w, List.length w).
Proof.
  intros NE W St. destruct w as [| c w]; [contradiction |].
  assert (C : in_type c = true) by (cbn [forallb] in W; apply andb_true_iff in W; apply W).
  assert (N1 : c <> ";"%char) by (intros ->; discriminate C).
  assert (N2 : c <> CR) by (intros ->; discriminate C).
  assert (N3 : c <> LF) by (intros ->; discriminate C).
  assert (M : matched type_text ((c :: w) ++ s) = Some (List.length (c :: w), List.length (c :: w))).
  { rewrite m_plain by reflexivity. cbn [type_text more_of r0 pat]. rewrite longest_star_cls by assumption. reflexivity. }
  assert (D : matched (nth 3 varname_rules no_rule) (c :: w ++ s) = Some (1, 1)).
  { rewrite m_plain by reflexivity. cbn [nth varname_rules r0 pat]. rewrite longest_dot by exact N3. reflexivity. }
  cbn [app] in *. rewrite type_best. cbn [best].
  rewrite m_nl_no by assumption. rewrite M.
  rewrite (m_chr_no (nth 2 varname_rules no_rule) ";"%char) by (reflexivity || congruence). rewrite D. reflexivity.
Qed.

Lemma best_type_end s : best (rules RULE_PARAMETERS_VARNAME) (";"%char :: s) = Some (nth 2 varname_rules no_rule, 1, 1).
Proof.
  assert (D : matched (nth 3 varname_rules no_rule) (";"%char :: s) = Some (1, 1)).
  { rewrite m_plain by reflexivity. cbn [nth varname_rules r0 pat]. rewrite longest_dot by discriminate. reflexivity. }
  assert (T : matched type_text (";"%char :: s) = Some (0, 0)).
  { rewrite m_plain by reflexivity. cbn [type_text more_of r0 pat].
    pose proof (longest_star_cls in_type [] (";"%char :: s) eq_refl eq_refl) as L. cbn [app List.length] in L. rewrite L. reflexivity. }
  rewrite type_best. cbn [best]. rewrite m_nl_no by discriminate. rewrite T.
  rewrite (m_chr (nth 2 varname_rules no_rule) ";"%char) by reflexivity. rewrite D. reflexivity.
Qed.

Lemma type_reads cfg : forall n w st z,
  List.length w < n -> smode st = RULE_PARAMETERS_VARNAME -> ~ In ";"%char w ->
  exists st', reads cfg st (w ++ ";"%char :: z) [] st' (";"%char :: z) /\ smode st' = RULE_PARAMETERS_VARNAME /\
    kept st' = kept st ++ w /\ frame st st' /\ yyline st' = yyline st + newlines w.
Proof.
  induction n as [| n IH]; intros body st z L M P; [lia |].
  destruct body as [| c t].
  { exists st. repeat split; [apply rd_none | exact M | rewrite app_nil_r; reflexivity | cbn [newlines]; lia]. }
  assert (GO : forall q b st1, c :: t = q ++ b -> q <> [] -> newlines (c :: t) = newlines q + newlines b ->
    step cfg st ((c :: t) ++ ";"%char :: z) = (Go st1, b ++ ";"%char :: z) -> smode st1 = RULE_PARAMETERS_VARNAME ->
    kept st1 = kept st ++ q -> frame st st1 -> yyline st1 = yyline st + newlines q ->
    exists st', reads cfg st ((c :: t) ++ ";"%char :: z) [] st' (";"%char :: z) /\ smode st' = RULE_PARAMETERS_VARNAME /\
      kept st' = kept st ++ c :: t /\ frame st st' /\ yyline st' = yyline st + newlines (c :: t)).
  { intros q b st1 E Q NL ST M1 K1 F1 Y1.
    assert (Lb : List.length b < n).
    { apply (f_equal (@List.length ascii)) in E. rewrite app_length in E. destruct q; [contradiction |]. cbn [List.length] in *. lia. }
    assert (Pb : ~ In ";"%char b) by (intro X; apply P; rewrite E; apply in_or_app; right; exact X).
    destruct (IH b st1 z Lb M1 Pb) as (st' & R & M' & K' & F' & Y').
    exists st'. split; [eapply rd_go; [discriminate | exact ST | exact R] |].
    split; [exact M' |]. split; [rewrite K', K1, E, app_assoc; reflexivity |].
    split; [eapply frame_trans; eassumption |]. lia. }
  destruct (in_type c) eqn:C.
  - pose proof (take_drop in_type (c :: t)) as E. set (w := takew in_type (c :: t)) in *. set (b := dropw in_type (c :: t)) in *.
    assert (W : forallb in_type w = true) by apply takew_all.
    assert (Wn : w <> []) by (unfold w; cbn [takew]; rewrite C; discriminate).
    assert (St : stops in_type (b ++ ";"%char :: z)).
    { pose proof (dropw_stops in_type (c :: t)) as D. fold b in D. destruct b; [reflexivity | exact D]. }
    pose proof (best_type_text w (b ++ ";"%char :: z) Wn W St) as B. rewrite <- M in B.
    destruct (more_step cfg st w (b ++ ";"%char :: z) _ B) as (st1 & S1 & (S2 & S3 & S4) & S5).
    destruct (not_in_nl in_type w W eq_refl eq_refl) as [N1 N2].
    apply (GO w b st1); auto.
    + rewrite E. apply newlines_app. apply not_cut_in. exact N1.
    + rewrite E, <- app_assoc. exact S1.
    + congruence.
    + rewrite (newlines_none w) by assumption. lia.
  - assert (CN : c = CR \/ c = LF).
    { unfold in_type, among in C. cbn [existsb] in C.
      destruct (Ascii.eqb_spec c ";"); [exfalso; apply P; left; auto |].
      destruct (Ascii.eqb_spec c CR); [auto |]. destruct (Ascii.eqb_spec c LF); [auto |]. discriminate C. }
    assert (NM : nl_at (smode st) = nl_more) by (rewrite M; reflexivity).
    destruct (more_turn cfg st c (t ++ ";"%char :: z) NM CN) as (q & s' & st1 & E & S1 & Q & S2 & S3 & S4 & S5).
    assert (X : exists b, c :: t = q ++ b /\ s' = b ++ ";"%char :: z).
    { destruct Q as [-> | [-> | [-> _]]]; cbn [app] in E; injection E as -> E.
      - exists t; auto.
      - destruct t as [| d t]; [discriminate E |].
        cbn [app] in E. injection E as -> E. exists t. auto.
      - exists t; auto. }
    destruct X as (b & X & ->).
    assert (Q' : q = [LF] \/ q = [CR; LF] \/ q = [CR] /\ forall v, b <> LF :: v).
    { destruct Q as [Q | [Q | [Q H]]]; auto. right; right. split; [exact Q |]. intros v V. apply (H (v ++ ";"%char :: z)). rewrite V. reflexivity. }
    assert (NQ : newlines q = 1) by (destruct Q as [-> | [-> | [-> _]]]; reflexivity).
    apply (GO q b st1); auto.
    + destruct Q as [-> | [-> | [-> _]]]; discriminate.
    + rewrite X, NQ. apply turn_newlines. exact Q'.
    + congruence.
    + lia.
Qed.

Lemma type_end cfg st z :
  smode st = RULE_PARAMETERS_VARNAME ->
  (List.length (kept st) < 2 -> step cfg st (";"%char :: z) = (Broken, z)) /\
  (2 <= List.length (kept st) -> exists st', step cfg st (";"%char :: z) = (Give (Tok "T_IDENTIFIER") (copy (kept st)) st', z) /\
    smode st' = RULE_PARAMETERS_HEADER /\ kept st' = [] /\ frame st st' /\ yyline st' = yyline st).
Proof.
  intro M. pose proof (best_type_end z) as B. rewrite <- M in B.
  rewrite (step_best cfg _ _ _ _ _ B). cbn [firstn skipn act nth varname_rules r0].
  assert (L : List.length (kept st ++ [";"%char]) - 1 = List.length (kept st)).
  { rewrite app_length. cbn [List.length]. lia. }
  rewrite L. destruct (split_step (kept st) [";"%char]) as [F _]. rewrite F.
  destruct (Nat.leb_spec 2 (List.length (kept st))) as [G | G]; split; intro H; try lia.
  - eexists. split; [reflexivity |]. repeat split.
  - reflexivity.
Qed.

Lemma type_run cfg st w rest :
  smode st = RULE_PARAMETERS_VARNAME -> kept st = [] -> ~ In ";"%char w ->
  (2 <= List.length w -> exists st', reads cfg st (w ++ ";"%char :: rest) [Lexeme (Tok "T_IDENTIFIER") (copy w) (yyline st')] st' rest /\
    smode st' = RULE_PARAMETERS_HEADER /\ kept st' = [] /\ pos st' = pos st /\ yyline st' = yyline st + newlines w /\
    echoed st' = echoed st) /\
  (List.length w < 2 -> scan_from cfg st (w ++ ";"%char :: rest) = LexBroken []).
Proof.
  intros M K P. destruct (type_reads cfg (S (List.length w)) w st rest (Nat.lt_succ_diag_r _) M P) as (st1 & R & M1 & K1 & F1 & Y1).
  rewrite K in K1. cbn [app] in K1. destruct (type_end cfg st1 rest M1) as [T1 T2]. rewrite K1 in T1, T2. split; intro L.
  - destruct (T2 L) as (st' & ST & M' & K' & F' & Y'). exists st'. split.
    + change [Lexeme (Tok "T_IDENTIFIER") (copy w) (yyline st')] with ([] ++ [Lexeme (Tok "T_IDENTIFIER") (copy w) (yyline st')]).
      eapply reads_app; [exact R |]. eapply rd_give; [discriminate | exact ST | apply rd_none].
    + destruct F1 as (P1 & _ & _ & _ & E1). destruct F' as (P' & _ & _ & _ & E').
      split; [exact M' |]. split; [exact K' |]. split; [congruence |]. split; [lia | congruence].
  - rewrite (reads_scan _ _ _ _ _ _ R). cbn [after]. rewrite scan_from_step by discriminate. rewrite (T1 L). reflexivity.
Qed.
