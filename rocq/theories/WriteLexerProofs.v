(** Proofs: single tokens of lexer rules are scanned as they are written. *)
From Coq Require Import List Ascii String Bool PeanoNat ZArith Lia.
From Verif Require Import FlexModel FlexSpec FlexProofs ScanModel ScanSpec ScanProofs ScanPlaceProofs
  ScanCodeProofs ScanTextProofs ScanWordProofs WriteSpec WriteTokenProofs.
Import ListNotations.

(** ** Fixed tokens *)
Lemma given_lexer_arrow cfg s : given_by cfg (INITIAL, RuleLexer) (Tok "T_ARROW", []) (chars "->") s (RULE_LEXER, RuleLexer).
Proof.
  eapply given_step; [discriminate | apply (fixed_ok _ _ _ 4); vm_compute; reflexivity |].
  intros st0 M P K. cbn [fst snd] in *. eexists. split.
  - cbn [rules initial_rules nth r0 act]. rewrite P. reflexivity.
  - repeat split; assumption.
Qed.
Lemma given_lexer_names cfg p s : given_by cfg (RULE_LEXER, p) (Tok "T_ARROW", []) (chars "->") s (RULE_LEXER, p).
Proof. fixed_token 19. Qed.
Lemma given_lexer_char cfg p c s : In c (chars "]()?|^&~*+@.") -> given_by cfg (RULE_LEXER, p) (Chr c, []) [c] s (RULE_LEXER, p).
Proof.
  intro J. cbn [chars In] in J.
  destruct J as [<- | [<- | [<- | [<- | [<- | [<- | [<- | [<- | [<- | [<- | [<- | [<- | []]]]]]]]]]]]];
  [fixed_token 6 | fixed_token 7 | fixed_token 8 | fixed_token 9 | fixed_token 10 | fixed_token 11 | fixed_token 13 | fixed_token 14
  | fixed_token 15 | fixed_token 16 | fixed_token 17 | fixed_token 18].
Qed.
Lemma given_lexer_word cfg p k n s : In (k, n) lexer_words -> given_by cfg (RULE_LEXER, p) (Tok n, []) (chars k) s (RULE_LEXER, p).
Proof.
  intro J. unfold lexer_words in J. cbn [In] in J.
  destruct J as [J | [J | [J | [J | [J | [J | []]]]]]]; injection J as <- <-;
  [fixed_token 20 | fixed_token 21 | fixed_token 22 | fixed_token 23 | fixed_token 24 | fixed_token 25].
Qed.

Lemma best_lexer_bracket c t : c <> ":"%char -> best (rules RULE_LEXER) ("["%char :: c :: t) = Some (nth 5 lexer_rules no_rule, 1, 1).
Proof.
  intro N. rewrite (best_nth RULE_LEXER "["%char _ [5; 26]) by (vm_compute; reflexivity). cbn [map].
  set (x := nth 5 _ _). set (y := nth 26 _ _).
  assert (X : matched x ("["%char :: c :: t) = Some (1, 1)).
  { unfold matched. cbn [x nth rules lexer_rules trail r0 pat bracket]. rewrite longest_chr. reflexivity. }
  assert (Y : matched y ("["%char :: c :: t) = None).
  { unfold matched. cbn [y nth rules lexer_rules trail r0 pat lit lit_ chars]. rewrite longest_lit2_no; [reflexivity |].
    intros v E. injection E as E _. contradiction. }
  cbn [best]. rewrite X, Y. reflexivity.
Qed.
Lemma given_lexer_open cfg p s : over [COLON] s -> given_by cfg (RULE_LEXER, p) (Chr "[", []) (chars "[") s (RULE_LEXER, p).
Proof.
  intro O. eapply (given_step _ _ _ _ _ _ (nth 5 (rules RULE_LEXER) no_rule)); [discriminate | |].
  - cbn [fst chars app List.length]. destruct s as [| c s].
    + vm_compute. reflexivity.
    + apply best_lexer_bracket. intros ->. apply O. left. reflexivity.
  - intros st0 M P K. eexists. split; [reflexivity |]. repeat split; assumption.
Qed.

(** ** Matches as parts of the text *)
Lemma longest_part r x y : lang r x -> (forall x' y', x' ++ y' = x ++ y -> lang r x' -> List.length x' <= List.length x) ->
  longest r (x ++ y) = Some (List.length x).
Proof.
  intros L H. apply longest_some. destruct (split_step x y) as [E _]. split; [rewrite app_length; lia |]. split; [rewrite E; exact L |].
  intros m Lm Lg. specialize (H _ _ (firstn_skipn m (x ++ y)) Lg). rewrite firstn_length_le in H by exact Lm. exact H.
Qed.
Definition whole (r : rule) : re := match trail r with None => pat r | Some t => RSeq (pat r) t end.
Lemma matched_part r s n h : matched r s = Some (n, h) -> exists x y, s = x ++ y /\ List.length x = n /\ lang (whole r) x.
Proof.
  intro M. apply matched_spec in M. destruct M as (A & B & C & D). exists (firstn n s), (skipn n s).
  split; [symmetry; apply firstn_skipn |]. split; [apply firstn_length_le; exact B |].
  unfold whole. destruct (trail r); [apply D |]. destruct D as [-> _]. exact C.
Qed.
Lemma matched_trail r t x z y : trail r = Some t -> lang (pat r) x -> lang t z ->
  (forall x' y', x' ++ y' = x ++ z ++ y -> lang (RSeq (pat r) t) x' -> List.length x' <= List.length (x ++ z)) ->
  (forall x' y', x' ++ y' = x ++ z -> lang (pat r) x' -> List.length x' <= List.length x) ->
  matched r (x ++ z ++ y) = Some (List.length (x ++ z), List.length x).
Proof.
  intros T Lx Lz A B. unfold matched. rewrite T. rewrite app_assoc in *.
  rewrite longest_part; [| apply l_seq; assumption | exact A].
  destruct (split_step (x ++ z) y) as [-> _]. rewrite longest_part; [reflexivity | exact Lx | exact B].
Qed.

Lemma spans f a b c d : forallb f a = true -> forallb f c = true -> stops f b -> stops f d -> a ++ b = c ++ d -> a = c /\ b = d.
Proof.
  intros A C B D E. destruct (takew_stop f a b A B) as [T1 D1]. destruct (takew_stop f c d C D) as [T2 D2].
  rewrite E in T1, D1. split; congruence.
Qed.

(** ** Names in braces *)
Lemma lang_named x : lang (RSeq (chr "{") (RSeq (RCls (fun c => letter c || under c))
         (RSeq (RStar (RCls (fun c => letter c || under c || digit c))) (chr "}")))) x <->
  exists w, is_word w /\ x = ["{"%char] ++ w ++ ["}"%char].
Proof.
  assert (CL1 : forall c, letter c || under c = first_ c) by (intro c; apply orb_comm).
  assert (CL2 : forall c, letter c || under c || digit c = word_ c) by (intro c; unfold word_; rewrite (orb_comm (letter c)); reflexivity).
  rewrite lang_seq'. split.
  - intros (u & v & -> & U & V). apply lang_chr in U. subst u. apply lang_seq' in V. destruct V as (u & v1 & -> & U & V).
    apply lang_cls in U. destruct U as (c & -> & C). apply lang_seq' in V. destruct V as (w & v2 & -> & W & V).
    apply lang_chr in V. subst v2. apply lang_star_cls in W. exists (c :: w). split.
    + exists c, w. split; [reflexivity |]. rewrite CL1 in C. split; [apply first_in; exact C |].
      intros d D. rewrite forallb_forall in W. specialize (W d D). cbv beta in W. rewrite CL2 in W. apply word_in. exact W.
    + reflexivity.
  - intros (w & (c & u & -> & C & U) & ->). exists ["{"%char], ((c :: u) ++ ["}"%char]). split; [reflexivity |]. split; [apply lang_chr; reflexivity |].
    apply lang_seq'. exists [c], (u ++ ["}"%char]). split; [reflexivity |]. split.
    + apply lang_cls. exists c. split; [reflexivity |]. rewrite CL1. apply first_in. exact C.
    + apply lang_seq'. exists u, ["}"%char]. split; [reflexivity |]. split; [| apply lang_chr; reflexivity].
      apply lang_star_cls. apply forallb_forall. intros d D. rewrite CL2. apply word_in, U, D.
Qed.
Lemma word_text w : is_word w -> forallb word_ w = true /\ w <> [] /\ cstr w = w.
Proof.
  intros (c & u & -> & C & U). assert (W : forallb word_ (c :: u) = true).
  { apply forallb_forall. intros d [<- | D]; [| apply word_in, U, D]. apply first_in in C. unfold word_. change (first_ c || digit c = true).
    rewrite C. reflexivity. }
  split; [exact W |]. split; [discriminate |]. apply cstr_word. intros d D X. rewrite forallb_forall in W. specialize (W d D). rewrite X in W. discriminate W.
Qed.

Lemma given_lexer_name cfg p w s : is_word w ->
  given_by cfg (RULE_LEXER, p) (Tok "T_NAMED_REGEXP", w) (["{"%char] ++ w ++ ["}"%char]) s (RULE_LEXER, p).
Proof.
  intro IW. destruct (word_text w IW) as (W & NE & CS).
  eapply (given_step _ _ _ _ _ _ (nth 2 (rules RULE_LEXER) no_rule)); [discriminate | |].
  - cbn [fst]. set (x := ["{"%char] ++ w ++ ["}"%char]). assert (E : x ++ s = "{"%char :: (w ++ ["}"%char]) ++ s) by reflexivity.
    rewrite E. rewrite (best_nth RULE_LEXER "{"%char _ [2]) by (vm_compute; reflexivity). rewrite <- E. cbn [map best].
    rewrite m_plain by reflexivity. cbn [nth rules lexer_rules r0 pat].
    rewrite longest_part.
    + reflexivity.
    + apply lang_named. exists w. auto.
    + intros x' y' EQ L. apply lang_named in L. destruct L as (w' & IW' & ->). destruct (word_text w' IW') as (W' & _ & _).
      unfold x in *. rewrite <- !app_assoc in EQ. cbn [app] in EQ. injection EQ as EQ.
      apply (spans word_) in EQ; [| assumption | assumption | reflexivity | reflexivity]. destruct EQ as [-> _]. apply Nat.le_refl.
  - intros st0 M P K. exists st0. split.
    + cbn [rules lexer_rules nth r0 act fst snd]. unfold inner, copy. cbn [app tl].
      replace (List.length ("{"%char :: w ++ ["}"%char]) - 2) with (List.length w) by (cbn [List.length]; rewrite app_length; cbn [List.length]; lia).
      destruct (split_step w ["}"%char]) as [-> _]. rewrite CS. reflexivity.
    + repeat split; assumption.
Qed.

(** ** Spelled characters *)
Lemma printable_between c : printable c <-> between " " "127" c = true.
Proof.
  unfold printable, between. change (nat_of_ascii " ") with 32. change (nat_of_ascii "127") with 127.
  rewrite andb_true_iff, !Nat.leb_le. reflexivity.
Qed.

(** A piece of a spelling: a plain character, or a backslash, any character, and more. *)
Definition piece (x : text) : Prop :=
  (exists c, x = [c] /\ word_ c = true) \/ exists c ds, x = BSL :: c :: ds /\ printable c /\ forallb word_ ds = true.

Lemma lang_bsl l x : lang (bsl l) x <-> exists c, x = [BSL; c] /\ In c (chars l).
Proof.
  unfold bsl. rewrite lang_seq'. split.
  - intros (u & v & -> & U & V). apply lang_chr in U. apply lang_cls in V. destruct V as (c & -> & C). subst u. exists c. split; [reflexivity |].
    unfold among in C. apply existsb_exists in C. destruct C as (d & D & E). apply Ascii.eqb_eq in E. subst d. exact D.
  - intros (c & -> & C). exists [BSL], [c]. split; [reflexivity |]. split; [apply lang_chr; reflexivity |]. apply lang_cls. exists c. split; [reflexivity |].
    unfold among. apply existsb_exists. exists c. split; [exact C | apply Ascii.eqb_refl].
Qed.
Lemma lang_upto f : forall n x, lang (upto n (RCls f)) x -> forallb f x = true.
Proof.
  induction n as [| n IH]; intros x L; [inversion L; reflexivity |]. cbn [upto] in L. destruct n as [| n].
  - apply lang_cls in L. destruct L as (c & -> & C). cbn [forallb]. rewrite C. reflexivity.
  - apply lang_seq' in L. destruct L as (u & v & -> & U & V). apply lang_cls in U. destruct U as (c & -> & C). cbn [app forallb]. rewrite C.
    apply lang_alt' in V. destruct V as [V | V]; [inversion V; reflexivity | exact (IH v V)].
Qed.
Lemma upto_lang f : forall n x, forallb f x = true -> x <> [] -> List.length x <= n -> lang (upto n (RCls f)) x.
Proof.
  induction n as [| n IH]; intros x F NE L; [destruct x; [contradiction | cbn [List.length] in L; lia] |].
  destruct x as [| c x]; [contradiction |]. cbn [forallb] in F. apply andb_true_iff in F. destruct F as [C F]. cbn [List.length] in L.
  cbn [upto]. destruct n as [| n].
  - destruct x; [| cbn [List.length] in L; lia]. apply lang_cls. eauto.
  - apply (l_seq _ _ [c] x); [apply l_cls; exact C |]. destruct x as [| d x]; [apply l_altl, l_eps |].
    apply l_altr. apply IH; [exact F | discriminate | lia].
Qed.

Lemma letters_printable l : forallb (fun c => between " " "127" c) (chars l) = true -> forall c, In c (chars l) -> printable c.
Proof. intros H c C. apply printable_between. rewrite forallb_forall in H. exact (H c C). Qed.
Lemma sub_class (f : ascii -> bool) x : (forall c, f c = true -> word_ c = true) -> forallb f x = true -> forallb word_ x = true.
Proof. intros H F. apply forallb_forall. intros c C. apply H. rewrite forallb_forall in F. exact (F c C). Qed.
Lemma class_word (f : ascii -> bool) : forallb (fun c => negb (f c) || word_ c) all_chars = true -> forall c, f c = true -> word_ c = true.
Proof. intros H c C. pose proof (for_chars _ H c) as X. cbv beta in X. rewrite C in X. exact X. Qed.

Lemma char_piece x : lang CharRe x -> piece x.
Proof.
  unfold CharRe. rewrite !lang_alt'. intros [L | [L | [L | [L | [L | L]]]]].
  - apply lang_cls in L. destruct L as (c & -> & C). left. exists c. auto.
  - apply lang_seq' in L. destruct L as (u & v & -> & U & V). apply lang_bsl in U. destruct U as (c & -> & C). apply lang_upto in V.
    right. exists c, v. split; [reflexivity |]. split; [apply (letters_printable "xXuU"); [reflexivity | exact C] |].
    revert V. apply sub_class. apply class_word. vm_compute. reflexivity.
  - apply lang_seq' in L. destruct L as (u & v & -> & U & V). apply lang_bsl in U. destruct U as (c & -> & C).
    apply lang_seq' in V. destruct V as (v1 & v2 & -> & V1 & V2). apply lang_cls in V1. destruct V1 as (d & -> & D). apply lang_star_cls in V2.
    right. exists c, (d :: v2). split; [reflexivity |]. split; [apply (letters_printable "oO"); [reflexivity | exact C] |].
    apply (sub_class (between "0" "7")); [apply class_word; vm_compute; reflexivity |]. cbn [forallb]. rewrite D. exact V2.
  - apply lang_seq' in L. destruct L as (u & v & -> & U & V). apply lang_bsl in U. destruct U as (c & -> & C). apply lang_upto in V.
    right. exists c, v. split; [reflexivity |]. split; [apply (letters_printable "dD"); [reflexivity | exact C] |].
    revert V. apply sub_class. apply class_word. vm_compute. reflexivity.
  - apply lang_seq' in L. destruct L as (u & v & -> & U & V). apply lang_bsl in U. destruct U as (c & -> & C). apply lang_upto in V.
    right. exists c, v. split; [reflexivity |]. split; [apply (letters_printable "yY"); [reflexivity | exact C] |].
    revert V. apply sub_class. apply class_word. vm_compute. reflexivity.
  - apply lang_seq' in L. destruct L as (u & v & -> & U & V). apply lang_chr in U. apply lang_cls in V. destruct V as (c & -> & C). subst u.
    right. exists c, []. split; [reflexivity |]. split; [apply printable_between; exact C | reflexivity].
Qed.

Lemma plain_char c : word_ c = true -> lang CharRe [c].
Proof. intro C. unfold CharRe. apply l_altl, l_cls. exact C. Qed.
Lemma escape_char c : printable c -> lang CharRe [BSL; c].
Proof.
  intro C. unfold CharRe. do 5 apply l_altr. apply (l_seq _ _ [BSL] [c]); [apply lang_chr; reflexivity |]. apply l_cls. apply printable_between. exact C.
Qed.
Lemma single_char x : single x -> lang CharRe x.
Proof.
  assert (IN : forall l f x, all_in l x -> forallb (fun c => f c) l = true -> forallb f x = true).
  { intros l f y A H. apply forallb_forall. intros c C. rewrite forallb_forall in H. exact (H c (A c C)). }
  intros [c C | c C | c d w C A L | c d w C A | c d w C A L].
  - apply plain_char, word_in, C.
  - apply escape_char, C.
  - unfold CharRe. apply l_altr, l_altl. apply (l_seq _ _ [BSL; c] (d :: w)); [apply lang_bsl; eauto |].
    apply upto_lang; [apply (IN HEX); [exact A | reflexivity] | discriminate | exact L].
  - unfold CharRe. apply l_altr, l_altr, l_altl. apply (l_seq _ _ [BSL; c] (d :: w)); [apply lang_bsl; eauto |].
    assert (F : forallb (between "0" "7") (d :: w) = true) by (apply (IN (chars "01234567")); [exact A | reflexivity]).
    cbn [forallb] in F. apply andb_true_iff in F. destruct F as [D F]. apply (l_seq _ _ [d] w); [apply l_cls; exact D | apply lang_star_cls; exact F].
  - unfold CharRe. apply l_altr, l_altr, l_altr, l_altl. apply (l_seq _ _ [BSL; c] (d :: w)); [apply lang_bsl; eauto |].
    apply upto_lang; [apply (IN DIGITS); [exact A | reflexivity] | discriminate | exact L].
Qed.

Lemma spelling_app a b : spelling a -> spelling b -> spelling (a ++ b).
Proof. induction 1; intro; cbn [app]; [assumption | apply sp_plain; auto | apply sp_escape; auto]. Qed.
Lemma spelling_word w : forallb word_ w = true -> spelling w.
Proof.
  induction w as [| c w IH]; intro W; [apply sp_nil |]. cbn [forallb] in W. apply andb_true_iff in W. destruct W. apply sp_plain; [apply word_in; assumption | auto].
Qed.
Lemma piece_spelling x : piece x -> spelling x.
Proof.
  intros [(c & -> & C) | (c & ds & -> & C & D)].
  - apply sp_plain; [apply word_in; exact C | apply sp_nil].
  - apply sp_escape; [exact C | apply spelling_word; exact D].
Qed.
Lemma star_spelling x : lang (RStar CharRe) x -> spelling x.
Proof.
  intro L. remember (RStar CharRe) as r eqn:E. induction L; try discriminate E; [apply sp_nil |].
  injection E as ->. apply spelling_app; [apply piece_spelling, char_piece; assumption | apply IHL2; reflexivity].
Qed.
Lemma plus_spelling x : lang (plus CharRe) x -> spelling x.
Proof.
  unfold plus. rewrite lang_seq'. intros (u & v & -> & U & V). apply spelling_app; [apply piece_spelling, char_piece; exact U | apply star_spelling; exact V].
Qed.
Lemma spelling_star x : spelling x -> lang (RStar CharRe) x.
Proof.
  induction 1 as [| c w C W IH | c w C W IH]; [apply l_nil | |].
  - apply (l_star _ [c] w); [apply plain_char, word_in, C | exact IH].
  - apply (l_star _ [BSL; c] w); [apply escape_char, C | exact IH].
Qed.
Lemma spelling_plus x : spelling x -> x <> [] -> lang (plus CharRe) x.
Proof.
  intros [| c w C W | c w C W] NE; [contradiction | |]; unfold plus.
  - apply (l_seq _ _ [c] w); [apply plain_char, word_in, C | apply spelling_star; exact W].
  - apply (l_seq _ _ [BSL; c] w); [apply escape_char, C | apply spelling_star; exact W].
Qed.
Lemma not_bsl c : In c WORD -> c <> BSL.
Proof. intros J ->. apply word_in in J. discriminate J. Qed.

Lemma spelling_inv c x : spelling (c :: x) -> (In c WORD /\ spelling x) \/ (c = BSL /\ exists d y, x = d :: y /\ spelling y).
Proof. intro H. inversion H; subst; [left; auto | right; eauto]. Qed.

(** A spelling at the start of [w ++ s] is no longer than [w]. *)
Lemma spelling_bound w s : spelling w -> over (WORD ++ [BSL]) s -> forall x y, x ++ y = w ++ s -> spelling x -> List.length x <= List.length w.
Proof.
  intros W O. induction W as [| c w C W IH | c w C W IH]; intros x y E X.
  - destruct x as [| d x]; [cbn; lia |]. exfalso. cbn [app] in E. subst s. cbn [over] in O. apply O.
    apply spelling_inv in X. destruct X as [[D _] | [-> _]]; apply in_or_app; [left; exact D | right; left; reflexivity].
  - destruct x as [| d x]; [cbn; lia |]. cbn [app] in E. injection E as -> E. apply spelling_inv in X.
    destruct X as [[_ X] | [-> _]]; [| exfalso; exact (not_bsl _ C eq_refl)].
    specialize (IH x y E X). cbn [List.length]. lia.
  - destruct x as [| d [| e x]]; [cbn; lia | cbn; lia |]. cbn [app] in E. injection E as -> -> E. apply spelling_inv in X.
    destruct X as [[D _] | [_ (f & z & EX & X)]]; [exfalso; exact (not_bsl _ D eq_refl) |].
    injection EX as -> ->. specialize (IH z y E X). cbn [List.length]. lia.
Qed.

(** No piece with a minus behind it stands at the start of a spelling. *)
Lemma no_minus w s : spelling w -> over (WORD ++ [BSL; "-"%char]) s -> forall ds y, forallb word_ ds = true -> ds ++ "-"%char :: y = w ++ s -> False.
Proof.
  intros W O. assert (HS : forall d t, s = d :: t -> word_ d = false /\ d <> "-"%char).
  { intros d t ->. cbn [over] in O. split.
    - destruct (word_ d) eqn:X; [exfalso; apply O, in_or_app; left; apply word_in; exact X | reflexivity].
    - intros ->. apply O, in_or_app. right. right. left. reflexivity. }
  induction W as [| c w C W IH | c w C W IH]; intros ds y D E.
  - cbn [app] in E. destruct ds as [| d ds]; cbn [app] in E.
    + destruct (HS _ _ (eq_sym E)) as [_ N]. apply N. reflexivity.
    + destruct (HS _ _ (eq_sym E)) as [N _]. cbn [forallb] in D. rewrite N in D. discriminate D.
  - destruct ds as [| d ds]; cbn [app] in E.
    + injection E as <- E. apply word_in in C. discriminate C.
    + injection E as -> E. cbn [forallb] in D. apply andb_true_iff in D. exact (IH ds y (proj2 D) E).
  - destruct ds as [| d ds]; cbn [app] in E; [discriminate E |]. injection E as -> E. discriminate D.
Qed.

Definition RangeRe : re := RSeq CharRe (RSeq (chr "-") CharRe).
Lemma lang_range x : lang RangeRe x <-> exists a b, lang CharRe a /\ lang CharRe b /\ x = a ++ "-"%char :: b.
Proof.
  unfold RangeRe. rewrite lang_seq'. split.
  - intros (a & v & -> & A & V). apply lang_seq' in V. destruct V as (m & b & -> & M & B). apply lang_chr in M. subst m. exists a, b. auto.
  - intros (a & b & A & B & ->). exists a, ("-"%char :: b). split; [reflexivity |]. split; [exact A |].
    apply (l_seq _ _ ["-"%char] b); [apply lang_chr; reflexivity | exact B].
Qed.
Lemma no_range w s x y : spelling w -> w <> [] -> over (WORD ++ [BSL; "-"%char]) s -> x ++ y = w ++ s -> lang RangeRe x -> False.
Proof.
  intros W NE O E L. apply lang_range in L. destruct L as (a & b & A & _ & ->). rewrite <- app_assoc in E. cbn [app] in E.
  apply char_piece in A. destruct A as [(c & -> & C) | (c & ds & -> & C & D)].
  - destruct W as [| d w Dw W | d w Dw W]; [contradiction | |]; cbn [app] in E; injection E as -> E.
    + apply (no_minus w s W O [] (b ++ y)); [reflexivity | exact E].
    + discriminate C.
  - destruct W as [| d w Dw W | d w Dw W]; [contradiction | |]; cbn [app] in E.
    + injection E as <- _. apply not_bsl in Dw. contradiction.
    + injection E as -> E. apply (no_minus w s W O ds (b ++ y)); assumption.
Qed.

(** ** Words before a semicolon *)
Definition space_ (c : ascii) : bool := among SPACES c.
Definition before_end : re := RSeq (RStar space_nl) (chr ";").
Lemma lang_before_end x : lang before_end x <-> exists b, forallb space_ b = true /\ x = b ++ [";"%char].
Proof.
  unfold before_end, space_nl, oneof. rewrite lang_seq'. split.
  - intros (u & v & -> & U & V). apply lang_star_cls in U. apply lang_chr in V. subst v. exists u. auto.
  - intros (b & B & ->). exists b, [";"%char]. split; [reflexivity |]. split; [apply lang_star_cls; exact B | apply lang_chr; reflexivity].
Qed.
Lemma space_in c : In c SPACES <-> space_ c = true.
Proof.
  unfold space_, among. rewrite existsb_exists. split.
  - intro J. exists c. split; [exact J | apply Ascii.eqb_refl].
  - intros (d & J & E). apply Ascii.eqb_eq in E. subst d. exact J.
Qed.
Lemma ends_rule_spec s : ends_rule s <-> exists b u, forallb space_ b = true /\ s = b ++ ";"%char :: u.
Proof.
  split; intros (b & u & B & ->); exists b, u; (split; [| reflexivity]).
  - apply forallb_forall. intros c C. apply space_in, B, C.
  - intros c C. apply space_in. rewrite forallb_forall in B. exact (B c C).
Qed.
Lemma end_stops b u : forallb space_ b = true -> stops word_ (b ++ ";"%char :: u).
Proof.
  destruct b as [| c b]; intro B; [reflexivity |]. cbn [app stops]. cbn [forallb] in B. apply andb_true_iff in B. destruct B as [B _].
  assert (H : forall c, (negb (space_ c) || negb (word_ c)) = true) by (apply for_chars; vm_compute; reflexivity).
  specialize (H c). rewrite B in H. apply negb_true_iff. exact H.
Qed.
Lemma end_over b u : forallb space_ b = true -> over (WORD ++ [BSL; "-"%char]) (b ++ ";"%char :: u).
Proof.
  assert (H : forall c, (negb (space_ c || Ascii.eqb c ";") || negb (inb (WORD ++ [BSL; "-"%char]) c)) = true) by (apply for_chars; vm_compute; reflexivity).
  intro B. destruct b as [| c b]; cbn [app over]; intro J; apply inb_spec in J.
  - specialize (H ";"%char). rewrite J in H. discriminate H.
  - cbn [forallb] in B. apply andb_true_iff in B. specialize (H c). rewrite J, (proj1 B) in H. discriminate H.
Qed.

(** The rules for words with a semicolon behind. *)
Lemma word_end f w b u x y : (forall c, f c = true -> word_ c = true) -> forallb word_ w = true -> forallb space_ b = true ->
  x ++ y = w ++ b ++ ";"%char :: u -> lang (RSeq (plus (RCls f)) before_end) x -> x = w ++ b ++ [";"%char] /\ forallb f w = true.
Proof.
  intros FW W B E L. apply lang_seq' in L. destruct L as (v & z & -> & V & Z). apply lang_plus_cls in V. destruct V as [_ V].
  apply lang_before_end in Z. destruct Z as (b' & B' & ->). rewrite <- !app_assoc in E. cbn [app] in E.
  apply (spans word_) in E; [| apply (sub_class f); assumption | exact W | apply end_stops; exact B' | apply end_stops; exact B].
  destruct E as [-> E]. apply (spans space_) in E; [| exact B' | exact B | reflexivity | reflexivity]. destruct E as [-> _]. auto.
Qed.
Lemma no_word_end f w s x y : (forall c, f c = true -> word_ c = true) -> spelling w -> over (WORD ++ [BSL; "-"%char]) s ->
  (all_in WORD w -> ~ ends_rule s) -> x ++ y = w ++ s -> lang (RSeq (plus (RCls f)) before_end) x -> False.
Proof.
  intros FW W O N E L. apply lang_seq' in L. destruct L as (v & z & -> & V & Z). apply lang_plus_cls in V. destruct V as [_ V].
  apply (sub_class f) in V; [| exact FW]. apply lang_before_end in Z. destruct Z as (b & B & ->). rewrite <- !app_assoc in E. cbn [app] in E.
  assert (HB : forall t, b ++ ";"%char :: y <> BSL :: t).
  { intros t X. pose proof (end_over b y B) as OB. rewrite X in OB. apply OB. apply in_or_app. right. left. reflexivity. }
  revert v V E. induction W as [| c w C W IH | c w C W IH]; intros v V E.
  - cbn [app] in E. destruct v as [| d v].
    + apply N; [intros d [] |]. apply ends_rule_spec. exists b, y. auto.
    + subst s. cbn [app over] in O. apply O, in_or_app. left. apply word_in. cbn [forallb] in V. apply andb_true_iff in V. apply V.
  - destruct v as [| d v]; cbn [app] in E.
    + pose proof (end_stops b y B) as St. rewrite E in St. cbn [stops] in St. apply word_in in C. congruence.
    + injection E as -> E. cbn [forallb] in V. apply andb_true_iff in V. apply (IH (fun A => N (fun d D => match D with or_introl X => eq_ind c (fun d => In d WORD) C d X | or_intror X => A d X end)) v (proj2 V) E).
  - destruct v as [| d v]; cbn [app] in E; [exact (HB _ E) |]. injection E as -> _. discriminate V.
Qed.

Definition rule_of_lexer (i : nat) : rule := nth i (rules RULE_LEXER) no_rule.
Definition lexer_word_places (c : ascii) : list nat := if upper_ c then [12; 27; 28; 29] else [12; 28; 29].
Lemma lexer_word_places_ok c : word_ c = true -> places RULE_LEXER c = lexer_word_places c.
Proof.
  intro F. assert (H : (negb (word_ c) || nats_eqb (places RULE_LEXER c) (lexer_word_places c)) = true).
  { revert c F. intros c _. revert c. apply for_chars. vm_compute. reflexivity. }
  apply orb_true_iff in H. destruct H as [H | H]; [rewrite F in H; discriminate H |]. exact (nats_eqb_eq _ _ H).
Qed.
Lemma lexer_bsl_places : places RULE_LEXER BSL = [12; 29].
Proof. vm_compute. reflexivity. Qed.

Lemma word_at w c u : w = c :: u -> forallb word_ w = true -> word_ c = true.
Proof. intros -> W. cbn [forallb] in W. apply andb_true_iff in W. apply W. Qed.
Lemma cstr_spelled w : forallb word_ w = true -> cstr w = w.
Proof. intro W. apply cstr_word. intros d D X. rewrite forallb_forall in W. specialize (W d D). rewrite X in W. discriminate W. Qed.

Section Words.
Variables (w b u : text).
Hypothesis NE : w <> [].
Hypothesis W : forallb word_ w = true.
Hypothesis B : forallb space_ b = true.
Let s := b ++ ";"%char :: u.
Let SW : spelling w := spelling_word w W.

Lemma bound_range n h : matched (rule_of_lexer 12) (w ++ s) = Some (n, h) -> n < List.length w.
Proof.
  intro M. exfalso. apply matched_part in M. destruct M as (x & y & E & _ & L).
  exact (no_range w s x y SW NE (end_over b u B) (eq_sym E) L).
Qed.
Lemma over_bsl t : over (WORD ++ [BSL; "-"%char]) t -> over (WORD ++ [BSL]) t.
Proof.
  destruct t as [| c t]; [auto |]. cbn [over]. intros N J. apply N. apply in_app_or in J. apply in_or_app.
  destruct J as [J | [<- | []]]; [left; exact J | right; left; reflexivity].
Qed.
Lemma bound_unquoted n h : matched (rule_of_lexer 29) (w ++ s) = Some (n, h) -> n <= List.length w.
Proof.
  intro M. apply matched_part in M. destruct M as (x & y & E & <- & L).
  exact (spelling_bound w s SW (over_bsl _ (end_over b u B)) x y (eq_sym E) (plus_spelling x L)).
Qed.
Lemma word_end_matched f r : (forall c, f c = true -> word_ c = true) -> pat r = plus (RCls f) -> trail r = Some before_end -> forallb f w = true ->
  matched r (w ++ s) = Some (List.length w + List.length b + 1, List.length w).
Proof.
  intros FW P T F. unfold s. replace (b ++ ";"%char :: u) with ((b ++ [";"%char]) ++ u) by (rewrite <- app_assoc; reflexivity).
  replace (List.length w + List.length b + 1) with (List.length (w ++ b ++ [";"%char])) by (rewrite !app_length; cbn [List.length]; lia).
  rewrite (matched_trail r before_end); [reflexivity | exact T | | | |].
  - rewrite P. apply lang_plus_cls. auto.
  - apply lang_before_end. exists b. auto.
  - intros x' y' E L. rewrite P in L. rewrite <- app_assoc in E. cbn [app] in E.
    destruct (word_end f w b u x' y' FW W B E L) as [-> _]. apply Nat.le_refl.
  - intros x' y' E L. rewrite P in L. apply lang_plus_cls in L. destruct L as [_ L]. apply (sub_class f) in L; [| exact FW].
    assert (St : stops word_ (b ++ [";"%char])) by (apply end_stops; exact B).
    destruct (run_within word_ x' w y' _ E L St) as (g & G & _). rewrite G, app_length. lia.
Qed.
Lemma bound_word_end f r n h : (forall c, f c = true -> word_ c = true) -> pat r = plus (RCls f) -> trail r = Some before_end ->
  matched r (w ++ s) = Some (n, h) -> n = List.length w + List.length b + 1 /\ forallb f w = true.
Proof.
  intros FW P T M. apply matched_part in M. destruct M as (x & y & E & <- & L). unfold whole in L. rewrite T, P in L.
  destruct (word_end f w b u x y FW W B (eq_sym E) L) as [-> F]. split; [| exact F]. rewrite !app_length. cbn [List.length]. lia.
Qed.
Lemma upper_word_ : forall c, upper_ c = true -> word_ c = true.
Proof. exact upper_word. Qed.

Lemma best_terminal : forallb upper_ w = true ->
  best (rules RULE_LEXER) (w ++ s) = Some (rule_of_lexer 27, List.length w + List.length b + 1, List.length w).
Proof.
  intro U. assert (M27 : matched (rule_of_lexer 27) (w ++ s) = Some (List.length w + List.length b + 1, List.length w)).
  { apply (word_end_matched upper_); [exact upper_word_ | reflexivity | reflexivity | exact U]. }
  destruct w as [| c v] eqn:Ew; [contradiction |]. rewrite <- Ew in *.
  assert (Wc : word_ c = true) by (apply (word_at w c v Ew W)).
  assert (Uc : upper_ c = true) by (rewrite Ew in U; cbn [forallb] in U; apply andb_true_iff in U; apply U).
  pose proof (best_nth RULE_LEXER c (v ++ s) _ (lexer_word_places_ok c Wc)) as BN. change (c :: v ++ s) with ((c :: v) ++ s) in BN. rewrite <- Ew in BN.
  rewrite BN. unfold lexer_word_places. rewrite Uc. cbn [map].
  change (nth 12 (rules RULE_LEXER) no_rule) with (rule_of_lexer 12). change (nth 27 (rules RULE_LEXER) no_rule) with (rule_of_lexer 27).
  change (nth 28 (rules RULE_LEXER) no_rule) with (rule_of_lexer 28). change (nth 29 (rules RULE_LEXER) no_rule) with (rule_of_lexer 29).
  replace (List.length w + List.length b + 1) with (S (List.length w + List.length b)) in * by lia.
  apply (best_pick [rule_of_lexer 12] (rule_of_lexer 27) [rule_of_lexer 28; rule_of_lexer 29]); [exact M27 | |].
  - intros r' n' h' [<- | []] M. pose proof (bound_range n' h' M). lia.
  - intros r' n' h' [<- | [<- | []]] M.
    + destruct (bound_word_end word_ (rule_of_lexer 28) n' h' (fun c H => H) eq_refl eq_refl M) as [-> _]. lia.
    + pose proof (bound_unquoted n' h' M). lia.
Qed.
Lemma best_identifier : forallb upper_ w = false ->
  best (rules RULE_LEXER) (w ++ s) = Some (rule_of_lexer 28, List.length w + List.length b + 1, List.length w).
Proof.
  intro U. assert (M28 : matched (rule_of_lexer 28) (w ++ s) = Some (List.length w + List.length b + 1, List.length w)).
  { apply (word_end_matched word_); [auto | reflexivity | reflexivity | exact W]. }
  destruct w as [| c v] eqn:Ew; [contradiction |]. rewrite <- Ew in *.
  assert (Wc : word_ c = true) by (apply (word_at w c v Ew W)).
  pose proof (best_nth RULE_LEXER c (v ++ s) _ (lexer_word_places_ok c Wc)) as BN. change (c :: v ++ s) with ((c :: v) ++ s) in BN. rewrite <- Ew in BN.
  rewrite BN. unfold lexer_word_places.
  replace (List.length w + List.length b + 1) with (S (List.length w + List.length b)) in * by lia.
  assert (P1 : forall r' n' h', In r' [rule_of_lexer 12; rule_of_lexer 27] -> matched r' (w ++ s) = Some (n', h') -> n' < S (List.length w + List.length b)).
  { intros r' n' h' [<- | [<- | []]] M.
    - pose proof (bound_range n' h' M). lia.
    - destruct (bound_word_end upper_ (rule_of_lexer 27) n' h' upper_word_ eq_refl eq_refl M) as [_ X]. congruence. }
  assert (P2 : forall r' n' h', In r' [rule_of_lexer 29] -> matched r' (w ++ s) = Some (n', h') -> n' <= S (List.length w + List.length b)).
  { intros r' n' h' [<- | []] M. pose proof (bound_unquoted n' h' M). lia. }
  destruct (upper_ c).
  - apply (best_pick [rule_of_lexer 12; rule_of_lexer 27] (rule_of_lexer 28) [rule_of_lexer 29]); assumption.
  - apply (best_pick [rule_of_lexer 12] (rule_of_lexer 28) [rule_of_lexer 29]); [assumption | | assumption].
    intros r' n' h' [<- | []]. apply P1. left. reflexivity.
Qed.
End Words.

(** A rule with something behind its match. *)
Lemma given_step_trail cfg q x w s q' r n :
  w <> [] -> best (rules (fst q)) (w ++ s) = Some (r, n, List.length w) ->
  (forall st0, smode st0 = fst q -> pos st0 = snd q -> kept st0 = [] ->
     exists st', act r cfg st0 w = Give (fst x) (snd x) st' /\ smode st' = fst q' /\ pos st' = snd q' /\ kept st' = []) ->
  given_by cfg q x w s q'.
Proof.
  intros NE B A st (M & P & K). rewrite <- M in B. pose proof (step_best cfg _ _ _ _ _ B) as ST.
  destruct (split_step w s) as [E1 E2]. rewrite K, E1, E2 in ST. cbn [app] in ST.
  destruct (A (append_line w (unkept st))) as (st' & E & M' & P' & K'); [exact M | exact P | reflexivity |].
  rewrite E in ST. exists st', (yyline st'). split; [| repeat split; assumption].
  eapply rd_give; [| exact ST | apply rd_none]. destruct w; [contradiction | discriminate].
Qed.

Lemma all_word w : all_in WORD w -> forallb word_ w = true.
Proof. intro A. apply forallb_forall. intros d D. apply word_in, A, D. Qed.
Lemma given_lexer_terminal cfg p w s : w <> [] -> all_in UPPER w -> ends_rule s ->
  given_by cfg (RULE_LEXER, p) (Tok "T_TERMINAL", w) w s (RULE_LEXER, p).
Proof.
  intros NE A R. apply ends_rule_spec in R. destruct R as (b & u & B & ->).
  assert (U : forallb upper_ w = true) by (apply forallb_forall; intros d D; apply upper_in, A, D).
  assert (W : forallb word_ w = true) by (apply (sub_class upper_); [exact upper_word | exact U]).
  eapply given_step_trail; [exact NE | exact (best_terminal w b u NE W B U) |].
  intros st0 M P K. exists st0. split.
  - cbn [rule_of_lexer rules lexer_rules nth r0 act fst snd]. unfold copy. rewrite (cstr_spelled w W). reflexivity.
  - repeat split; assumption.
Qed.
Lemma given_lexer_identifier cfg p w s : w <> [] -> all_in WORD w -> ~ all_in UPPER w -> ends_rule s ->
  given_by cfg (RULE_LEXER, p) (Tok "T_IDENTIFIER", w) w s (RULE_LEXER, p).
Proof.
  intros NE A N R. apply ends_rule_spec in R. destruct R as (b & u & B & ->). pose proof (all_word w A) as W.
  assert (U : forallb upper_ w = false).
  { destruct (forallb upper_ w) eqn:X; [exfalso | reflexivity]. apply N. intros d D. apply upper_in. rewrite forallb_forall in X. exact (X d D). }
  eapply given_step_trail; [exact NE | exact (best_identifier w b u NE W B U) |].
  intros st0 M P K. exists st0. split.
  - cbn [rule_of_lexer rules lexer_rules nth r0 act fst snd]. unfold copy. rewrite (cstr_spelled w W). reflexivity.
  - repeat split; assumption.
Qed.

(** ** Words without quotes, ranges *)
Lemma best_unquoted w s : spelling w -> w <> [] -> over (WORD ++ [BSL; "-"%char]) s -> (all_in WORD w -> ~ ends_rule s) ->
  best (rules RULE_LEXER) (w ++ s) = Some (rule_of_lexer 29, List.length w, List.length w).
Proof.
  intros SW NE O N.
  assert (M29 : matched (rule_of_lexer 29) (w ++ s) = Some (List.length w, List.length w)).
  { rewrite m_plain by reflexivity. change (pat (rule_of_lexer 29)) with (plus CharRe). rewrite longest_part; [reflexivity | apply spelling_plus; assumption |].
    intros x' y' E L. exact (spelling_bound w s SW (over_bsl _ O) x' y' E (plus_spelling x' L)). }
  assert (NO : forall r' n' h', In r' [rule_of_lexer 12; rule_of_lexer 27; rule_of_lexer 28] -> matched r' (w ++ s) = Some (n', h') -> False).
  { intros r' n' h' [<- | [<- | [<- | []]]] M; apply matched_part in M; destruct M as (x & y & E & _ & L).
    - exact (no_range w s x y SW NE O (eq_sym E) L).
    - exact (no_word_end upper_ w s x y upper_word SW O N (eq_sym E) L).
    - exact (no_word_end word_ w s x y (fun c H => H) SW O N (eq_sym E) L). }
  assert (PICK : forall l, (forall r, In r l -> In r [rule_of_lexer 12; rule_of_lexer 27; rule_of_lexer 28]) ->
    best (l ++ [rule_of_lexer 29]) (w ++ s) = Some (rule_of_lexer 29, List.length w, List.length w)).
  { intros l H. destruct w as [| c v]; [contradiction |]. cbn [List.length] in *. apply best_pick; [exact M29 | | intros ? ? ? []].
    intros r' n' h' J M. exfalso. exact (NO r' n' h' (H r' J) M). }
  destruct w as [| c v] eqn:Ew; [contradiction |].
  assert (BN : forall l, places RULE_LEXER c = l -> best (rules RULE_LEXER) ((c :: v) ++ s) = best (map (fun i => nth i (rules RULE_LEXER) no_rule) l) ((c :: v) ++ s)).
  { intros l P. exact (best_nth RULE_LEXER c (v ++ s) l P). }
  apply spelling_inv in SW. destruct SW as [[C _] | [-> _]].
  - apply word_in in C. rewrite (BN _ (lexer_word_places_ok c C)). unfold lexer_word_places. destruct (upper_ c).
    + apply (PICK [rule_of_lexer 12; rule_of_lexer 27; rule_of_lexer 28]). auto.
    + apply (PICK [rule_of_lexer 12; rule_of_lexer 28]). intros r [<- | [<- | []]]; [left; reflexivity | do 2 right; left; reflexivity].
  - rewrite (BN _ lexer_bsl_places). apply (PICK [rule_of_lexer 12]). intros r [<- | []]. left. reflexivity.
Qed.
Lemma given_lexer_string cfg p w s : w <> [] -> spelling w -> cstr w = w -> over (WORD ++ [BSL; "-"%char]) s -> (all_in WORD w -> ~ ends_rule s) ->
  given_by cfg (RULE_LEXER, p) (Tok "T_UNQUOTED_STRING", w) w s (RULE_LEXER, p).
Proof.
  intros NE SW CS O N. eapply given_step; [exact NE | exact (best_unquoted w s SW NE O N) |].
  intros st0 M P K. exists st0. split.
  - cbn [rule_of_lexer rules lexer_rules nth valued r0 act fst snd]. unfold copy. rewrite CS. reflexivity.
  - repeat split; assumption.
Qed.

(** Both ends of a range are where they seem to be. *)
Lemma piece_minus a a' y y' : piece a -> piece a' -> a ++ "-"%char :: y = a' ++ "-"%char :: y' -> a = a' /\ y = y'.
Proof.
  intros A A' E.
  destruct A as [(c & -> & C) | (c & ds & -> & C & D)]; destruct A' as [(c' & -> & C') | (c' & ds' & -> & C' & D')]; cbn [app] in E.
  - injection E as -> ->. auto.
  - injection E as -> _. discriminate C.
  - injection E as <- _. discriminate C'.
  - injection E as -> E. apply (spans word_) in E; [| exact D | exact D' | reflexivity | reflexivity]. destruct E as [-> E]. injection E as ->. auto.
Qed.
Lemma piece_bound b s : piece b -> over WORD s -> forall x y, x ++ y = b ++ s -> piece x -> List.length x <= List.length b.
Proof.
  intros Bp O x y E X. assert (St : stops word_ s) by exact (over_stops _ _ _ word_in O).
  destruct Bp as [(c & -> & C) | (c & ds & -> & C & D)]; destruct X as [(c' & -> & C') | (c' & ds' & -> & C' & D')]; cbn [app] in E.
  - apply Nat.le_refl.
  - injection E as <- _. discriminate C.
  - cbn [List.length]. lia.
  - injection E as -> E. destruct (run_within word_ ds' ds y s E D' St) as (g & -> & _). cbn [List.length]. rewrite app_length. lia.
Qed.
Lemma best_range a b s : lang CharRe a -> lang CharRe b -> over WORD s ->
  best (rules RULE_LEXER) ((a ++ "-"%char :: b) ++ s) = Some (rule_of_lexer 12, List.length (a ++ "-"%char :: b), List.length (a ++ "-"%char :: b)).
Proof.
  intros A Bb O. set (w := a ++ "-"%char :: b).
  assert (M12 : matched (rule_of_lexer 12) (w ++ s) = Some (List.length w, List.length w)).
  { rewrite m_plain by reflexivity. change (pat (rule_of_lexer 12)) with RangeRe. rewrite longest_part; [reflexivity | apply lang_range; exists a, b; auto |].
    intros x' y' E L. apply lang_range in L. destruct L as (a' & b' & A' & B' & ->). unfold w in *. rewrite <- !app_assoc in E. cbn [app] in E.
    apply piece_minus in E; [| apply char_piece; exact A' | apply char_piece; exact A]. destruct E as [-> E].
    pose proof (piece_bound b s (char_piece b Bb) O b' y' E (char_piece b' B')). rewrite !app_length. cbn [List.length]. lia. }
  assert (LW : List.length w = S (List.length a + List.length b)) by (unfold w; rewrite app_length; cbn [List.length]; lia).
  rewrite LW in *.
  assert (SA : spelling a) by (apply piece_spelling, char_piece, A).
  assert (NA : a <> []) by (intros ->; apply char_piece in A; destruct A as [(c & X & _) | (c & ds & X & _)]; discriminate X).
  assert (OA : over (WORD ++ [BSL]) ("-"%char :: b ++ s)).
  { cbn [over]. intro J. apply in_app_or in J. destruct J as [J | [J | []]]; [apply word_in in J; discriminate J | discriminate J]. }
  assert (EW : w ++ s = a ++ "-"%char :: b ++ s) by (unfold w; rewrite <- app_assoc; reflexivity).
  assert (ENDS : forall f x y, (forall c, f c = true -> word_ c = true) -> x ++ y = w ++ s -> lang (RSeq (plus (RCls f)) before_end) x -> False).
  { intros f x y FW E L. rewrite EW in E. apply lang_seq' in L. destruct L as (v & z & -> & V & Z). apply lang_plus_cls in V. destruct V as [Vn V].
    apply (sub_class f) in V; [| exact FW]. apply lang_before_end in Z. destruct Z as (g & G & ->). rewrite <- !app_assoc in E. cbn [app] in E.
    destruct (char_piece a A) as [(c & Ea & C) | (c & ds & Ea & C & D)]; rewrite Ea in E.
    - cbn [app] in E. destruct v as [| d v]; [contradiction |]. cbn [app] in E. injection E as -> E. cbn [forallb] in V. apply andb_true_iff in V. destruct V as [_ V].
      destruct v as [| e v]; cbn [app] in E.
      + pose proof (end_over g y G) as OG. rewrite E in OG. apply OG. apply in_or_app. right. right. left. reflexivity.
      + injection E as -> _. discriminate V.
    - cbn [app] in E. destruct v as [| d v]; [contradiction |]. cbn [app] in E. injection E as -> _. discriminate V. }
  assert (TAIL : forall r' n' h', In r' [rule_of_lexer 27; rule_of_lexer 28; rule_of_lexer 29] -> matched r' (w ++ s) = Some (n', h') -> n' <= S (List.length a + List.length b)).
  { intros r' n' h' [<- | [<- | [<- | []]]] M; apply matched_part in M; destruct M as (x & y & E & <- & L).
    - exfalso. exact (ENDS upper_ x y upper_word (eq_sym E) L).
    - exfalso. exact (ENDS word_ x y (fun c H => H) (eq_sym E) L).
    - rewrite EW in E. pose proof (spelling_bound a _ SA OA x y (eq_sym E) (plus_spelling x L)). lia. }
  assert (PICK : forall l, (forall r, In r l -> In r [rule_of_lexer 27; rule_of_lexer 28; rule_of_lexer 29]) ->
    best (rule_of_lexer 12 :: l) (w ++ s) = Some (rule_of_lexer 12, S (List.length a + List.length b), S (List.length a + List.length b))).
  { intros l H. apply (best_pick [] (rule_of_lexer 12) l); [exact M12 | intros ? ? ? [] |]. intros r' n' h' J M. exact (TAIL r' n' h' (H r' J) M). }
  destruct a as [| c v]; [contradiction |].
  assert (BN : forall l, places RULE_LEXER c = l -> best (rules RULE_LEXER) (w ++ s) = best (map (fun i => nth i (rules RULE_LEXER) no_rule) l) (w ++ s)).
  { intros l P. exact (best_nth RULE_LEXER c _ l P). }
  apply spelling_inv in SA. destruct SA as [[C _] | [-> _]].
  - apply word_in in C. rewrite (BN _ (lexer_word_places_ok c C)). unfold lexer_word_places. destruct (upper_ c).
    + apply (PICK [rule_of_lexer 27; rule_of_lexer 28; rule_of_lexer 29]). auto.
    + apply (PICK [rule_of_lexer 28; rule_of_lexer 29]). intros r [<- | [<- | []]]; [right; left; reflexivity | do 2 right; left; reflexivity].
  - rewrite (BN _ lexer_bsl_places). apply (PICK [rule_of_lexer 29]). intros r [<- | []]. do 2 right. left. reflexivity.
Qed.
Lemma given_lexer_range cfg p a b s : single a -> single b -> cstr (a ++ "-"%char :: b) = a ++ "-"%char :: b -> over WORD s ->
  given_by cfg (RULE_LEXER, p) (Tok "T_RANGE", a ++ "-"%char :: b) (a ++ "-"%char :: b) s (RULE_LEXER, p).
Proof.
  intros A B CS O. eapply given_step; [destruct a; discriminate | exact (best_range a b s (single_char a A) (single_char b B) O) |].
  intros st0 M P K. exists st0. split.
  - cbn [rule_of_lexer rules lexer_rules nth valued r0 act fst snd]. unfold copy. rewrite CS. reflexivity.
  - repeat split; assumption.
Qed.

(** ** Semicolons *)
Definition between_rules : re := RAlt (RSeq comment (oneof [CR; LF])) space_nl.
Definition runs_on (c : ascii) : bool := negb (among [CR; LF] c).
Lemma runs_on_spec w : forallb runs_on w = true <-> ~ In CR w /\ ~ In LF w.
Proof.
  split.
  - intro F. rewrite forallb_forall in F. split; intro J; specialize (F _ J); discriminate F.
  - intros [A B]. apply forallb_forall. intros c C. unfold runs_on. apply negb_true_iff. unfold among. cbn [existsb].
    destruct (Ascii.eqb_spec c CR) as [-> | _]; [contradiction |]. destruct (Ascii.eqb_spec c LF) as [-> | _]; [contradiction | reflexivity].
Qed.
Lemma among_in l c : among l c = true <-> In c l.
Proof.
  unfold among. rewrite existsb_exists. split.
  - intros (d & D & E). apply Ascii.eqb_eq in E. subst d. exact D.
  - intro H. exists c. split; [exact H | apply Ascii.eqb_refl].
Qed.
Lemma lang_between w : lang between_rules w <->
  (exists v c, w = chars "--" ++ v ++ [c] /\ forallb runs_on v = true /\ In c [CR; LF]) \/ (exists c, w = [c] /\ In c [SP; FF; TAB; CR; LF]).
Proof.
  unfold between_rules, space_nl, oneof, comment, noneof. rewrite lang_alt', lang_seq'. split.
  - intros [(u & v & -> & U & V) | H].
    + left. apply lang_seq' in U. destruct U as (a & b & -> & A & B). apply lang_lit in A. subst a. apply lang_star_cls in B.
      apply lang_cls in V. destruct V as (c & -> & C). apply among_in in C. exists b, c. rewrite <- app_assoc. auto.
    + right. apply lang_cls in H. destruct H as (c & -> & C). exists c. apply among_in in C. auto.
  - intros [(v & c & -> & V & C) | (c & -> & C)].
    + left. exists (chars "--" ++ v), [c]. split; [rewrite <- app_assoc; reflexivity |]. split.
      * apply lang_seq'. exists (chars "--"), v. split; [reflexivity |]. split; [apply lang_lit; reflexivity | apply lang_star_cls; exact V].
      * apply l_cls. apply among_in. exact C.
    + right. apply l_cls. apply among_in. exact C.
Qed.
Lemma gap_tail c g : In c [SP; FF; TAB; CR; LF] -> gap (c :: g) -> gap g.
Proof.
  intros C H. inversion H; subst; try assumption.
  exfalso. cbn [In] in C. repeat (destruct C as [C | C]; [discriminate C |]). exact C.
Qed.
Lemma gap_char c g : In c [SP; FF; TAB; CR; LF] -> gap g -> gap (c :: g).
Proof.
  intros [<- | [<- | [<- | [<- | [<- | []]]]]] G; [apply g_blank | apply g_blank | apply g_blank | apply g_cr | apply g_lf]; try exact G;
    unfold blanks; cbn [In]; auto 8.
Qed.
Lemma gap_cases c g : gap (c :: g) -> In c [SP; FF; TAB; CR; LF] /\ gap g \/
  exists w d g', c :: g = chars "--" ++ w ++ d :: g' /\ forallb runs_on w = true /\ In d [CR; LF] /\ gap g'.
Proof.
  intro H. inversion H; subst.
  - left. split; [| assumption]. match goal with H : In _ blanks |- _ => destruct H as [<- | [<- | [<- | []]]] end; cbn [In]; auto 8.
  - left. split; [do 3 right; left; reflexivity | assumption].
  - left. split; [do 4 right; left; reflexivity | assumption].
  - right. exists w, c0, g0. split; [reflexivity |]. split; [apply runs_on_spec; auto |].
    assert (J : In c0 [CR; LF]) by (match goal with H : c0 = CR \/ c0 = LF |- _ => destruct H as [-> | ->] end; cbn [In]; auto 8).
    split; [exact J |]. apply (gap_tail c0); [| assumption]. destruct J as [<- | [<- | []]]; cbn [In]; auto 8.
Qed.
Lemma gap_star : forall n g, List.length g < n -> gap g -> lang (RStar between_rules) g.
Proof.
  induction n as [| n IH]; intros g L G; [lia |]. destruct g as [| c g]; [apply l_nil |].
  destruct (gap_cases c g G) as [[C H] | (w & d & g' & E & W & D & H)].
  - change (c :: g) with ([c] ++ g). apply l_star; [apply lang_between; right; exists c; auto |]. apply IH; [cbn [List.length] in L; lia | exact H].
  - rewrite E in *. replace (chars "--" ++ w ++ d :: g') with ((chars "--" ++ w ++ [d]) ++ g') by (rewrite <- !app_assoc; reflexivity).
    apply l_star; [apply lang_between; left; exists w, d; auto |]. apply IH; [| exact H]. rewrite !app_length in L. cbn [List.length chars] in L. lia.
Qed.
Lemma star_gap g : lang (RStar between_rules) g -> gap g.
Proof.
  intro H. remember (RStar between_rules) as r eqn:R. induction H; try discriminate R; [apply g_nil |].
  injection R as ->. specialize (IHlang2 eq_refl). apply lang_between in H. destruct H as [(x & c & -> & X & C) | (c & -> & C)].
  - rewrite <- !app_assoc. cbn [app]. apply runs_on_spec in X. destruct X. apply g_comment; try assumption.
    + destruct C as [<- | [<- | []]]; auto.
    + apply gap_char; [destruct C as [<- | [<- | []]]; cbn [In]; auto 8 | assumption].
  - apply gap_char; assumption.
Qed.
Lemma plus_gap g : lang (plus between_rules) g <-> gap g /\ g <> [].
Proof.
  unfold plus. rewrite lang_seq'. split.
  - intros (u & v & -> & U & V). split.
    + apply star_gap. apply l_star; assumption.
    + apply lang_between in U. destruct U as [(x & c & -> & _) | (c & -> & _)]; discriminate.
  - intros [G NE]. destruct g as [| c g]; [contradiction |].
    destruct (gap_cases c g G) as [[C H] | (w & d & g' & E & W & D & H)].
    + exists [c], g. split; [reflexivity |]. split; [apply lang_between; right; exists c; auto | exact (gap_star _ _ (Nat.lt_succ_diag_r _) H)].
    + rewrite E. exists (chars "--" ++ w ++ [d]), g'. split; [rewrite <- !app_assoc; reflexivity |].
      split; [apply lang_between; left; exists w, d; auto | exact (gap_star _ _ (Nat.lt_succ_diag_r _) H)].
Qed.

(** A gap in front of a semicolon ends there. *)
Lemma gap_within : forall n g' g y u, List.length g' < n -> gap g' -> gap g -> g' ++ y = g ++ ";"%char :: u -> exists k, g = g' ++ k.
Proof.
  induction n as [| n IH]; intros g' g y u L G' G E; [lia |]. destruct g' as [| c g']; [exists g; reflexivity |].
  destruct g as [| d g].
  - exfalso. cbn [app] in E. injection E as -> _. destruct (gap_cases _ _ G') as [[C _] | (w & d & g2 & X & _)].
    + cbn [In] in C. repeat (destruct C as [C | C]; [discriminate C |]). exact C.
    + discriminate X.
  - destruct (gap_cases _ _ G') as [[C' H'] | (w' & d' & r' & X' & W' & D' & H')]; destruct (gap_cases _ _ G) as [[C H] | (w & d2 & r & X & W & D & H)].
    + cbn [app] in E. injection E as -> E. destruct (IH g' g y u) as (k & ->); [cbn [List.length] in L; lia | assumption.. |]. exists k. reflexivity.
    + exfalso. cbn [app] in E. injection E as -> _. cbn [chars app] in X. injection X as -> _. cbn [In] in C'. repeat (destruct C' as [C' | C']; [discriminate C' |]). exact C'.
    + exfalso. cbn [app] in E. injection E as -> _. cbn [chars app] in X'. injection X' as -> _. cbn [In] in C. repeat (destruct C as [C | C]; [discriminate C |]). exact C.
    + rewrite X', X in E. rewrite <- !app_assoc in E. cbn [chars app] in E. injection E as E.
      assert (ST : forall d z, In d [CR; LF] -> stops runs_on (d :: z)) by (intros e z [<- | [<- | []]]; reflexivity).
      apply (spans runs_on) in E; [| assumption | assumption | apply ST; assumption | apply ST; assumption].
      destruct E as [-> E]. injection E as -> E. rewrite X' in L. rewrite !app_length in L. cbn [List.length chars] in L.
      destruct (IH r' r y u) as (k & ->); [lia | assumption.. |]. exists k. rewrite X, X'. rewrite <- !app_assoc. reflexivity.
Qed.
Lemma gap_unique g g' y u : gap g -> gap g' -> g' ++ ";"%char :: y = g ++ ";"%char :: u -> g' = g.
Proof.
  intros G G' E. destruct (gap_within _ g' g _ u (Nat.lt_succ_diag_r _) G' G E) as (k & K). symmetry in E.
  destruct (gap_within _ g g' _ y (Nat.lt_succ_diag_r _) G G' E) as (k' & K').
  apply (f_equal (@List.length ascii)) in K as L. apply (f_equal (@List.length ascii)) in K' as L'. rewrite app_length in *.
  destruct k; [rewrite app_nil_r in K; congruence | cbn [List.length] in L; lia].
Qed.

Definition semi (c : ascii) : bool := is ";" c.
Lemma semi_run n : forallb semi (repeat ";"%char n) = true.
Proof. induction n as [| n IH]; [reflexivity | exact IH]. Qed.
Lemma gap_stops g s : gap g -> g <> [] -> stops semi (g ++ s).
Proof.
  intros G NE. destruct g as [| c g]; [contradiction |]. cbn [app stops].
  destruct (gap_cases c g G) as [[C _] | (w & d & g' & E & _)].
  - destruct C as [<- | [<- | [<- | [<- | [<- | []]]]]]; reflexivity.
  - cbn [chars app] in E. injection E as -> _. reflexivity.
Qed.
Definition semis_gap : re := RSeq (plus (chr ";")) (plus between_rules).
Lemma lang_semis_gap w : lang semis_gap w <-> exists n g, w = repeat ";"%char (S n) ++ g /\ gap g /\ g <> [].
Proof.
  unfold semis_gap. rewrite lang_seq'. split.
  - intros (u & v & -> & U & V). unfold chr in U. apply lang_plus_cls in U. destruct U as [NE U]. apply plus_gap in V. destruct V.
    exists (List.length u - 1), v. split; [| auto]. f_equal. destruct u as [| c u]; [contradiction |]. cbn [List.length].
    replace (S (List.length u) - 1) with (List.length u) by lia. clear NE. change (S (List.length u)) with (List.length (c :: u)). remember (c :: u) as z.
    clear - U. induction z as [| d z IH]; [reflexivity |]. cbn [forallb] in U. apply andb_true_iff in U. destruct U as [D U].
    unfold is in D. apply Ascii.eqb_eq in D. subst d. cbn [List.length repeat]. rewrite <- IH by exact U. reflexivity.
  - intros (n & g & -> & G & NE). exists (repeat ";"%char (S n)), g. split; [reflexivity |]. split; [| apply plus_gap; auto].
    unfold chr. apply lang_plus_cls. split; [discriminate | exact (semi_run (S n))].
Qed.
Lemma lang_semis w : lang (plus (chr ";")) w -> exists u, w = ";"%char :: u /\ forallb semi u = true.
Proof.
  unfold chr. intro H. apply lang_plus_cls in H. destruct H as [NE H]. destruct w as [| c u]; [contradiction |]. cbn [forallb] in H.
  apply andb_true_iff in H. destruct H as [C H]. unfold is in C. apply Ascii.eqb_eq in C. subst c. exists u. auto.
Qed.

Lemma given_lexer_semicolon cfg p n s : (forall g u, gap g -> s <> g ++ ";"%char :: u) ->
  given_by cfg (RULE_LEXER, p) (Chr ";", []) (repeat ";"%char (S n)) s (RULE_LEXER, p).
Proof.
  intro N. assert (O : over [";"%char] s).
  { destruct s as [| c s]; [exact I |]. cbn [over]. intros [<- | []]. exact (N [] s g_nil eq_refl). }
  assert (St : stops semi s) by (destruct s as [| c s]; [exact I |]; cbn [stops over] in *; unfold semi, is; destruct (Ascii.eqb_spec ";" c) as [<- | _]; [exfalso; apply O; left; reflexivity | reflexivity]).
  eapply (given_step _ _ _ _ _ _ (rule_of_lexer 4)); [discriminate | |].
  - cbn [fst]. rewrite repeat_length. change (repeat ";"%char (S n) ++ s) with (";"%char :: repeat ";"%char n ++ s).
    rewrite (best_nth RULE_LEXER ";"%char _ [3; 4]) by (vm_compute; reflexivity). cbn [map].
    change (";"%char :: repeat ";"%char n ++ s) with (repeat ";"%char (S n) ++ s).
    apply (best_pick [rule_of_lexer 3] (rule_of_lexer 4) []); [| | intros ? ? ? []].
    + rewrite m_plain by reflexivity. change (pat (rule_of_lexer 4)) with (plus (chr ";")). rewrite longest_plus_run by exact O. reflexivity.
    + intros r' n' h' [<- | []] M. exfalso. apply matched_part in M. destruct M as (x & y & E & _ & L).
      change (whole (rule_of_lexer 3)) with (RSeq semis_gap (plus (chr ";"))) in L. apply lang_seq' in L. destruct L as (a & z & -> & A & Z).
      apply lang_semis_gap in A. destruct A as (m & g & -> & G & NE). apply lang_semis in Z. destruct Z as (z' & -> & _).
      rewrite <- !app_assoc in E. apply (spans semi) in E; [| apply semi_run | apply semi_run | exact St | apply gap_stops; assumption].
      destruct E as [_ E]. apply (N g (z' ++ y) G). exact E.
  - intros st0 M P K. exists st0. split; [reflexivity |]. repeat split; assumption.
Qed.
Lemma given_lexer_end cfg p n g s : gap g -> g <> [] -> (exists u, s = ";"%char :: u) ->
  given_by cfg (RULE_LEXER, p) (Chr ";", []) (repeat ";"%char (S n) ++ g) s (INITIAL, RuleBody).
Proof.
  intros G NE (u & ->). set (w := repeat ";"%char (S n) ++ g).
  pose proof (take_drop semi (";"%char :: u)) as TD. pose proof (takew_all semi (";"%char :: u)) as ZA. pose proof (dropw_stops semi (";"%char :: u)) as DS.
  set (z := takew semi (";"%char :: u)) in *. set (y := dropw semi (";"%char :: u)) in *.
  assert (ZE : z <> []) by discriminate.
  assert (HEAD : forall m h x, gap h -> h <> [] -> (repeat ";"%char (S m) ++ h) ++ x = w ++ z ++ y -> S m = S n /\ h ++ x = g ++ z ++ y).
  { intros m h x H Hn E. unfold w in E. rewrite <- !app_assoc in E.
    apply (spans semi) in E; [| apply semi_run | apply semi_run | apply gap_stops; assumption | apply gap_stops; assumption].
    destruct E as [E1 E2]. split; [| exact E2]. apply (f_equal (@List.length ascii)) in E1. rewrite !repeat_length in E1. exact E1. }
  assert (M3 : matched (rule_of_lexer 3) (w ++ z ++ y) = Some (List.length (w ++ z), List.length w)).
  { apply (matched_trail (rule_of_lexer 3) (plus (chr ";"))); [reflexivity | | | |].
    - change (pat (rule_of_lexer 3)) with semis_gap. apply lang_semis_gap. exists n, g. auto.
    - unfold chr. apply lang_plus_cls. split; [exact ZE | exact ZA].
    - intros x' y' E L. change (pat (rule_of_lexer 3)) with semis_gap in L. apply lang_seq' in L. destruct L as (a & v & -> & A & V).
      apply lang_semis_gap in A. destruct A as (m & h & -> & H & Hn). unfold chr in V. apply lang_plus_cls in V. destruct V as [Vn V].
      rewrite <- app_assoc in E. destruct (HEAD m h _ H Hn E) as [-> E2].
      assert (h = g).
      { rewrite <- TD in E2. destruct v as [| d v]; [contradiction |]. cbn [forallb] in V. apply andb_true_iff in V. destruct V as [D _].
        unfold is in D. apply Ascii.eqb_eq in D. subst d. exact (gap_unique g h (v ++ y') u G H E2). }
      subst h. apply app_inv_head in E2. destruct (run_within semi v z y' y E2 V DS) as (k & K & _).
      unfold w. rewrite !app_length, K, app_length. lia.
    - intros x' y' E L. change (pat (rule_of_lexer 3)) with semis_gap in L. apply lang_semis_gap in L. destruct L as (m & h & -> & H & Hn).
      assert (E' : (repeat ";"%char (S m) ++ h) ++ y' ++ y = w ++ z ++ y) by (rewrite !app_assoc in *; rewrite E; reflexivity).
      destruct (HEAD m h _ H Hn E') as [-> E2]. rewrite <- TD in E2. destruct (gap_within _ h g _ u (Nat.lt_succ_diag_r _) H G E2) as (k & ->).
      unfold w. rewrite !app_length. lia. }
  rewrite <- TD in M3. assert (LZ : exists k, List.length z = S k) by (destruct z as [| c z']; [contradiction | exists (List.length z'); reflexivity]).
  destruct LZ as (k & LZ). assert (LW : List.length (w ++ z) = S (n + List.length g + S k)).
  { unfold w. rewrite !app_length, repeat_length, LZ. lia. }
  eapply (given_step_trail _ _ _ _ _ _ (rule_of_lexer 3) (List.length (w ++ z))); [discriminate | |].
  - cbn [fst]. unfold w in *. rewrite LW in *. cbn [repeat app] in M3 |- *.
    rewrite (best_nth RULE_LEXER ";"%char _ [3; 4]) by (vm_compute; reflexivity). cbn [map].
    apply (best_pick [] (rule_of_lexer 3) [rule_of_lexer 4]); [exact M3 | intros ? ? ? [] |].
    intros r' n' h' [<- | []] M. apply matched_part in M. destruct M as (x & y' & E & <- & L).
    change (whole (rule_of_lexer 4)) with (plus (chr ";")) in L. apply lang_semis in L. destruct L as (x' & -> & X).
    cbn [app] in E. injection E as E. rewrite <- app_assoc in E. symmetry in E. destruct (run_within semi x' _ y' _ E X (gap_stops g _ G NE)) as (k' & K & _).
    apply (f_equal (@List.length ascii)) in K. rewrite app_length, repeat_length in K. cbn [List.length]. unfold text in *. lia.
  - intros st0 M P K. eexists. split; [reflexivity |]. repeat split; assumption.
Qed.
