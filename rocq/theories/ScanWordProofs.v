(** Proofs about the scanner of grammar files: gaps, words, numbers, strings, keywords,
    characters that mean nothing. *)
From Coq Require Import List Ascii String Bool PeanoNat ZArith Lia.
From Verif Require Import FlexModel FlexSpec FlexProofs ScanModel ScanSpec ScanProofs ScanPlaceProofs
  ScanCodeProofs ScanTextProofs.
Import ListNotations.

(** ** Gaps *)
Definition blank : ascii -> bool := among blanks.
Definition gap_mode (m : mode) : Prop := m = INITIAL \/ m = RULE_PARAMETERS_HEADER \/ m = RULE_LEXER.

Lemma best_nth m c t l :
  places m c = l -> best (rules m) (c :: t) = best (map (fun i => nth i (rules m) no_rule) l) (c :: t).
Proof. intros <-. apply best_places. Qed.

Lemma blank_in c : In c blanks <-> blank c = true.
Proof.
  unfold blank, among. rewrite existsb_exists. split.
  - intro J. exists c. split; [exact J | apply Ascii.eqb_refl].
  - intros (d & J & E). apply Ascii.eqb_eq in E. subst d. exact J.
Qed.

Lemma blank_not_nl c : blank c = true -> c <> CR /\ c <> LF.
Proof. intro B. split; intros ->; discriminate B. Qed.

Lemma blank_step cfg st c u :
  gap_mode (smode st) -> blank c = true ->
  exists q u' st', c :: u = q ++ u' /\ q <> [] /\ forallb blank q = true /\
    step cfg st (c :: u) = (Go st', u') /\ calm st st' /\ kept st' = [].
Proof.
  intros G C. pose proof (proj2 (blank_in c) C) as Cases.
  assert (FULL : forall m i j, rules m = rules (smode st) -> (forall c, In c blanks -> places m c = [i; j]) ->
    nth i (rules m) no_rule = skip (RStar Whitespace) -> pat (nth j (rules m) no_rule) = dot -> trail (nth j (rules m) no_rule) = None ->
    exists q u' st', c :: u = q ++ u' /\ q <> [] /\ forallb blank q = true /\
    step cfg st (c :: u) = (Go st', u') /\ calm st st' /\ kept st' = []).
  { intros m i j RM P I J1 J2.
    pose proof (take_drop blank (c :: u)) as E. set (w := takew blank (c :: u)) in *. set (b := dropw blank (c :: u)) in *.
    assert (W : forallb blank w = true) by apply takew_all.
    assert (Wn : w <> []) by (unfold w; cbn [takew]; rewrite C; discriminate).
    assert (Sb : stops blank b) by apply dropw_stops.
    assert (M : matched (skip (RStar Whitespace)) (c :: u) = Some (List.length w, List.length w)).
    { rewrite m_plain by reflexivity. cbn [skip r0 pat]. unfold Whitespace, oneof. rewrite E.
      rewrite (longest_star_cls (among blanks)); [reflexivity | exact W | exact Sb]. }
    assert (B : best (rules (smode st)) (w ++ b) = Some (skip (RStar Whitespace), List.length w, List.length w)).
    { rewrite <- E, <- RM. rewrite (best_nth m c u [i; j]) by (apply P; exact Cases).
      cbn [map best]. rewrite I, M. rewrite m_plain, J1, longest_dot by (exact J2 || exact (proj2 (blank_not_nl c C))).
      destruct w as [| d w]; [contradiction |]. cbn [List.length]. reflexivity. }
    destruct (skip_step cfg st w b _ B) as (st' & ST & CA & K). exists w, b, st'.
    split; [exact E |]. split; [exact Wn |]. split; [exact W |]. rewrite E. auto. }
  destruct G as [G | [G | G]].
  - apply (FULL INITIAL 0 64); try reflexivity; [rewrite G; reflexivity |].
    intros d D. destruct D as [<- | [<- | [<- | []]]]; vm_compute; reflexivity.
  - apply (FULL RULE_PARAMETERS_HEADER 0 14); try reflexivity; [rewrite G; reflexivity |].
    intros d D. destruct D as [<- | [<- | [<- | []]]]; vm_compute; reflexivity.
  - assert (M : matched (skip Whitespace) (c :: u) = Some (1, 1)).
    { rewrite m_plain by reflexivity. cbn [skip r0 pat]. unfold Whitespace, oneof. rewrite longest_cons. cbn [deriv].
      change (among blanks c) with (blank c). rewrite C. rewrite longest_eps. reflexivity. }
    assert (B : best (rules (smode st)) ([c] ++ u) = Some (skip Whitespace, 1, 1)).
    { rewrite G. cbn [app]. rewrite (best_nth RULE_LEXER c u [30]).
      - cbn [map best nth rules lexer_rules]. rewrite M. reflexivity.
      - destruct Cases as [<- | [<- | [<- | []]]]; vm_compute; reflexivity. }
    destruct (skip_step cfg st [c] u _ B) as (st' & ST & CA & K). exists [c], u, st'.
    split; [reflexivity |]. split; [discriminate |]. split; [cbn [forallb]; rewrite C; reflexivity |]. auto.
Qed.

Definition in_line (c : ascii) : bool := negb (among [CR; LF] c).

Lemma longest_comment u :
  longest comment ("-"%char :: "-"%char :: u) = Some (2 + List.length (takew in_line u)).
Proof.
  unfold comment. rewrite longest_cons. unfold chr, is. cbn [deriv nullable andb lit lit_ chars chr is].
  replace (is "-" "-") with true by reflexivity. cbn [seq].
  rewrite longest_cons. unfold chr, is. cbn [deriv nullable andb].
  replace (Ascii.eqb "-" "-") with true by reflexivity. cbn [seq].
  rewrite (take_drop in_line u) at 1. unfold noneof.
  rewrite (longest_star_cls (fun c => negb (among [CR; LF] c))); [reflexivity | apply (takew_all in_line) | apply (dropw_stops in_line)].
Qed.

Lemma comment_step cfg st u :
  gap_mode (smode st) ->
  exists st', step cfg st ("-"%char :: "-"%char :: u) = (Go st', dropw in_line u) /\ calm st st' /\ kept st' = [].
Proof.
  intro G. set (w := "-"%char :: "-"%char :: takew in_line u).
  assert (E : "-"%char :: "-"%char :: u = w ++ dropw in_line u).
  { unfold w. cbn [app]. rewrite <- take_drop. reflexivity. }
  assert (M : matched (skip comment) ("-"%char :: "-"%char :: u) = Some (List.length w, List.length w)).
  { rewrite m_plain by reflexivity. cbn [skip r0 pat]. rewrite longest_comment. reflexivity. }
  assert (D : forall r, pat r = dot -> trail r = None -> matched r ("-"%char :: "-"%char :: u) = Some (1, 1)).
  { intros r P T. rewrite m_plain, P, longest_dot by (exact T || discriminate). reflexivity. }
  assert (A : forall r, pat r = lit "->" -> trail r = None -> matched r ("-"%char :: "-"%char :: u) = None).
  { intros r P T. rewrite m_plain, P by exact T. cbn [lit lit_ chars]. rewrite longest_lit2_no; [reflexivity |]. intros t X. discriminate X. }
  assert (B : best (rules (smode st)) (w ++ dropw in_line u) = Some (skip comment, List.length w, List.length w)).
  { rewrite <- E. destruct G as [-> | [-> | ->]].
    - rewrite (best_nth INITIAL _ _ [2; 4; 64]) by (vm_compute; reflexivity). cbn [map best].
      change (nth 2 (rules INITIAL) no_rule) with (skip comment). rewrite M, (A (nth 4 (rules INITIAL) no_rule)), (D (nth 64 (rules INITIAL) no_rule)) by reflexivity.
      reflexivity.
    - rewrite (best_nth RULE_PARAMETERS_HEADER _ _ [2; 14]) by (vm_compute; reflexivity). cbn [map best].
      change (nth 2 (rules RULE_PARAMETERS_HEADER) no_rule) with (skip comment). rewrite M, (D (nth 14 (rules RULE_PARAMETERS_HEADER) no_rule)) by reflexivity.
      reflexivity.
    - rewrite (best_nth RULE_LEXER _ _ [0; 19]) by (vm_compute; reflexivity). cbn [map best].
      change (nth 0 (rules RULE_LEXER) no_rule) with (skip comment). rewrite M, (A (nth 19 (rules RULE_LEXER) no_rule)) by reflexivity.
      reflexivity. }
  destruct (skip_step cfg st w _ _ B) as (st' & ST & CA & K). exists st'. rewrite E. auto.
Qed.

Lemma turn_step cfg st c u :
  nl_at (smode st) = nl -> c = CR \/ c = LF ->
  exists q s' st', c :: u = q ++ s' /\ step cfg st (c :: u) = (Go st', s') /\
    (q = [LF] \/ q = [CR; LF] \/ q = [CR] /\ forall v, s' <> LF :: v) /\
    smode st' = smode st /\ kept st' = [] /\ frame st st' /\ yyline st' = S (yyline st).
Proof.
  intros M C. destruct (turn_split c u C) as (q & s' & E & L & Q).
  pose proof (best_newline_at (smode st) c u C) as B. rewrite M, <- L in B.
  exists q, s'. eexists. split; [exact E |]. rewrite (step_best _ _ _ _ _ _ B). rewrite E.
  destruct (split_step q s') as [-> ->]. split; [reflexivity |]. split; [exact Q |]. repeat split.
Qed.

(** A run of [f]s at the start of [g ++ s] ends in [g]. *)
Lemma run_within f : forall q g u' s, q ++ u' = g ++ s -> forallb f q = true -> stops f s ->
  exists g', g = q ++ g' /\ u' = g' ++ s.
Proof.
  induction q as [| c q IH]; intros g u' s E Q St; [exists g; auto |].
  cbn [forallb] in Q. apply andb_true_iff in Q. destruct Q as [C Q].
  destruct g as [| d g].
  - cbn [app] in E. rewrite <- E in St. cbn [stops] in St. congruence.
  - cbn [app] in E. injection E as <- E. destruct (IH _ _ _ E Q St) as (g' & -> & ->). exists g'. auto.
Qed.

Lemma gap_drop q : forall g, forallb blank q = true -> gap (q ++ g) -> gap g.
Proof.
  induction q as [| c q IH]; intros g Q G; [exact G |].
  cbn [forallb] in Q. apply andb_true_iff in Q. destruct Q as [C Q].
  inversion G; subst; try (discriminate C). apply IH; assumption.
Qed.

Lemma takew_stop f : forall w s, forallb f w = true -> stops f s -> takew f (w ++ s) = w /\ dropw f (w ++ s) = s.
Proof.
  induction w as [| c w IH]; intros s W St.
  - destruct s as [| d s]; [auto |]. cbn [app takew dropw]. cbn [stops] in St. rewrite St. auto.
  - cbn [forallb] in W. apply andb_true_iff in W. destruct W as [C W]. cbn [app takew dropw]. rewrite C.
    destruct (IH s W St) as [-> ->]. auto.
Qed.

Lemma gap_reads cfg : forall n g st s,
  List.length g < n -> gap_mode (smode st) -> kept st = [] -> gap g -> no_gap s ->
  exists st', reads cfg st (g ++ s) [] st' s /\ smode st' = smode st /\ kept st' = [] /\ frame st st' /\
    yyline st' = yyline st + newlines g.
Proof.
  induction n as [| n IH]; intros g st s L GM K G NG; [lia |].
  assert (GO : forall q b st1, g = q ++ b -> q <> [] -> gap b -> newlines g = newlines q + newlines b ->
    step cfg st (g ++ s) = (Go st1, b ++ s) -> smode st1 = smode st ->
    kept st1 = [] -> frame st st1 -> yyline st1 = yyline st + newlines q ->
    exists st', reads cfg st (g ++ s) [] st' s /\ smode st' = smode st /\ kept st' = [] /\ frame st st' /\
    yyline st' = yyline st + newlines g).
  { intros q b st1 E Q Gb NL ST M1 K1 F1 Y1.
    assert (Lb : List.length b < n).
    { apply (f_equal (@List.length ascii)) in E. rewrite app_length in E. destruct q; [contradiction |]. cbn [List.length] in *. lia. }
    rewrite <- M1 in GM.
    destruct (IH b st1 s Lb GM K1 Gb NG) as (st' & R & M' & K' & F' & Y').
    exists st'. split.
    - eapply rd_go; [| exact ST | exact R]. rewrite E. destruct q; [contradiction | discriminate].
    - split; [congruence |]. split; [exact K' |]. split; [eapply frame_trans; eassumption |]. lia. }
  assert (NLM : nl_at (smode st) = nl) by (destruct GM as [-> | [-> | ->]]; reflexivity).
  assert (TURN : forall c t, g = c :: t -> c = CR \/ c = LF -> gap t -> (forall v, t = LF :: v -> gap v) ->
    exists st', reads cfg st (g ++ s) [] st' s /\ smode st' = smode st /\ kept st' = [] /\ frame st st' /\
    yyline st' = yyline st + newlines g).
  { intros c t Eg C Gt Gv. destruct (turn_step cfg st c (t ++ s) NLM C) as (q & s' & st1 & E & S1 & Q & S2 & S3 & S4 & S5).
    assert (X : exists b, c :: t = q ++ b /\ s' = b ++ s /\ gap b).
    { destruct Q as [-> | [-> | [-> _]]]; cbn [app] in E; injection E as -> E.
      - exists t; auto.
      - destruct t as [| d t].
        + cbn [app] in E. subst s. exfalso. destruct NG as [N _]. apply N. do 4 right. left. reflexivity.
        + cbn [app] in E. injection E as -> E. exists t. repeat split; auto.
      - exists t; auto. }
    destruct X as (b & X & -> & Gb).
    assert (Q' : q = [LF] \/ q = [CR; LF] \/ q = [CR] /\ forall v, b <> LF :: v).
    { destruct Q as [Q | [Q | [Q H]]]; auto. right; right. split; [exact Q |]. intros v V. apply (H (v ++ s)). rewrite V. reflexivity. }
    assert (NQ : newlines q = 1) by (destruct Q as [-> | [-> | [-> _]]]; reflexivity).
    apply (GO q b st1); auto.
    - congruence.
    - destruct Q as [-> | [-> | [-> _]]]; discriminate.
    - rewrite Eg, X, NQ. apply turn_newlines. exact Q'.
    - rewrite Eg. exact S1.
    - lia. }
  destruct G as [| c t C Gt | t Gt | t Gt | w c t W1 W2 C Gt].
  - exists st. repeat split; [apply rd_none | exact K | cbn [newlines]; lia].
  - pose proof (proj1 (blank_in c) C) as Cb.
    destruct (blank_step cfg st c (t ++ s) GM Cb) as (q & u' & st1 & E & Qn & Qb & ST & (S1 & S2 & S3) & K1).
    assert (St : stops blank s).
    { destruct s as [| d s]; [exact I |]. destruct NG as [N _]. cbn [stops]. destruct (blank d) eqn:D; [exfalso | reflexivity].
      apply blank_in in D. apply N. destruct D as [<- | [<- | [<- | []]]]; cbn; auto. }
    change (c :: t ++ s) with ((c :: t) ++ s) in E. symmetry in E.
    destruct (run_within blank q (c :: t) u' s E Qb St) as (b & Eb & ->).
    destruct (not_in_nl blank q Qb eq_refl eq_refl) as [N1 N2].
    apply (GO q b st1); auto.
    + apply (gap_drop q); [exact Qb |]. rewrite <- Eb. apply g_blank; assumption.
    + rewrite Eb. apply newlines_app. apply not_cut_in. exact N1.
    + rewrite (newlines_none q) by assumption. lia.
  - apply (TURN CR t eq_refl); auto. intros v ->. inversion Gt; subst; [| assumption].
    exfalso. match goal with H : In LF blanks |- _ => destruct H as [X | [X | [X | []]]]; discriminate X end.
  - apply (TURN LF t eq_refl); auto. intros v ->. inversion Gt; subst; [| assumption].
    exfalso. match goal with H : In LF blanks |- _ => destruct H as [X | [X | [X | []]]]; discriminate X end.
  - assert (W : forallb in_line w = true).
    { apply forallb_forall. intros d D. unfold in_line, among. cbn [existsb].
      destruct (Ascii.eqb_spec d CR) as [-> | _]; [contradiction |]. destruct (Ascii.eqb_spec d LF) as [-> | _]; [contradiction | reflexivity]. }
    assert (Sc : stops in_line (c :: t ++ s)) by (destruct C as [-> | ->]; reflexivity).
    destruct (comment_step cfg st (w ++ c :: t ++ s) GM) as (st1 & ST & (S1 & S2 & S3) & K1).
    destruct (takew_stop in_line w (c :: t ++ s) W Sc) as [_ D]. rewrite D in ST.
    assert (N1 : ~ In CR (chars "--" ++ w)) by (intros [X | [X | X]]; [discriminate X | discriminate X | contradiction]).
    assert (N2 : ~ In LF (chars "--" ++ w)) by (intros [X | [X | X]]; [discriminate X | discriminate X | contradiction]).
    apply (GO (chars "--" ++ w) (c :: t) st1); auto.
    + discriminate.
    + rewrite app_assoc. apply newlines_app. apply not_cut_in. exact N1.
    + rewrite <- app_assoc. cbn [chars app] in *. rewrite <- app_assoc. exact ST.
    + rewrite (newlines_none _ N1 N2). lia.
Qed.

(** ** Words *)
Definition upper_ (c : ascii) : bool := under c || between "A" "Z" c.
Definition first_ (c : ascii) : bool := under c || letter c.
Definition word_ (c : ascii) : bool := under c || letter c || digit c.

Definition inb (l : text) (c : ascii) : bool := existsb (Ascii.eqb c) l.
Lemma inb_spec l c : inb l c = true <-> In c l.
Proof.
  unfold inb. rewrite existsb_exists. split.
  - intros (d & J & E). apply Ascii.eqb_eq in E. subst d. exact J.
  - intro J. exists c. split; [exact J | apply Ascii.eqb_refl].
Qed.

Lemma same_class (f : ascii -> bool) l : forallb (fun c => Bool.eqb (inb l c) (f c)) all_chars = true ->
  forall c, In c l <-> f c = true.
Proof.
  intros H c. pose proof (for_chars _ H c) as E. apply Bool.eqb_prop in E. rewrite <- inb_spec, E. reflexivity.
Qed.
Lemma upper_in c : In c UPPER <-> upper_ c = true.
Proof. apply same_class. vm_compute. reflexivity. Qed.
Lemma first_in c : In c (UPPER ++ LOWER) <-> first_ c = true.
Proof. apply same_class. vm_compute. reflexivity. Qed.
Lemma word_in c : In c (UPPER ++ LOWER ++ DIGITS) <-> word_ c = true.
Proof. apply same_class. vm_compute. reflexivity. Qed.
Lemma digit_in c : In c DIGITS <-> digit c = true.
Proof. apply same_class. vm_compute. reflexivity. Qed.

Lemma over_stops l f s : (forall c, In c l <-> f c = true) -> over l s -> stops f s.
Proof. intros H O. destruct s as [| c s]; [exact I |]. cbn [stops over] in *. destruct (f c) eqn:E; [exfalso; apply O, H, E | reflexivity]. Qed.

Definition word_places (c : ascii) : list nat :=
  if upper_ c then [60; 61; 64] else if Ascii.eqb c "c" then [24; 61; 64]
  else if Ascii.eqb c "t" then [22; 23; 61; 64] else [61; 64].

Definition nats_eqb (a b : list nat) : bool := if list_eq_dec Nat.eq_dec a b then true else false.
Lemma nats_eqb_eq a b : nats_eqb a b = true -> a = b.
Proof. unfold nats_eqb. destruct (list_eq_dec Nat.eq_dec a b); [auto | discriminate]. Qed.

Lemma word_places_ok c : first_ c = true -> places INITIAL c = word_places c.
Proof.
  intro F. assert (H : (negb (first_ c) || nats_eqb (places INITIAL c) (word_places c)) = true).
  { revert c F. intros c _. revert c. apply for_chars. vm_compute. reflexivity. }
  apply orb_true_iff in H. destruct H as [H | H]; [rewrite F in H; discriminate H |]. exact (nats_eqb_eq _ _ H).
Qed.

Lemma m_ident c u s : first_ c = true -> forallb word_ u = true -> stops word_ s ->
  matched (nth 61 (rules INITIAL) no_rule) (c :: u ++ s) = Some (S (List.length u), S (List.length u)).
Proof.
  intros F U St. rewrite m_plain by reflexivity. cbn [nth rules initial_rules valued r0 pat].
  rewrite longest_cons. cbn [deriv nullable]. change (under c || letter c) with (first_ c). rewrite F. cbn [seq].
  rewrite (longest_star_cls word_) by assumption. reflexivity.
Qed.

Lemma m_upper c t : upper_ c = true ->
  matched (nth 60 (rules INITIAL) no_rule) (c :: t) = Some (S (List.length (takew upper_ t)), S (List.length (takew upper_ t))).
Proof.
  intros F. rewrite m_plain by reflexivity. cbn [nth rules initial_rules valued r0 pat].
  unfold plus. rewrite longest_cons. cbn [deriv nullable]. change (under c || between "A" "Z" c) with (upper_ c). rewrite F. cbn [seq].
  rewrite (take_drop upper_ t) at 1. rewrite (longest_star_cls upper_); [reflexivity | apply takew_all | apply dropw_stops].
Qed.

Lemma m_dot c t : c <> LF -> matched (nth 64 (rules INITIAL) no_rule) (c :: t) = Some (1, 1).
Proof. intro N. rewrite m_plain by reflexivity. cbn [nth rules initial_rules r0 pat]. rewrite longest_dot by exact N. reflexivity. Qed.

Lemma upper_word c : upper_ c = true -> word_ c = true.
Proof. unfold upper_, word_, letter. intro H. apply orb_true_iff in H. destruct H as [-> | ->]; [reflexivity |]. rewrite !orb_true_r. reflexivity. Qed.

Lemma takew_upper u : forall s, forallb word_ u = true -> stops word_ s ->
  (forallb upper_ u = true /\ takew upper_ (u ++ s) = u) \/
  (forallb upper_ u = false /\ List.length (takew upper_ (u ++ s)) < List.length u).
Proof.
  induction u as [| c u IH]; intros s U St.
  - left. split; [reflexivity |]. destruct s as [| d s]; [reflexivity |]. cbn [app takew stops] in *.
    destruct (upper_ d) eqn:D; [rewrite (upper_word d D) in St; discriminate | reflexivity].
  - cbn [forallb] in *. apply andb_true_iff in U. destruct U as [C U]. cbn [app takew].
    destruct (upper_ c) eqn:D; cbn [andb].
    + destruct (IH s U St) as [[A B] | [A B]]; [left | right]; (split; [exact A |]).
      * rewrite B. reflexivity.
      * cbn [List.length]. lia.
    + right. split; [reflexivity | cbn [List.length]; lia].
Qed.

Lemma m_lit i l s : pat (nth i (rules INITIAL) no_rule) = lit l -> trail (nth i (rules INITIAL) no_rule) = None ->
  matched (nth i (rules INITIAL) no_rule) s = if prefix (chars l) s then Some (List.length (chars l), List.length (chars l)) else None.
Proof.
  intros P T. rewrite m_plain, P by exact T. unfold lit. rewrite longest_lit_. destruct (prefix (chars l) s); reflexivity.
Qed.


Lemma best_word c u s :
  first_ c = true -> forallb word_ u = true -> stops word_ s ->
  ~ (c :: u = chars "try" /\ (prefix (chars "/recover") s = true \/ prefix (chars "/rollback") s = true)) ->
  best (rules INITIAL) (c :: u ++ s) =
  Some (nth (if forallb upper_ (c :: u) then 60 else if text_dec (c :: u) (chars "catch") then 24 else 61) (rules INITIAL) no_rule,
        S (List.length u), S (List.length u)).
Proof.
  intros F U St NT. rewrite (best_nth INITIAL c (u ++ s) _ (word_places_ok c F)).
  assert (NL : c <> LF) by (intros ->; discriminate F).
  pose proof (m_ident c u s F U St) as MI. pose proof (m_dot c (u ++ s) NL) as MD.
  assert (W : forallb word_ (c :: u) = true).
  { cbn [forallb]. rewrite U. unfold word_. change (under c || letter c) with (first_ c). rewrite F. reflexivity. }
  assert (BI : best (map (fun i => nth i (rules INITIAL) no_rule) [61; 64]) (c :: u ++ s) =
    Some (nth 61 (rules INITIAL) no_rule, S (List.length u), S (List.length u))).
  { cbn [map best]. rewrite MI, MD. reflexivity. }
  unfold word_places. cbn [forallb].
  destruct (upper_ c) eqn:UC; cbn [andb].
  - change (map (fun i => nth i (rules INITIAL) no_rule) [60; 61; 64]) with
      (nth 60 (rules INITIAL) no_rule :: map (fun i => nth i (rules INITIAL) no_rule) [61; 64]).
    cbn [best]. fold (best (map (fun i => nth i (rules INITIAL) no_rule) [61; 64])). rewrite BI, (m_upper c (u ++ s) UC).
    destruct (takew_upper u s U St) as [[A B] | [A B]]; rewrite A.
    + rewrite B, Nat.ltb_irrefl. reflexivity.
    + destruct (Nat.ltb_spec (S (List.length (takew upper_ (u ++ s)))) (S (List.length u))); [| lia].
      destruct (text_dec (c :: u) (chars "catch")) as [X | _]; [| reflexivity].
      injection X as -> _. discriminate UC.
  - destruct (Ascii.eqb_spec c "c") as [-> | NC].
    + change (map (fun i => nth i (rules INITIAL) no_rule) [24; 61; 64]) with
        (nth 24 (rules INITIAL) no_rule :: map (fun i => nth i (rules INITIAL) no_rule) [61; 64]).
      cbn [best]. fold (best (map (fun i => nth i (rules INITIAL) no_rule) [61; 64])). rewrite BI.
      rewrite (m_lit 24 "catch") by reflexivity.
      destruct (prefix (chars "catch") ("c"%char :: u ++ s)) eqn:P.
      * apply prefix_spec in P. destruct P as (x & P). symmetry in P.
        destruct (run_within word_ (chars "catch") ("c"%char :: u) x s P eq_refl St) as (g & G & _).
        assert (LN : List.length ("c"%char :: u) = 5 + List.length g) by (rewrite G, app_length; reflexivity).
        cbn [List.length] in LN.
        destruct g as [| d g].
        -- rewrite app_nil_r in G. destruct (text_dec ("c"%char :: u) (chars "catch")) as [_ | X]; [| contradiction].
           cbn [chars List.length] in *. destruct (Nat.ltb_spec 5 (S (List.length u))); [lia |].
           replace (S (List.length u)) with 5 by lia. reflexivity.
        -- destruct (text_dec ("c"%char :: u) (chars "catch")) as [X | _].
           { rewrite X in G. discriminate G. }
           cbn [chars List.length] in *. destruct (Nat.ltb_spec 5 (S (List.length u))); [reflexivity | lia].
      * destruct (text_dec ("c"%char :: u) (chars "catch")) as [X | _]; [exfalso | reflexivity].
        assert (prefix (chars "catch") ("c"%char :: u ++ s) = true); [| congruence].
        apply prefix_spec. exists s. change ("c"%char :: u ++ s) with (("c"%char :: u) ++ s). rewrite X. reflexivity.
    + assert (NX : forall X : c :: u = chars "catch", False) by (intro X; injection X as -> _; contradiction).
      destruct (text_dec (c :: u) (chars "catch")) as [X | _]; [destruct (NX X) |].
      destruct (Ascii.eqb_spec c "t") as [-> | NTc]; [| exact BI].
      assert (NP : forall tl, (tl = chars "/recover" \/ tl = chars "/rollback") -> prefix (chars "try" ++ tl) ("t"%char :: u ++ s) = false).
      { intros tl T. destruct (prefix (chars "try" ++ tl) ("t"%char :: u ++ s)) eqn:P; [exfalso | reflexivity].
        apply prefix_spec in P. destruct P as (x & P). symmetry in P. rewrite <- app_assoc in P.
        destruct (run_within word_ (chars "try") ("t"%char :: u) (tl ++ x) s P eq_refl St) as (g & G & Gx).
        assert (g = []) as ->.
        { destruct g as [| d g]; [reflexivity | exfalso]. rewrite G, forallb_app in W. apply andb_true_iff in W. destruct W as [_ W].
          destruct T as [-> | ->]; cbn [chars app] in Gx; injection Gx as <- _; discriminate W. }
        apply NT. rewrite app_nil_r in G. split; [exact G |]. cbn [app] in Gx.
        destruct T as [-> | ->]; [left | right]; apply prefix_spec; exists x; symmetry; exact Gx. }
      change (map (fun i => nth i (rules INITIAL) no_rule) [22; 23; 61; 64]) with
        (nth 22 (rules INITIAL) no_rule :: nth 23 (rules INITIAL) no_rule :: map (fun i => nth i (rules INITIAL) no_rule) [61; 64]).
      cbn [best]. fold (best (map (fun i => nth i (rules INITIAL) no_rule) [61; 64])).
      rewrite (m_lit 22 "try/recover"), (m_lit 23 "try/rollback") by reflexivity.
      rewrite (NP (chars "/recover") (or_introl eq_refl) : prefix (chars "try/recover") _ = false).
      rewrite (NP (chars "/rollback") (or_intror eq_refl) : prefix (chars "try/rollback") _ = false). exact BI.
Qed.

Lemma cstr_word w : (forall c, In c w -> c <> NUL) -> cstr w = w.
Proof. intro H. apply cstr_same. intro J. exact (H _ J eq_refl). Qed.

(** What is left of the state when a token without effects is given. *)
Lemma give_step cfg st q s r t v :
  best (rules (smode st)) (q ++ s) = Some (r, List.length q, List.length q) ->
  (forall s0, act r cfg s0 (kept st ++ q) = Give t v s0) ->
  exists st', step cfg st (q ++ s) = (Give t v st', s) /\ calm st st' /\ kept st' = [].
Proof.
  intros B A. eexists. rewrite (step_best _ _ _ _ _ _ B). destruct (split_step q s) as [-> ->]. rewrite A.
  split; [reflexivity |]. repeat split.
Qed.


Lemma upper_forallb w : forallb (fun c => if in_dec ascii_dec c UPPER then true else false) w = forallb upper_ w.
Proof.
  induction w as [| c w IH]; [reflexivity |]. cbn [forallb]. rewrite IH. f_equal.
  destruct (in_dec ascii_dec c UPPER) as [J | J].
  - apply upper_in in J. rewrite J. reflexivity.
  - destruct (upper_ c) eqn:U; [exfalso; apply J, upper_in, U | reflexivity].
Qed.

Lemma word_step cfg st w s :
  smode st = INITIAL -> kept st = [] -> is_word w -> over (UPPER ++ LOWER ++ DIGITS) s ->
  ~ (w = chars "try" /\ exists u, s = chars "/recover" ++ u \/ s = chars "/rollback" ++ u) ->
  exists st', step cfg st (w ++ s) = (Give (fst (word_token w)) (snd (word_token w)) st', s) /\ calm st st' /\ kept st' = [].
Proof.
  intros M K (c & u & -> & C & U) O NT.
  assert (F : first_ c = true) by (apply first_in; exact C).
  assert (W : forallb word_ u = true) by (apply forallb_forall; intros d D; apply word_in, U, D).
  pose proof (over_stops _ _ _ word_in O) as St.
  assert (NT' : ~ (c :: u = chars "try" /\ (prefix (chars "/recover") s = true \/ prefix (chars "/rollback") s = true))).
  { intros (X & Y). apply NT. split; [exact X |]. destruct Y as [Y | Y]; apply prefix_spec in Y; destruct Y as (x & Y); exists x; auto. }
  pose proof (best_word c u s F W St NT') as B.
  assert (CS : cstr (c :: u) = c :: u).
  { apply cstr_word. intros d [<- | D] E.
    - rewrite E in F. discriminate F.
    - rewrite forallb_forall in W. specialize (W d D). rewrite E in W. discriminate W. }
  unfold word_token. rewrite upper_forallb.
  destruct (forallb upper_ (c :: u)) eqn:UU; [| destruct (text_dec (c :: u) (chars "catch")) as [X | X]];
    (eapply (give_step cfg st (c :: u) s); [rewrite M; exact B |]); intro s0; rewrite K; cbn [app nth rules initial_rules valued word r0 act fst snd];
    [| reflexivity |]; unfold copy; rewrite CS; reflexivity.
Qed.

(** ** Numbers *)
Definition number_places (c : ascii) : list nat := if Ascii.eqb c "0" then [11; 62; 64] else [62; 64].
Lemma number_places_ok c : digit c = true -> places INITIAL c = number_places c.
Proof.
  intro F. assert (H : (negb (digit c) || nats_eqb (places INITIAL c) (number_places c)) = true).
  { revert c F. intros c _. revert c. apply for_chars. vm_compute. reflexivity. }
  apply orb_true_iff in H. destruct H as [H | H]; [rewrite F in H; discriminate H |]. exact (nats_eqb_eq _ _ H).
Qed.


Lemma number_step cfg st w s :
  smode st = INITIAL -> kept st = [] -> is_number w -> over DIGITS s ->
  exists st', step cfg st (w ++ s) = (Give (fst (number_token w)) (snd (number_token w)) st', s) /\ calm st st' /\ kept st' = [].
Proof.
  intros M K (NE & D) O. destruct w as [| c u]; [contradiction |].
  assert (W : forallb digit (c :: u) = true) by (apply forallb_forall; intros d J; apply digit_in, D, J).
  cbn [forallb] in W. apply andb_true_iff in W. destruct W as [C U].
  pose proof (over_stops _ _ _ digit_in O) as St.
  assert (NL : c <> LF) by (intros ->; discriminate C).
  assert (MN : matched (nth 62 (rules INITIAL) no_rule) (c :: u ++ s) = Some (S (List.length u), S (List.length u))).
  { rewrite m_plain by reflexivity. cbn [nth rules initial_rules valued r0 pat]. unfold plus.
    rewrite longest_cons. cbn [deriv nullable]. rewrite C. cbn [seq]. rewrite (longest_star_cls digit) by assumption. reflexivity. }
  assert (BI : best (map (fun i => nth i (rules INITIAL) no_rule) [62; 64]) (c :: u ++ s) =
    Some (nth 62 (rules INITIAL) no_rule, S (List.length u), S (List.length u))).
  { cbn [map best]. rewrite MN, (m_dot c (u ++ s) NL). reflexivity. }
  assert (B : best (rules INITIAL) ((c :: u) ++ s) =
    Some (nth (if text_dec (c :: u) (chars "0") then 11 else 62) (rules INITIAL) no_rule, S (List.length u), S (List.length u))).
  { cbn [app]. rewrite (best_nth INITIAL c (u ++ s) _ (number_places_ok c C)). unfold number_places.
    destruct (Ascii.eqb_spec c "0") as [-> | N].
    - change (map (fun i => nth i (rules INITIAL) no_rule) [11; 62; 64]) with
        (nth 11 (rules INITIAL) no_rule :: map (fun i => nth i (rules INITIAL) no_rule) [62; 64]).
      cbn [best]. fold (best (map (fun i => nth i (rules INITIAL) no_rule) [62; 64])). rewrite BI.
      rewrite (m_chr (nth 11 (rules INITIAL) no_rule) "0") by reflexivity.
      destruct u as [| d u]; cbn [List.length].
      + reflexivity.
      + destruct (text_dec ("0"%char :: d :: u) (chars "0")) as [X | _]; [discriminate X |]. reflexivity.
    - rewrite BI. destruct (text_dec (c :: u) (chars "0")) as [X | _]; [exfalso; injection X as X _; contradiction | reflexivity]. }
  assert (CS : cstr (c :: u) = c :: u).
  { apply cstr_word. intros d J E. assert (X : digit d = true) by (apply digit_in, D, J). rewrite E in X. discriminate X. }
  unfold number_token.
  destruct (text_dec (c :: u) (chars "0")) as [X | X];
    (eapply (give_step cfg st (c :: u) s); [rewrite M; exact B |]); intro s0; rewrite K; cbn [app nth rules initial_rules valued one r0 act fst snd];
    [reflexivity |]; unfold copy; rewrite CS; reflexivity.
Qed.

(** ** Strings *)
Lemma inner_string w : inner (QUOTE :: w ++ [QUOTE]) = w.
Proof.
  unfold inner. cbn [tl List.length]. rewrite app_length. cbn [List.length].
  replace (S (List.length w + 1) - 2) with (List.length w) by lia. apply split_step.
Qed.

Lemma string_step cfg st w s :
  (smode st = INITIAL \/ smode st = RULE_LEXER) -> kept st = [] -> string_body w ->
  exists st', step cfg st (QUOTE :: w ++ QUOTE :: s) = (Give (Tok "T_STRING") (cstr w) st', s) /\ calm st st' /\ kept st' = [].
Proof.
  intros M K SB.
  assert (E : QUOTE :: w ++ QUOTE :: s = (QUOTE :: w ++ [QUOTE]) ++ s) by (cbn [app]; rewrite <- app_assoc; reflexivity).
  set (r := r0 StringRe (fun (_ : config) s t => Give (Tok "T_STRING") (copy (inner t)) s)).
  assert (MS : matched r (QUOTE :: w ++ QUOTE :: s) = Some (List.length (QUOTE :: w ++ [QUOTE]), List.length (QUOTE :: w ++ [QUOTE]))).
  { rewrite m_plain by reflexivity. cbn [r r0 pat]. rewrite longest_string by exact SB. reflexivity. }
  assert (B : best (rules (smode st)) ((QUOTE :: w ++ [QUOTE]) ++ s) = Some (r, List.length (QUOTE :: w ++ [QUOTE]), List.length (QUOTE :: w ++ [QUOTE]))).
  { rewrite <- E. destruct M as [-> | ->].
    - rewrite (best_nth INITIAL _ _ [63; 64]) by (vm_compute; reflexivity). cbn [map best].
      change (nth 63 (rules INITIAL) no_rule) with r. rewrite MS, m_dot by discriminate. cbn [List.length]. reflexivity.
    - rewrite (best_nth RULE_LEXER _ _ [31]) by (vm_compute; reflexivity). cbn [map best].
      change (nth 31 (rules RULE_LEXER) no_rule) with r. rewrite MS. cbn [List.length]. reflexivity. }
  rewrite E. eapply give_step; [exact B |]. intro s0. rewrite K. cbn [app r r0 act].
  change (QUOTE :: w ++ [QUOTE]) with (QUOTE :: w ++ [QUOTE]). rewrite inner_string. reflexivity.
Qed.

(** ** Errors *)
Lemma dot_step cfg st c u :
  smode st = INITIAL -> best (rules INITIAL) (c :: u) = Some (nth 64 (rules INITIAL) no_rule, 1, 1) ->
  scan_from cfg st (c :: u) = LexError [] (yyline st) (List.length (line_of st)).
Proof.
  intros M B. rewrite scan_from_step by discriminate. rewrite (step_best cfg st (c :: u) (nth 64 (rules INITIAL) no_rule) 1 1); [reflexivity |]. rewrite M. exact B.
Qed.

Lemma open_string_error cfg st w s :
  smode st = INITIAL -> ~ In QUOTE w -> (s = [] \/ exists c t, s = c :: t /\ (c = CR \/ c = LF)) ->
  scan_from cfg st (QUOTE :: w ++ s) = LexError [] (yyline st) (List.length (line_of st)).
Proof.
  intros M N T. apply dot_step; [exact M |].
  rewrite (best_nth INITIAL _ _ [63; 64]) by (vm_compute; reflexivity). cbn [map best].
  rewrite (m_plain (nth 63 (rules INITIAL) no_rule)) by reflexivity.
  change (pat (nth 63 (rules INITIAL) no_rule)) with StringRe. rewrite longest_no_string by assumption.
  rewrite m_dot by discriminate. reflexivity.
Qed.

Definition meaning (c : ascii) : bool :=
  word_ c || inb (chars ";(){},#.:=+*?@|&[%-" ++ [QUOTE; SP; FF; TAB; CR; LF]) c.
Lemma meaningless_spec c : meaningless c <-> meaning c = false.
Proof.
  unfold meaningless. rewrite (same_class meaning) by (vm_compute; reflexivity). destruct (meaning c); intuition congruence.
Qed.
Lemma meaningless_places c : meaning c = false -> places INITIAL c = [64].
Proof.
  intro F. assert (H : (meaning c || nats_eqb (places INITIAL c) [64]) = true).
  { revert c F. intros c _. revert c. apply for_chars. vm_compute. reflexivity. }
  apply orb_true_iff in H. destruct H as [H | H]; [rewrite F in H; discriminate H |]. exact (nats_eqb_eq _ _ H).
Qed.

Lemma meaningless_error cfg st c u :
  smode st = INITIAL -> meaningless c ->
  scan_from cfg st (c :: u) = LexError [] (yyline st) (List.length (line_of st)).
Proof.
  intros M N. apply meaningless_spec in N. apply dot_step; [exact M |].
  rewrite (best_nth INITIAL _ _ [64]) by (apply meaningless_places; exact N). cbn [map best].
  rewrite m_dot; [reflexivity |]. intros ->. discriminate N.
Qed.

(** ** Keywords *)
Definition after_keyword (k : string) (s : scanner) : scanner :=
  if String.eqb k "%parserclass" || String.eqb k "%lexerclass" then begin PARSERCLASS s
  else if String.eqb k "%<" then place RuleBody s
  else if String.eqb k "%>" then place RuleFooter s
  else if String.eqb k "%lexer" then place RuleLexer s else s.

Definition keyword_rule (r : rule) (kn : string * string) : Prop :=
  pat r = lit (fst kn) /\ trail r = None /\
  forall cfg s t, act r cfg s t = Give (Tok (snd kn)) [] (after_keyword (fst kn) s).

Definition keyword_places : list nat := List.seq 25 33.

Lemma keyword_rules : Forall2 (fun i kn => keyword_rule (nth i (rules INITIAL) no_rule) kn) keyword_places keywords.
Proof. repeat (constructor; [repeat split |]). constructor. Qed.

Lemma percent_places : places INITIAL "%"%char = keyword_places ++ [64].
Proof. vm_compute. reflexivity. Qed.

Lemma Forall2_in {A B} (P : A -> B -> Prop) l m : Forall2 P l m ->
  (forall a, In a l -> exists b, In b m /\ P a b) /\ (forall b, In b m -> exists a, In a l /\ P a b).
Proof.
  induction 1 as [| a b l m H _ [IH1 IH2]]; [split; intros ? [] |]. split.
  - intros x [<- | J]; [exists b; split; [left; reflexivity | exact H] |]. destruct (IH1 x J) as (y & Y & Q). exists y. split; [right; exact Y | exact Q].
  - intros x [<- | J]; [exists a; split; [left; reflexivity | exact H] |]. destruct (IH2 x J) as (y & Y & Q). exists y. split; [right; exact Y | exact Q].
Qed.

Lemma chars_inj a : forall b, chars a = chars b -> a = b.
Proof.
  induction a as [| c a IH]; intros [| d b] E; try discriminate E; [reflexivity |].
  cbn [chars] in E. injection E as -> E. f_equal. apply IH, E.
Qed.

Lemma keyword_tokens k n n' : In (k, n) keywords -> In (k, n') keywords -> n = n'.
Proof.
  assert (H : forallb (fun a => forallb (fun b => negb (String.eqb (fst a) (fst b)) || String.eqb (snd a) (snd b)) keywords) keywords = true)
    by (vm_compute; reflexivity).
  intros A B. rewrite forallb_forall in H. specialize (H _ A). rewrite forallb_forall in H. specialize (H _ B).
  cbn [fst snd] in H. rewrite String.eqb_refl in H. apply String.eqb_eq. exact H.
Qed.

Lemma keyword_head k n : In (k, n) keywords -> exists k', chars k = "%"%char :: k' /\ k' <> [].
Proof.
  intro J. assert (H : forallb (fun a => match chars (fst a) with c :: _ :: _ => Ascii.eqb c "%" | _ => false end) keywords = true)
    by (vm_compute; reflexivity).
  rewrite forallb_forall in H. specialize (H _ J). cbn [fst] in H. destruct (chars k) as [| c [| d t]]; try discriminate H.
  apply Ascii.eqb_eq in H. subst c. exists (d :: t). split; [reflexivity | discriminate].
Qed.

Lemma best_none_all l s : best l s = None -> forall r n h, In r l -> matched r s = Some (S n, h) -> False.
Proof.
  induction l as [| a l IH]; [intros _ ? ? ? [] |]. cbn [best]. intros B r n h [-> | J] M.
  - rewrite M in B. destruct (best l s) as [[[? ?] ?] |]; [destruct (Nat.ltb _ _) |]; discriminate B.
  - apply (IH) with (r := r) (n := n) (h := h); auto.
    destruct (matched a s) as [[[| m] k] |]; auto.
    destruct (best l s) as [[[? ?] ?] |]; [destruct (Nat.ltb _ _) |]; discriminate B.
Qed.

Lemma keyword_step cfg st k n s :
  smode st = INITIAL -> In (k, n) keywords -> keyword_at k (chars k ++ s) ->
  exists st0, step cfg st (chars k ++ s) = (Give (Tok n) [] (after_keyword k st0), s) /\ calm st st0 /\ kept st0 = [].
Proof.
  intros M J (_ & LG). destruct (keyword_head k n J) as (k' & Ek & NE).
  set (t := chars k ++ s) in *.
  assert (ML : forall r kn, keyword_rule r kn -> matched r t = if prefix (chars (fst kn)) t then Some (List.length (chars (fst kn)), List.length (chars (fst kn))) else None).
  { intros r kn (P & T & _). rewrite m_plain, P by exact T. unfold lit. rewrite longest_lit_. destruct (prefix (chars (fst kn)) t); reflexivity. }
  destruct (Forall2_in _ _ _ keyword_rules) as [F1 F2].
  set (L := map (fun i => nth i (rules INITIAL) no_rule) (keyword_places ++ [64])).
  assert (B : best (rules INITIAL) t = best L t).
  { unfold t. rewrite Ek. cbn [app]. apply best_nth. apply percent_places. }
  destruct (F2 (k, n) J) as (i & I & KR).
  assert (MK : matched (nth i (rules INITIAL) no_rule) t = Some (List.length (chars k), List.length (chars k))).
  { rewrite (ML _ _ KR). cbn [fst]. assert (P : prefix (chars k) t = true) by (apply prefix_spec; exists s; reflexivity). rewrite P. reflexivity. }
  assert (IL : In (nth i (rules INITIAL) no_rule) L) by (apply (in_map (fun i => nth i (rules INITIAL) no_rule)), in_or_app; left; exact I).
  assert (LK : exists m, List.length (chars k) = S (S m)).
  { rewrite Ek. destruct k' as [| d k']; [contradiction |]. cbn [List.length]. eauto. }
  destruct LK as (m & LK).
  destruct (best L t) as [[[r n1] h1] |] eqn:BL.
  2: { exfalso. rewrite LK in MK. exact (best_none_all L t BL _ _ _ IL MK). }
  destruct (best_some _ _ _ _ _ BL) as (_ & MR & l1 & l2 & EL & Q1 & Q2).
  assert (GE : S (S m) <= n1).
  { rewrite <- LK. rewrite EL in IL. apply in_app_or in IL. destruct IL as [X | [X | X]].
    - specialize (Q1 _ _ _ X MK). lia.
    - rewrite X in MR. rewrite MK in MR. injection MR as <- <-. lia.
    - exact (Q2 _ _ _ X MK). }
  assert (RL : In r L) by (rewrite EL; apply in_elt).
  unfold L in RL. rewrite map_app in RL. apply in_app_or in RL. destruct RL as [RL | RL].
  2: { exfalso. cbn [map] in RL. destruct RL as [<- | []]. unfold t in MR. rewrite Ek in MR. cbn [app] in MR. rewrite m_dot in MR by discriminate.
       injection MR as <- <-. lia. }
  apply in_map_iff in RL. destruct RL as (j & <- & Jn). destruct (F1 j Jn) as ((k2, n2) & J2 & KR2).
  rewrite (ML _ _ KR2) in MR. cbn [fst] in MR. destruct (prefix (chars k2) t) eqn:P2; [| discriminate MR].
  injection MR as <- <-. apply prefix_spec in P2. destruct P2 as (s2 & P2).
  pose proof (LG k2 n2 s2 J2 P2) as LE.
  assert (EQ : chars k2 = chars k).
  { assert (LL : List.length (chars k2) = List.length (chars k)) by lia. unfold t in P2.
    apply (f_equal (firstn (List.length (chars k)))) in P2.
    destruct (split_step (chars k) s) as [X _]. rewrite X in P2. rewrite <- LL in P2. destruct (split_step (chars k2) s2) as [Y _]. rewrite Y in P2.
    symmetry. exact P2. }
  apply chars_inj in EQ. subst k2. assert (n2 = n) as -> by (exact (keyword_tokens _ _ _ J2 J)).
  assert (B' : best (rules (smode st)) t = Some (nth j (rules INITIAL) no_rule, List.length (chars k), List.length (chars k))) by (rewrite M; exact B).
  rewrite (step_best cfg _ _ _ _ _ B'). unfold t. destruct (split_step (chars k) s) as [-> ->].
  destruct KR2 as (_ & _ & A). rewrite A. cbn [snd fst]. eexists. split; [reflexivity |]. repeat split.
Qed.

(** ** The bytes of the file *)
Lemma readable_all s : ~ In "255"%char s -> readable s = s.
Proof.
  induction s as [| c s IH]; intro N; [reflexivity |]. cbn [readable].
  destruct (Ascii.eqb_spec c "255") as [-> | _]; [exfalso; apply N; left; reflexivity |].
  f_equal. apply IH. intro; apply N; right; assumption.
Qed.
Lemma readable_cut p q : ~ In "255"%char p -> readable (p ++ "255"%char :: q) = p.
Proof.
  induction p as [| c p IH]; intro N; [reflexivity |]. cbn [app readable].
  destruct (Ascii.eqb_spec c "255") as [-> | _]; [exfalso; apply N; left; reflexivity |].
  f_equal. apply IH. intro; apply N; right; assumption.
Qed.

(** ** Places *)
Lemma reads_line cfg p s l st :
  reads cfg start (p ++ s) l st s -> no_lone_cr (p ++ s) -> yyline st = 1 + newlines p.
Proof.
  intros R NC. destruct start_inv as (LK & _ & _ & _ & Y).
  destruct (steps_lines _ _ _ _ _ (reads_steps _ _ _ _ _ _ R) LK NC) as (q & E & _ & Yq).
  apply app_inv_tail in E. subst q. rewrite Yq, Y. reflexivity.
Qed.

Lemma reads_column cfg p s l st :
  reads cfg start (p ++ s) l st s -> echoed st = [] -> no_lexer (p ++ s) -> ~ In NUL (p ++ s) ->
  line_of st = last_line p.
Proof.
  intros R EC NL NN. destruct start_inv as (_ & MI & NX & L0 & _).
  destruct (steps_columns _ _ _ _ _ (reads_steps _ _ _ _ _ _ R) EC NL NX MI NN) as (q & E & L & _).
  apply app_inv_tail in E. subst q. rewrite L, L0. reflexivity.
Qed.

Lemma last_line_length a : forall x y, List.length x = List.length y ->
  List.length (last_line_from x a) = List.length (last_line_from y a).
Proof.
  induction a as [| c a IH]; intros x y E; [exact E |]. cbn [last_line_from].
  destruct (Ascii.eqb c LF || Ascii.eqb c CR); apply IH; [reflexivity |]. rewrite !app_length, E. reflexivity.
Qed.

Lemma spaces_no n c : c <> SP -> ~ In c (repeat SP n).
Proof. intros N J. apply repeat_spec in J. contradiction. Qed.

Lemma block_places p a :
  directed (1 + newlines p) (repeat SP (List.length (last_line p) + 2) ++ a) = place_after (p ++ OPEN ++ a).
Proof.
  unfold directed, place_after. set (n := List.length (last_line p) + 2).
  assert (N1 : ~ In CR (repeat SP n)) by (apply spaces_no; discriminate).
  assert (N2 : ~ In LF (repeat SP n)) by (apply spaces_no; discriminate).
  f_equal.
  - rewrite newlines_app by (apply not_cut_in; exact N1). rewrite (newlines_none _ N1 N2).
    rewrite newlines_app by (intros (x & y & _ & Y); discriminate Y).
    change (newlines (OPEN ++ a)) with (newlines a). lia.
  - rewrite !last_line_app. rewrite last_line_from_app. apply last_line_length. unfold last_line.
    rewrite last_line_none by assumption.
    assert (M1 : ~ In CR OPEN) by (intros [X | [X | []]]; discriminate X).
    assert (M2 : ~ In LF OPEN) by (intros [X | [X | []]]; discriminate X).
    rewrite (last_line_none OPEN) by assumption. rewrite !app_length, repeat_length. reflexivity.
Qed.

Lemma block_value cfg st n c body : lines cfg <> BeautifulCode -> ~ In NUL body ->
  copy_code cfg (code_starts n c st) body = [LF] ++ directive cfg n ++ [LF] ++ repeat SP c ++ body.
Proof.
  intros B N. unfold copy_code, directive, decimal. cbn [code_starts code_line code_col]. rewrite (cstr_same body N).
  destruct (lines cfg); [contradiction | |]; cbn [app chars]; rewrite <- !app_assoc; cbn [app chars]; rewrite <- ?app_assoc; cbn [app chars]; reflexivity.
Qed.
