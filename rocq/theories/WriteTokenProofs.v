(** Proofs: single tokens are scanned as they are written, outside of lexer rules. *)
From Coq Require Import List Ascii String Bool PeanoNat ZArith Lia.
From Verif Require Import FlexModel FlexSpec FlexProofs ScanModel ScanSpec ScanProofs ScanPlaceProofs
  ScanCodeProofs ScanTextProofs ScanWordProofs WriteSpec.
Import ListNotations.

(** ** Matches that do not depend on what follows *)
Fixpoint settled (r : re) (w : text) : option (option nat) :=
  match r with
  | RNone => Some None
  | REps => Some (Some 0)
  | _ =>
    match w with
    | [] => None
    | c :: t =>
      match settled (deriv c r) t with
      | Some (Some n) => Some (Some (S n))
      | Some None => Some (if nullable r then Some 0 else None)
      | None => None
      end
    end
  end.

Lemma settled_ok : forall w r s x, settled r w = Some x -> longest r (w ++ s) = x.
Proof.
  induction w as [| c w IH]; intros r s x H.
  - destruct r; try discriminate H; cbn [settled] in H; injection H as <-; [apply longest_none | apply longest_eps].
  - assert (G : forall r', settled (deriv c r') w = settled (deriv c r') w -> match settled (deriv c r') w with
      | Some (Some n) => Some (Some (S n)) | Some None => Some (if nullable r' then Some 0 else None) | None => None end = Some x ->
      longest r' ((c :: w) ++ s) = x).
    { intros r' _ E. cbn [app]. rewrite longest_cons. destruct (settled (deriv c r') w) as [y |] eqn:D; [| discriminate E].
      rewrite (IH _ _ _ D). destruct y as [n |]; injection E as <-; reflexivity. }
    destruct r; try (apply G; [reflexivity | exact H]); cbn [settled] in H; injection H as <-; [apply longest_none | apply longest_eps].
Qed.

Fixpoint settled_best (l : list rule) (i : nat) (w : text) : option (option (nat * nat)) :=
  match l with
  | [] => Some None
  | r :: l' =>
    match trail r, settled (pat r) w, settled_best l' (S i) w with
    | None, Some (Some (S n)), Some (Some (j, m)) => Some (Some (if Nat.ltb (S n) m then (j, m) else (i, S n)))
    | None, Some (Some (S n)), Some None => Some (Some (i, S n))
    | None, Some _, Some x => Some x
    | _, _, _ => None
    end
  end.

Lemma settled_best_ok w s l : forall i x, settled_best l i w = Some x ->
  match x with
  | Some (j, m) => exists r, i <= j /\ nth_error l (j - i) = Some r /\ best l (w ++ s) = Some (r, m, m)
  | None => best l (w ++ s) = None
  end.
Proof.
  induction l as [| r l IH]; intros i x H; [injection H as <-; reflexivity |].
  cbn [settled_best] in H. destruct (trail r) eqn:T; [discriminate H |].
  destruct (settled (pat r) w) as [y |] eqn:P; [| discriminate H].
  destruct (settled_best l (S i) w) as [z |] eqn:B; [| destruct y as [[|]|]; discriminate H].
  specialize (IH _ _ B). cbn [best]. rewrite m_plain by exact T. rewrite (settled_ok _ _ s _ P).
  assert (SAME : Some z = Some x -> match x with
    | Some (j, m) => exists r', i <= j /\ nth_error (r :: l) (j - i) = Some r' /\ best l (w ++ s) = Some (r', m, m)
    | None => best l (w ++ s) = None end).
  { intro E. injection E as <-. destruct z as [[j m] |]; [| exact IH]. destruct IH as (r' & L & N & Q).
    exists r'. split; [lia |]. split; [| exact Q]. replace (j - i) with (S (j - S i)) by lia. exact N. }
  destruct y as [[| n] |]; [apply SAME; exact H | | apply SAME; exact H].
  destruct z as [[j m] |]; injection H as <-.
  - destruct IH as (r' & L & N & Q). rewrite Q. destruct (Nat.ltb (S n) m).
    + exists r'. split; [lia |]. split; [| reflexivity]. replace (j - i) with (S (j - S i)) by lia. exact N.
    + exists r. rewrite Nat.sub_diag. auto.
  - rewrite IH. exists r. rewrite Nat.sub_diag. auto.
Qed.

(** The rules that can match at all. *)
Definition fixed (m : mode) (w : text) : option (nat * nat) :=
  match w with
  | [] => None
  | c :: _ =>
    match settled_best (map (fun i => nth i (rules m) no_rule) (places m c)) 0 w with
    | Some (Some (j, n)) => Some (nth j (places m c) 0, n)
    | _ => None
    end
  end.
Lemma fixed_ok m w s i : fixed m w = Some (i, List.length w) ->
  best (rules m) (w ++ s) = Some (nth i (rules m) no_rule, List.length w, List.length w).
Proof.
  destruct w as [| c w]; [discriminate |]. cbn [fixed]. remember (settled_best _ 0 (c :: w)) as z eqn:E. symmetry in E. intro H.
  destruct z as [[[j n] |] |]; try discriminate H. injection H as <- ->.
  apply (settled_best_ok _ s) in E. destruct E as (r & _ & N & B). cbn [app]. rewrite best_places. cbn [app] in B. rewrite B.
  rewrite Nat.sub_0_r in N. rewrite nth_error_map in N. destruct (nth_error (places m c) j) as [i |] eqn:P; [| discriminate N].
  injection N as <-. rewrite (nth_error_nth _ _ 0 P). reflexivity.
Qed.

(** ** One token *)
Definition at_context (q : context) (st : scanner) : Prop := smode st = fst q /\ pos st = snd q /\ kept st = [].
Definition given_by cfg (q : context) (x : token * text) (w s : text) (q' : context) : Prop :=
  forall st, at_context q st -> exists st' n, reads cfg st (w ++ s) [Lexeme (fst x) (snd x) n] st' s /\ at_context q' st'.

(** A rule that gives a token whatever the state. *)
Lemma given_step cfg q x w s q' r :
  w <> [] -> best (rules (fst q)) (w ++ s) = Some (r, List.length w, List.length w) ->
  (forall st0, smode st0 = fst q -> pos st0 = snd q -> kept st0 = [] ->
     exists st', act r cfg st0 w = Give (fst x) (snd x) st' /\ smode st' = fst q' /\ pos st' = snd q' /\ kept st' = []) ->
  given_by cfg q x w s q'.
Proof.
  intros NE B A st (M & P & K). rewrite <- M in B. pose proof (step_best cfg _ _ _ _ _ B) as ST.
  destruct (split_step w s) as [E1 E2]. rewrite K, E1, E2 in ST. cbn [app] in ST.
  destruct (A (append_line w (unkept st))) as (st' & E & M' & P' & K'); [exact M | exact P | reflexivity |].
  rewrite E in ST. exists st', (yyline st'). split; [| repeat split; assumption].
  eapply rd_give; [| exact ST | apply rd_none]. destruct w; [contradiction | discriminate].
Qed.

Ltac fixed_token i :=
  eapply given_step; [discriminate | apply (fixed_ok _ _ _ i); vm_compute; reflexivity |];
  intros st0 M P K; eexists; split; [reflexivity |]; repeat split; assumption.

Lemma given_char cfg p c s : In c (chars "(){},#:=+*?@|&") -> given_by cfg (INITIAL, p) (Chr c, []) [c] s (INITIAL, p).
Proof.
  intro J. cbn [chars In] in J.
  destruct J as [<- | [<- | [<- | [<- | [<- | [<- | [<- | [<- | [<- | [<- | [<- | [<- | [<- | [<- | []]]]]]]]]]]]]]];
  [fixed_token 6 | fixed_token 7 | fixed_token 8 | fixed_token 9 | fixed_token 10 | fixed_token 12 | fixed_token 14 | fixed_token 15
  | fixed_token 16 | fixed_token 17 | fixed_token 18 | fixed_token 19 | fixed_token 20 | fixed_token 21].
Qed.

Lemma given_arrow cfg p s : p <> RuleLexer -> given_by cfg (INITIAL, p) (Tok "T_ARROW", []) (chars "->") s (INITIAL, RuleFooter).
Proof.
  intro NP. eapply given_step; [discriminate | apply (fixed_ok _ _ _ 4); vm_compute; reflexivity |].
  intros st0 M P K. cbn [fst snd] in *. eexists. split.
  - cbn [rules initial_rules nth r0 act]. rewrite P. destruct p; [reflexivity | reflexivity | contradiction].
  - destruct p; repeat split; assumption || contradiction.
Qed.

Lemma given_inline cfg p s : given_by cfg (INITIAL, p) (Tok "T_INLINE", []) (chars ".=") s (INITIAL, p).
Proof. fixed_token 5. Qed.
Lemma given_recover cfg p s : given_by cfg (INITIAL, p) (Tok "T_TRY_RECOVER", []) (chars "try/recover") s (INITIAL, p).
Proof. fixed_token 22. Qed.
Lemma given_rollback cfg p s : given_by cfg (INITIAL, p) (Tok "T_TRY_ROLLBACK", []) (chars "try/rollback") s (INITIAL, p).
Proof. fixed_token 23. Qed.

Lemma stop_char c s : over [c] s -> stops (is c) s.
Proof.
  destruct s as [| d s]; [exact (fun _ => I) |]. cbn [over stops]. intro N. unfold is.
  destruct (Ascii.eqb_spec c d) as [-> | _]; [| reflexivity]. exfalso. apply N. left. reflexivity.
Qed.
Lemma repeat_is c n : forallb (is c) (repeat c n) = true.
Proof. induction n; [reflexivity |]. cbn [repeat forallb]. unfold is at 1. rewrite Ascii.eqb_refl. assumption. Qed.

(** A character and more of it. *)
Lemma longest_plus_run c n s : over [c] s -> longest (plus (chr c)) (repeat c (S n) ++ s) = Some (S n).
Proof.
  intro O. unfold plus. cbn [repeat app]. rewrite longest_cons. cbn [deriv nullable chr]. unfold is at 1. rewrite Ascii.eqb_refl.
  cbn [seq]. unfold chr. rewrite longest_star_cls; [rewrite repeat_length; reflexivity | apply repeat_is | apply stop_char; exact O].
Qed.

Lemma given_semicolon cfg p n s : over (chars ";") s ->
  given_by cfg (INITIAL, p) (Chr ";", []) (repeat ";"%char (S n)) s (INITIAL, RuleBody).
Proof.
  intro O. eapply (given_step _ _ _ _ _ _ (nth 3 (rules INITIAL) no_rule)); [discriminate | |].
  - cbn [fst]. rewrite repeat_length. cbn [repeat app].
    rewrite (best_nth INITIAL ";"%char _ [3; 64]) by (vm_compute; reflexivity). cbn [map best].
    rewrite m_dot by discriminate. rewrite m_plain by reflexivity.
    change (pat (nth 3 (rules INITIAL) no_rule)) with (plus (chr ";")).
    change (";"%char :: repeat ";"%char n ++ s) with (repeat ";"%char (S n) ++ s). rewrite longest_plus_run by exact O.
    reflexivity.
  - intros st0 M P K. eexists. split; [reflexivity |]. repeat split; assumption.
Qed.

Lemma given_open cfg s : over [COLON] s ->
  given_by cfg (INITIAL, RuleFooter) (Chr "[", []) (chars "[") s (RULE_PARAMETERS_HEADER, RuleFooter).
Proof.
  intro O. eapply (given_step _ _ _ _ _ _ (nth 58 (rules INITIAL) no_rule)); [discriminate | |].
  - cbn [fst chars app List.length]. destruct s as [| c s].
    + vm_compute. reflexivity.
    + apply best_bracket. intros ->. apply O. left. reflexivity.
  - intros st0 M P K. cbn [fst snd] in *. eexists. split.
    + cbn [rules initial_rules nth r0 act]. rewrite P. reflexivity.
    + repeat split; assumption.
Qed.

Lemma given_close cfg p s : given_by cfg (RULE_PARAMETERS_HEADER, p) (Chr "]", []) (chars "]") s (INITIAL, p).
Proof. fixed_token 13. Qed.
Lemma given_header_char cfg p c s : In c (chars "#;") -> given_by cfg (RULE_PARAMETERS_HEADER, p) (Chr c, []) [c] s (RULE_PARAMETERS_HEADER, p).
Proof. intro J. destruct J as [<- | [<- | []]]; [fixed_token 4 | fixed_token 11]. Qed.
Lemma given_class_open cfg p s : given_by cfg (PARSERCLASS, p) (Chr "(", []) (chars "(") s (PARSERCLASS, p).
Proof. fixed_token 2. Qed.
Lemma given_class_close cfg p s : given_by cfg (PARSERCLASS, p) (Chr ")", []) (chars ")") s (INITIAL, p).
Proof. fixed_token 10. Qed.
Lemma given_class cfg p k n s : In (k, n) class_words -> given_by cfg (PARSERCLASS, p) (Tok n, []) (chars k) s (PARSERCLASS, p).
Proof.
  intro J. unfold class_words in J. cbn [In] in J.
  destruct J as [J | [J | [J | [J | [J | [J | [J | []]]]]]]]; injection J as <- <-;
  [fixed_token 3 | fixed_token 4 | fixed_token 5 | fixed_token 6 | fixed_token 7 | fixed_token 8 | fixed_token 9].
Qed.

Lemma given_colon cfg p b s : all_in blanks b -> over blanks s ->
  given_by cfg (RULE_PARAMETERS_HEADER, p) (Chr ":", []) (":"%char :: b) s (RULE_PARAMETERS_VARNAME, p).
Proof.
  intros A O. eapply (given_step _ _ _ _ _ _ (nth 3 (rules RULE_PARAMETERS_HEADER) no_rule)); [discriminate | |].
  - cbn [fst app List.length]. rewrite (best_nth RULE_PARAMETERS_HEADER ":"%char _ [3; 14]) by (vm_compute; reflexivity). cbn [map best].
    rewrite (m_plain (nth 3 (rules RULE_PARAMETERS_HEADER) no_rule)) by reflexivity.
    rewrite (m_plain (nth 14 (rules RULE_PARAMETERS_HEADER) no_rule)) by reflexivity.
    change (pat (nth 14 (rules RULE_PARAMETERS_HEADER) no_rule)) with dot. rewrite longest_dot by discriminate.
    change (pat (nth 3 (rules RULE_PARAMETERS_HEADER) no_rule)) with (RSeq (chr ":") (RStar Whitespace)).
    rewrite longest_cons. cbn [deriv nullable chr]. change (is ":" ":") with true. cbn [seq]. unfold Whitespace, oneof.
    rewrite longest_star_cls; [reflexivity | |].
    + apply forallb_forall. intros d D. apply blank_in, A, D.
    + destruct s as [| d s]; [exact I |]. cbn [stops]. destruct (among blanks d) eqn:E; [| reflexivity]. exfalso. apply O. apply blank_in. exact E.
  - intros st0 M P K. eexists. split; [reflexivity |]. repeat split; assumption.
Qed.

(** Words of declarations. *)
Lemma best_pick l1 r l2 s n h :
  matched r s = Some (S n, h) ->
  (forall r' n' h', In r' l1 -> matched r' s = Some (n', h') -> n' < S n) ->
  (forall r' n' h', In r' l2 -> matched r' s = Some (n', h') -> n' <= S n) ->
  best (l1 ++ r :: l2) s = Some (r, S n, h).
Proof.
  intros M A B. induction l1 as [| a l1 IH].
  - cbn [app best]. rewrite M. destruct (best l2 s) as [[[r' n'] h'] |] eqn:E; [| reflexivity].
    destruct (best_some _ _ _ _ _ E) as (_ & M' & l3 & l4 & EL & _). pose proof (B r' n' h') as L.
    assert (J : In r' l2) by (rewrite EL; apply in_elt). specialize (L J M').
    destruct (Nat.ltb_spec (S n) n'); [lia | reflexivity].
  - cbn [app best]. rewrite IH by (intros; eapply A; [right |]; eassumption).
    destruct (matched a s) as [[[| m] k] |] eqn:E; try reflexivity.
    pose proof (A a (S m) k (or_introl eq_refl) E). destruct (Nat.ltb_spec (S m) (S n)); [reflexivity | lia].
Qed.

Definition header_name : re :=
  RSeq (RStar (RCls (fun c => under c || letter c))) (plus (RCls (fun c => under c || letter c || digit c))).
Lemma lang_header_name w : lang header_name w <-> w <> [] /\ forallb word_ w = true.
Proof.
  unfold header_name. rewrite lang_seq'. split.
  - intros (u & v & -> & A & B). apply lang_star_cls in A. apply lang_plus_cls in B. destruct B as [NE B]. split.
    + destruct u; [exact NE | discriminate].
    + rewrite forallb_app. apply andb_true_iff. split; [| exact B]. apply forallb_forall. intros d D. rewrite forallb_forall in A.
      specialize (A d D). unfold word_. cbv beta in A. rewrite A. reflexivity.
  - intros (NE & W). exists [], w. split; [reflexivity |]. split; [apply lang_star_cls; reflexivity |]. apply lang_plus_cls. auto.
Qed.

Lemma word_prefix w s : forallb word_ w = true -> stops word_ s -> forall m, m <= List.length (w ++ s) ->
  forallb word_ (firstn m (w ++ s)) = true -> m <= List.length w.
Proof.
  intros W St m L F. destruct (Nat.le_gt_cases m (List.length w)) as [H | H]; [exact H | exfalso].
  rewrite firstn_app in F. rewrite forallb_app in F. apply andb_true_iff in F. destruct F as [_ F].
  destruct s as [| d s]; [rewrite app_nil_r in L; lia |]. replace (m - List.length w) with (S (m - List.length w - 1)) in F by lia.
  cbn [firstn forallb] in F. cbn [stops] in St. rewrite St in F. discriminate F.
Qed.

Lemma longest_header_name w s : w <> [] -> forallb word_ w = true -> stops word_ s -> longest header_name (w ++ s) = Some (List.length w).
Proof.
  intros NE W St. apply longest_some. split; [rewrite app_length; lia |]. destruct (split_step w s) as [E _]. split.
  - rewrite E. apply lang_header_name. auto.
  - intros m L Lg. apply lang_header_name in Lg. destruct Lg as [_ F]. apply (word_prefix w s); assumption.
Qed.

(** The literals among the rules. *)
Definition header_lit (j : nat) : option (string * string) :=
  match j with
  | 5 => Some ("member", "T_MEMBER") | 6 => Some ("temporary", "T_TEMPORARY") | 7 => Some ("argument", "T_ARGUMENT")
  | 8 => Some ("node", "T_NODE") | 9 => Some ("token", "T_TOKEN") | 10 => Some ("variable", "T_VARIABLE") | _ => None
  end%string.

Lemma m_literal r l s : pat r = lit l -> trail r = None ->
  matched r s = if prefix (chars l) s then Some (List.length (chars l), List.length (chars l)) else None.
Proof. intros P T. rewrite m_plain, P by exact T. unfold lit. rewrite longest_lit_. destruct (prefix (chars l) s); reflexivity. Qed.

Lemma header_cannot c r : word_ c = true ->
  In r [nth 0 header_rules no_rule; nth 1 header_rules no_rule; nth 2 header_rules no_rule; nth 3 header_rules no_rule;
        nth 4 header_rules no_rule; nth 11 header_rules no_rule; nth 13 header_rules no_rule] -> can c r = false /\ trail r = None.
Proof.
  intros W J.
  assert (H : forall c, (negb (word_ c) || forallb (fun i => negb (can c (nth i header_rules no_rule))) [0; 1; 2; 3; 4; 11; 13]) = true)
    by (apply for_chars; vm_compute; reflexivity).
  specialize (H c). rewrite W in H. cbn [negb orb] in H. rewrite forallb_forall in H.
  assert (G : forall i, In i [0; 1; 2; 3; 4; 11; 13] -> can c (nth i header_rules no_rule) = false) by (intros i I; apply negb_true_iff, H, I).
  cbn [In] in J. destruct J as [<- | [<- | [<- | [<- | [<- | [<- | [<- | []]]]]]]]; (split; [| reflexivity]).
  - apply (G 0); cbn; auto.
  - apply (G 1); cbn; auto.
  - apply (G 2); cbn; auto.
  - apply (G 3); cbn; auto.
  - apply (G 4); cbn; auto 8.
  - apply (G 11); cbn; auto 8.
  - apply (G 13); cbn; auto 8.
Qed.

Lemma header_bound c u s j r n h :
  forallb word_ (c :: u) = true -> stops word_ s -> nth_error header_rules j = Some r -> matched r ((c :: u) ++ s) = Some (n, h) ->
  n <= List.length (c :: u) /\
  (n = List.length (c :: u) -> j = 12 \/ j = 14 \/ exists l, header_lit j = Some l /\ c :: u = chars (fst l)).
Proof.
  intros W St E M.
  assert (LIT : forall l t, header_lit j = Some (l, t) -> pat r = lit l -> trail r = None -> forallb word_ (chars l) = true ->
    n <= List.length (c :: u) /\ (n = List.length (c :: u) -> j = 12 \/ j = 14 \/ exists l, header_lit j = Some l /\ c :: u = chars (fst l))).
  { intros l t HL P T WL. rewrite (m_literal r l) in M by assumption. destruct (prefix (chars l) ((c :: u) ++ s)) eqn:PF; [| discriminate M].
    injection M as <- <-. apply prefix_spec in PF. destruct PF as (x & PF).
    assert (B : List.length (chars l) <= List.length (c :: u)).
    { apply (word_prefix (c :: u) s W St).
      - rewrite PF, app_length. lia.
      - rewrite PF. destruct (split_step (chars l) x) as [-> _]. exact WL. }
    split; [exact B |]. intro EQ. right. right. exists (l, t). split; [exact HL |]. cbn [fst].
    apply (f_equal (firstn (List.length (chars l)))) in PF. destruct (split_step (chars l) x) as [X _]. rewrite X, EQ in PF.
    destruct (split_step (c :: u) s) as [Y _]. rewrite Y in PF. exact PF. }
  assert (NO : In r [nth 0 header_rules no_rule; nth 1 header_rules no_rule; nth 2 header_rules no_rule; nth 3 header_rules no_rule;
        nth 4 header_rules no_rule; nth 11 header_rules no_rule; nth 13 header_rules no_rule] ->
    n <= List.length (c :: u) /\ (n = List.length (c :: u) -> j = 12 \/ j = 14 \/ exists l, header_lit j = Some l /\ c :: u = chars (fst l))).
  { intro J. cbn [forallb] in W. apply andb_true_iff in W. destruct W as [W _].
    destruct (header_cannot c r W J) as [C T]. cbn [app] in M. apply can_not in M; [| exact C | left; exact T].
    subst n. cbn [List.length]. split; [lia | discriminate]. }
  do 15 (try (destruct j as [| j]; [cbn [nth_error header_rules] in E; injection E as <- |])).
  16: { destruct j; discriminate E. }
  all: try (apply NO; cbn [In]; tauto).
  - apply (LIT "member"%string "T_MEMBER"%string); reflexivity.
  - apply (LIT "temporary"%string "T_TEMPORARY"%string); reflexivity.
  - apply (LIT "argument"%string "T_ARGUMENT"%string); reflexivity.
  - apply (LIT "node"%string "T_NODE"%string); reflexivity.
  - apply (LIT "token"%string "T_TOKEN"%string); reflexivity.
  - apply (LIT "variable"%string "T_VARIABLE"%string); reflexivity.
  - rewrite m_plain in M by reflexivity. cbn [valued r0 pat] in M. change (longest _ _) with (longest header_name ((c :: u) ++ s)) in M.
    rewrite longest_header_name in M; [| discriminate | exact W | exact St]. assert (N : n = List.length (c :: u)) by congruence. rewrite N. split; [apply Nat.le_refl | auto].
  - rewrite m_plain in M by reflexivity. cbn [r0 pat app] in M. rewrite longest_dot in M.
    + injection M as <- <-. cbn [List.length]. split; [lia | auto].
    + intros ->. cbn [forallb] in W. discriminate W.
Qed.

Lemma in_nth_error {A} (x : A) l : In x l -> exists j, j < List.length l /\ nth_error l j = Some x.
Proof. intro J. apply In_nth_error in J. destruct J as (j & E). exists j. split; [apply nth_error_Some; congruence | exact E]. Qed.

Lemma best_header c u s i r :
  forallb word_ (c :: u) = true -> stops word_ s -> nth_error header_rules i = Some r ->
  matched r ((c :: u) ++ s) = Some (List.length (c :: u), List.length (c :: u)) ->
  (forall j l, j < i -> header_lit j = Some l -> c :: u <> chars (fst l)) -> i <= 12 ->
  best header_rules ((c :: u) ++ s) = Some (r, List.length (c :: u), List.length (c :: u)).
Proof.
  intros W St E M D I. pose proof (nth_error_split _ _ E) as (l1 & l2 & EL & LN).
  rewrite EL. cbn [List.length] in *. apply best_pick; [exact M | |].
  - intros r' n' h' J M'. destruct (in_nth_error _ _ J) as (j & Lj & Ej). rewrite LN in Lj.
    assert (Ej' : nth_error header_rules j = Some r') by (rewrite EL, nth_error_app1 by lia; exact Ej).
    destruct (header_bound c u s j r' n' h' W St Ej' M') as [B1 B2]. cbn [List.length] in *.
    destruct (Nat.eq_dec n' (S (List.length u))) as [X | X]; [exfalso | lia].
    destruct (B2 X) as [-> | [-> | (l & HL & HW)]]; [lia | lia |]. exact (D j l Lj HL HW).
  - intros r' n' h' J M'. destruct (in_nth_error _ _ J) as (j & Lj & Ej).
    assert (Ej' : nth_error header_rules (i + S j) = Some r').
    { rewrite EL, nth_error_app2 by lia. replace (i + S j - List.length l1) with (S j) by lia. exact Ej. }
    apply (header_bound c u s _ r' n' h' W St Ej' M').
Qed.

Lemma given_header cfg p w s : w <> [] -> all_in WORD w -> over WORD s ->
  given_by cfg (RULE_PARAMETERS_HEADER, p) (header_token w) w s (RULE_PARAMETERS_HEADER, p).
Proof.
  intros NE A O. destruct w as [| c u]; [contradiction |].
  assert (W : forallb word_ (c :: u) = true) by (apply forallb_forall; intros d D; apply word_in, A, D).
  assert (St : stops word_ s) by exact (over_stops _ _ _ word_in O).
  assert (CS : cstr (c :: u) = c :: u).
  { apply cstr_word. intros d D X. rewrite forallb_forall in W. specialize (W d D). rewrite X in W. discriminate W. }
  unfold header_token. destruct (find _ header_words) as [[k n] |] eqn:F.
  - apply find_some in F. destruct F as [J T]. cbn [fst snd] in *. destruct (text_dec (c :: u) (chars k)) as [X | X]; [clear T | discriminate T].
    assert (H : exists i r, nth_error header_rules i = Some r /\ pat r = lit k /\ trail r = None /\ act r = (fun _ s _ => Give (Tok n) [] s) /\ i <= 12 /\
      (forall j l, j < i -> header_lit j = Some l -> fst l <> k)).
    { cbn [In header_words] in J. destruct J as [J | [J | [J | [J | [J | [J | []]]]]]]; injection J as <- <-;
      [exists 5 | exists 6 | exists 7 | exists 8 | exists 9 | exists 10]; eexists; (split; [reflexivity |]);
      (split; [reflexivity |]); (split; [reflexivity |]); (split; [reflexivity |]); (split; [lia |]);
      intros j l Lj HL; do 10 (destruct j as [| j]; [first [discriminate HL | injection HL as <-; discriminate | lia] |]); lia. }
    destruct H as (i & r & E & P & T & AC & I & D).
    eapply given_step; [discriminate | |].
    + apply (best_header c u s i r W St E); [| | exact I].
      * rewrite (m_literal r k) by assumption. rewrite <- X.
        assert (PF : prefix (c :: u) ((c :: u) ++ s) = true) by (apply prefix_spec; exists s; reflexivity). rewrite PF. reflexivity.
      * intros j l Lj HL Y. apply (D j l Lj HL). rewrite X in Y. apply chars_inj in Y. symmetry. exact Y.
    + intros st0 M0 P0 K0. exists st0. rewrite AC. split; [reflexivity |]. repeat split; assumption.
  - eapply given_step; [discriminate | |].
    + apply (best_header c u s 12 (nth 12 header_rules no_rule) W St); [reflexivity | | | lia].
      * rewrite m_plain by reflexivity. change (pat (nth 12 header_rules no_rule)) with header_name.
        rewrite longest_header_name; [reflexivity | discriminate | exact W | exact St].
      * intros j l Lj HL Y. assert (J : In l header_words).
        { do 12 (destruct j as [| j]; [first [discriminate HL | injection HL as <-; cbn; tauto] |]). lia. }
        pose proof (find_none _ _ F l J) as N. cbv beta in N. destruct (text_dec (c :: u) (chars (fst l))); [discriminate N | contradiction].
    + intros st0 M0 P0 K0. exists st0. split.
      * cbn [header_rules nth valued r0 act fst snd]. unfold copy. rewrite CS. reflexivity.
      * repeat split; assumption.
Qed.

(** The tokens dealt with before. *)
Lemma calm_context q st st' : at_context q st -> calm st st' -> kept st' = [] -> at_context q st'.
Proof. intros (M & P & K) (A & (B & _) & _) D. repeat split; [congruence | congruence | exact D]. Qed.

Lemma given_word cfg p w s : is_word w -> over WORD s ->
  ~ (w = chars "try" /\ exists u, s = chars "/recover" ++ u \/ s = chars "/rollback" ++ u) ->
  given_by cfg (INITIAL, p) (word_token w) w s (INITIAL, p).
Proof.
  intros W O N st A. destruct (word_step cfg st w s (proj1 A) (proj2 (proj2 A)) W O N) as (st' & ST & CA & K).
  exists st', (yyline st'). split; [| exact (calm_context _ _ _ A CA K)].
  eapply rd_give; [| exact ST | apply rd_none]. destruct W as (c & u & -> & _). discriminate.
Qed.
Lemma given_number cfg p w s : is_number w -> over DIGITS s -> given_by cfg (INITIAL, p) (number_token w) w s (INITIAL, p).
Proof.
  intros W O st A. destruct (number_step cfg st w s (proj1 A) (proj2 (proj2 A)) W O) as (st' & ST & CA & K).
  exists st', (yyline st'). split; [| exact (calm_context _ _ _ A CA K)].
  eapply rd_give; [| exact ST | apply rd_none]. destruct W as [NE _]. destruct w; [contradiction | discriminate].
Qed.
Lemma given_keyword cfg p k n s : In (k, n) keywords -> keyword_at k (chars k ++ s) ->
  given_by cfg (INITIAL, p) (Tok n, []) (chars k) s
    (if String.eqb k "%parserclass" || String.eqb k "%lexerclass" then PARSERCLASS else INITIAL,
     if String.eqb k "%<" then RuleBody else if String.eqb k "%>" then RuleFooter else if String.eqb k "%lexer" then RuleLexer else p).
Proof.
  intros J KA st A. destruct (keyword_step cfg st k n s (proj1 A) J KA) as (st0 & ST & CA & K).
  pose proof (calm_context _ _ _ A CA K) as (M0 & P0 & K0). cbn [fst snd] in *.
  exists (after_keyword k st0), (yyline (after_keyword k st0)). split.
  - eapply rd_give; [| exact ST | apply rd_none]. destruct (keyword_head k n J) as (k' & -> & _). discriminate.
  - unfold after_keyword. destruct (String.eqb_spec k "%parserclass") as [-> | _]; [repeat split; assumption |].
    destruct (String.eqb_spec k "%lexerclass") as [-> | _]; [repeat split; assumption |]. cbn [orb].
    destruct (String.eqb k "%<"); [repeat split; assumption |]. destruct (String.eqb k "%>"); [repeat split; assumption |].
    destruct (String.eqb k "%lexer"); repeat split; assumption.
Qed.

(** A part of a text without NUL has none. *)
Lemma cstr_part a w b : ~ In NUL (a ++ w ++ b) -> cstr w = w.
Proof. intro N. apply cstr_same. intro J. apply N. apply in_or_app. right. apply in_or_app. left. exact J. Qed.

Lemma given_string cfg m p w s : m = INITIAL \/ m = RULE_LEXER -> string_body w -> cstr w = w ->
  given_by cfg (m, p) (Tok "T_STRING", w) ([QUOTE] ++ w ++ [QUOTE]) s (m, p).
Proof.
  intros Mm SB CS st A.
  assert (M : smode st = INITIAL \/ smode st = RULE_LEXER) by (destruct A as (-> & _); exact Mm).
  destruct (string_step cfg st w s M (proj2 (proj2 A)) SB) as (st' & ST & CA & K).
  exists st', (yyline st'). split; [| exact (calm_context _ _ _ A CA K)]. rewrite CS in ST.
  cbn [app]. rewrite <- app_assoc. cbn [app]. eapply rd_give; [discriminate | exact ST | apply rd_none].
Qed.
Definition given_stored (cfg : config) (q : context) (x : token * text) (w s : text) (q' : context) : Prop :=
  forall st, at_context q st -> exists st' y n, stored cfg x y /\ reads cfg st (w ++ s) [Lexeme (fst y) (snd y) n] st' s /\ at_context q' st'.
Lemma given_as_is cfg q x w s q' : ~ holds_code (fst x) -> given_by cfg q x w s q' -> given_stored cfg q x w s q'.
Proof.
  intros H G st A. destruct (G st A) as (st' & n & R & A'). exists st', x, n. split; [| auto].
  split; [reflexivity |]. split; [contradiction | reflexivity].
Qed.
Lemma copied_stored cfg st k w : holds_code k -> cstr w = w -> stored cfg (k, w) (k, copy_code cfg st w).
Proof.
  intros H CS. split; [reflexivity |]. cbn [fst snd]. split; [intros _ | contradiction].
  unfold copied, copy_code, directive, decimal, copy. destruct (lines cfg) eqn:E; rewrite CS;
    try reflexivity; exists (code_line st), (code_col st); rewrite <- ?app_assoc; reflexivity.
Qed.
Lemma given_code cfg m p w s : m = INITIAL \/ m = RULE_LEXER -> code_body w -> cstr w = w ->
  given_stored cfg (m, p) (Tok "T_CODE", w) (OPEN ++ w ++ CLOSE) s (match p with RuleLexer => RULE_LEXER | _ => INITIAL end, p).
Proof.
  intros Mm CB CS st A.
  assert (M : smode st = INITIAL \/ smode st = RULE_LEXER) by (destruct A as (-> & _); exact Mm).
  destruct (block_run cfg st w s M CB) as (st' & v & R & E & M' & K' & P' & _).
  rewrite !app_assoc in *. exists st', (Tok "T_CODE", v), (yyline st'). split; [subst v; apply copied_stored; [left; reflexivity | exact CS] |].
  split; [exact R |]. destruct A as (_ & P & _). cbn [fst snd] in *. rewrite P in M', P'. repeat split; assumption.
Qed.
Lemma given_arguments cfg w s : plain_arguments w -> (forall u, w <> COLON :: u) -> cstr w = w ->
  given_stored cfg (INITIAL, RuleBody) (Tok "T_RULE_ARGUMENTS", w) (["["%char] ++ w ++ ["]"%char]) s (INITIAL, RuleBody).
Proof.
  intros PA NC CS st (M & P & K). cbn [fst snd] in *.
  destruct (args_run cfg st w s M P PA NC) as (st' & v & R & E & M' & K' & P' & _).
  cbn [app]. rewrite <- app_assoc. cbn [app]. exists st', (Tok "T_RULE_ARGUMENTS", v), (yyline st').
  split; [subst v; apply copied_stored; [right; reflexivity | exact CS] |]. split; [exact R | repeat split; assumption].
Qed.
Lemma given_type cfg p w s : ~ In ";"%char w -> 2 <= List.length w -> cstr w = w ->
  given_by cfg (RULE_PARAMETERS_VARNAME, p) (Tok "T_IDENTIFIER", w) (w ++ [";"%char]) s (RULE_PARAMETERS_HEADER, p).
Proof.
  intros N L CS st (M & P & K). cbn [fst snd] in *.
  destruct (proj1 (type_run cfg st w s M K N) L) as (st' & R & M' & K' & P' & _). unfold copy in R; rewrite CS in R.
  rewrite <- app_assoc. cbn [app]. exists st', (yyline st'). split; [exact R |]. repeat split; [exact M' | cbn [snd]; congruence | exact K'].
Qed.

