(** What is proved about the reports on undefined symbols and tokens: which mistakes in a
    grammar file are found, and which are not. *)
From Coq Require Import List NArith Ascii String Bool PeanoNat Permutation.
From Verif Require Import GramProps GraphProps.
From Verif Require Import YaccModel ScanModel FlexModel GramModel GramSpec GramTableProofs GramProofs GramFileProofs GraphModel LangProofs LangSpec UndefModel.
Import ListNotations.
Open Scope string_scope.
Open Scope list_scope.

(** ** What is meant *)
Definition defined (f : file) (x : text) : Prop := exists r, In r (rules_ f) /\ rule_name r = x.
Definition declared (f : file) (x : text) : Prop := In x (map fst (file_tokens f)).
(** The variables of a rule, in the order of the text. *)
Definition rule_vars (r : rule_src) : list declaration := match r with RRule _ _ ft | ROperators _ _ _ _ ft => foot_vars ft end.
Definition first_var (r : rule_src) (d : declaration) : Prop := exists l, rule_vars r = d :: l.
Definition ordinary (f : file) (r : text) (i : isrc) : Prop := exists ft, In (RRule i r ft) (rules_ f).
(** x=y or x:y (or with #) in an item. *)
Definition binds (i : isrc) (x y : text) : Prop := exists s m args, In (IBind s m x (ASym y args)) (parts i).

Lemma same_true x y : same x y = true <-> x = y.
Proof. unfold same. destruct (list_eq_dec ascii_dec x y); split; congruence. Qed.
Lemma exists_same x l : existsb (same x) l = true <-> In x l.
Proof. rewrite existsb_exists. split; [intros (y & I & E); apply same_true in E; subst; exact I | intros I; exists x; split; [exact I | apply same_true; reflexivity]]. Qed.
Lemma not_true b : b = false <-> ~ b = true.
Proof. destruct b; split; congruence. Qed.

Section F.
Variables (f : file) (w : world).
Hypothesis Rl : rules_pushed (rev (events w)) = map (rule_means (describe f)) (rules_ f).
Hypothesis Sy : symbols_pushed (rev (events w)) = flat_map rule_symbols (rules_ f).
Hypothesis To : forall x, lookup x (terminals w) = first_of (file_tokens f) x.

Lemma evolve_name D r : evolve_symbol (rule_means D r) = rule_name r.
Proof. destruct r; reflexivity. Qed.
Lemma has_rule_defined x : has_rule w x = true <-> defined f x.
Proof.
  unfold has_rule, defined. rewrite Rl, existsb_exists. split.
  - intros (i & I & E). apply same_true in E. apply in_map_iff in I. destruct I as (r & <- & I). rewrite evolve_name in E. eauto.
  - intros (r & I & E). exists (rule_means (describe f) r). split; [apply in_map; exact I |]. apply same_true. rewrite evolve_name. auto.
Qed.
Lemma has_symbol_mentioned x : has_symbol w x = true <-> In x (flat_map rule_symbols (rules_ f)).
Proof. unfold has_symbol, symbol_names. rewrite Sy, exists_same. unfold pushed. rewrite pushed_in. cbn [fst In]. tauto. Qed.
Lemma token_names_in x : In x (token_names w) <-> declared f x.
Proof.
  unfold declared. rewrite (token_named f w To x). unfold token_id. split.
  - intros I. assert (G : forall l n, In x l -> exists t, index x l n = Some t).
    { induction l as [| y l IH]; intros n J; [destruct J |]. cbn [index]. destruct (same x y) eqn:E; [eauto |]. destruct J as [-> | J]; [| eauto]. rewrite (proj2 (same_true x x) eq_refl) in E. discriminate. }
    apply G. exact I.
  - intros (t & E). assert (G : forall l n, index x l n = Some t -> In x l).
    { induction l as [| y l IH]; intros n J; [discriminate |]. cbn [index] in J. destruct (same x y) eqn:Q; [left; symmetry; apply same_true; exact Q | right; eauto]. }
    eapply G. exact E.
Qed.
Lemma has_token_declared x : has_token w x = true <-> x = eof_name \/ declared f x.
Proof. unfold has_token. rewrite orb_true_iff, same_true, exists_same, token_names_in. tauto. Qed.

Lemma in_visit_symbol p r x : In p (visit_symbol w r x) <-> p = UndefinedSymbol x r /\ ~ defined f x.
Proof.
  unfold visit_symbol. rewrite <- has_rule_defined. destruct (has_rule w x); cbn [In]; split; try tauto; try (intros (_ & H); congruence).
  - intros [<- | []]. split; congruence.
  - intros (-> & _). auto.
Qed.
(** The declaration [d] is reported, under the name [x]. *)
Definition reported (d : declaration) (x : text) : Prop :=
  GramModel.dtype d = TypeNode /\ ~ defined f (dtypename d) /\
  (In (dtypename d) (flat_map rule_symbols (rules_ f)) /\ x = dname d \/ ~ In (dtypename d) (flat_map rule_symbols (rules_ f)) /\ x = dtypename d).
Lemma defined_mentioned x : defined f x -> In x (flat_map rule_symbols (rules_ f)).
Proof. intros (r & I & <-). apply in_flat_map. exists r. split; [exact I |]. destruct r; cbn [rule_symbols rule_name]; [apply in_or_app; right; left; reflexivity | right; left; reflexivity]. Qed.
Lemma in_visit_declaration p r d : In p (visit_declaration w r d) <-> exists x, p = UndefinedType x r /\ reported d x.
Proof.
  unfold visit_declaration, reported. destruct (GramModel.dtype d); try (split; [intros [] | intros (x & _ & H & _); discriminate]).
  pose proof (has_symbol_mentioned (dtypename d)) as A. pose proof (has_rule_defined (dtypename d)) as B. pose proof (defined_mentioned (dtypename d)) as C.
  destruct (has_symbol w (dtypename d)); cbn [negb]; [destruct (has_rule w (dtypename d)); cbn [negb In] |].
  - split; [tauto | intros (x & _ & _ & H & _); tauto].
  - split; [intros [<- | []]; exists (dname d); intuition congruence |]. intros (x & -> & _ & _ & [(_ & ->) | (H & _)]); [left; reflexivity | tauto].
  - split; [intros [<- | []]; exists (dtypename d); intuition congruence |]. intros (x & -> & _ & _ & [(H & _) | (_ & ->)]); [intuition congruence | left; reflexivity].
Qed.
Lemma annotated_atom x s m a : annotated x s m (atom_means (describe f) a) = match a with ATok y => Declaration false m TypeToken s x y | ASym y _ => Declaration false m TypeNode s x y end.
Proof. destruct a; reflexivity. Qed.

(** The reports of an item. *)
Definition item_report (r : text) (i : isrc) (p : report) : Prop :=
  (exists x, p = UndefinedSymbol x r /\ In x (symbols_of i) /\ ~ defined f x) \/
  (exists x y, p = UndefinedType x r /\ binds i x y /\ ~ defined f y).
Lemma binds_mentions x y : forall i, binds i x y -> In y (symbols_of i).
Proof.
  induction i; intros (s & m & args & I); cbn [parts In symbols_of] in *; try (destruct I as [I | []]; try discriminate); try (destruct I as [I | I]; [discriminate |]);
    repeat match goal with H : In _ (_ ++ _) |- _ => apply in_app_or in H; destruct H | |- In _ (_ ++ _) => apply in_or_app end;
    try (match goal with IH : binds ?i _ _ -> _ |- _ => solve [apply IH; exists s, m, args; assumption] end);
    try (match goal with IH : binds ?i _ _ -> _, H : In _ (parts ?i) |- _ => solve [left; apply IH; exists s, m, args; assumption | right; apply IH; exists s, m, args; assumption] end).
  injection I as _ _ _ ->. left. reflexivity.
Qed.
Lemma item_reports r p : forall i, (forall y, In y (symbols_of i) -> In y (flat_map rule_symbols (rules_ f))) ->
  (In p (undefined_symbols w r (imeans (describe f) i)) <-> item_report r i p).
Proof.
  assert (None_ : forall i, symbols_of i = [] -> (forall x y, ~ binds i x y) -> (In p [] <-> item_report r i p)).
  { intros i S0 B0. split; [intros [] | intros [(x & _ & I & _) | (x & y & _ & B & _)]; [rewrite S0 in I; destruct I | exact (B0 _ _ B)]]. }
  assert (Two : forall i j l, symbols_of i = symbols_of j ++ symbols_of l -> (forall s m x a, In (IBind s m x a) (parts i) <-> In (IBind s m x a) (parts j) \/ In (IBind s m x a) (parts l)) ->
    (item_report r i p <-> item_report r j p \/ item_report r l p)).
  { intros i j l S0 B0. unfold item_report. rewrite S0. setoid_rewrite in_app_iff. split.
    - intros [(x & -> & [I | I] & N) | (x & y & -> & (s & m & args & I) & N)]; [left; left; eauto | right; left; eauto |].
      apply B0 in I. destruct I as [I | I]; [left | right]; right; exists x, y; (split; [reflexivity | split; [exists s, m, args; exact I | exact N]]).
    - intros [[(x & -> & I & N) | (x & y & -> & (s & m & args & I) & N)] | [(x & -> & I & N) | (x & y & -> & (s & m & args & I) & N)]].
      + left; eauto.
      + right. exists x, y. split; [reflexivity | split; [exists s, m, args; apply B0; auto | exact N]].
      + left; eauto 6.
      + right. exists x, y. split; [reflexivity | split; [exists s, m, args; apply B0; auto | exact N]]. }
  assert (Same : forall i j, symbols_of i = symbols_of j -> (forall s m x a, In (IBind s m x a) (parts i) <-> In (IBind s m x a) (parts j)) -> (item_report r i p <-> item_report r j p)).
  { intros i j S0 B0. unfold item_report, binds. rewrite S0. setoid_rewrite B0. tauto. }
  induction i as [| [y | y args] | y | s m x [y | y args] | j IH | j IH | j IHj l IHl | j IH | j IH | j IH | j IHj l IHl | j IH y | y | j IHj l IHl | y j IH | j IHj l IHl]; intros Me; cbn [imeans atom_means undefined_symbols].
  - apply None_; [reflexivity |]. intros x y (s & m & args & [H | []]). discriminate.
  - apply None_; [reflexivity |]. intros x y0 (s & m & args & [H | []]). discriminate.
  - rewrite in_visit_symbol. split; [intros (-> & N); left; exists y; cbn [symbols_of atom_symbols In]; auto |].
    intros [(x & -> & [<- | []] & N) | (x & z & -> & (s & m & a & [H | []]) & N)]; [auto | discriminate].
  - rewrite in_visit_symbol. split; [intros (-> & N); left; exists y; cbn [symbols_of atom_symbols In]; auto |].
    intros [(x & -> & [<- | []] & N) | (x & z & -> & (s & m & a & [H | []]) & N)]; [auto | discriminate].
  - cbn. apply None_; [reflexivity |]. intros x0 y0 (s0 & m0 & args & [H | []]). discriminate.
  - cbn [annotated]. rewrite in_app_iff, in_visit_declaration, in_visit_symbol. split.
    + intros [(z & -> & _ & N & [(I & ->) | (I & ->)]) | (-> & N)]; cbn [dname dtypename] in *.
      * right. exists x, y. split; [reflexivity | split; [exists s, m, args; left; reflexivity | exact N]].
      * exfalso. apply I, Me. left. reflexivity.
      * left. exists y. cbn. auto.
    + intros [(z & -> & [<- | []] & N) | (z & z' & -> & (s' & m' & a & [H | []]) & N)]; [right; auto |].
      injection H as <- <- -> -> ->. left. exists z. split; [reflexivity |]. split; [reflexivity |]. split; [exact N |]. left. split; [apply Me; left; reflexivity | reflexivity].
  - rewrite (IH Me). symmetry. apply Same; [reflexivity |]. intros. cbn [parts In]. intuition discriminate.
  - rewrite (IH Me). symmetry. apply Same; [reflexivity |]. intros. cbn [parts In]. intuition discriminate.
  - rewrite in_app_iff, (IHj (fun y I => Me y (in_or_app _ _ _ (or_introl I)))), (IHl (fun y I => Me y (in_or_app _ _ _ (or_intror I)))). symmetry. apply Two; [reflexivity |]. intros. cbn [parts In]. rewrite in_app_iff. intuition discriminate.
  - rewrite (IH Me). symmetry. apply Same; [reflexivity |]. intros. cbn [parts In]. intuition discriminate.
  - rewrite (IH Me). symmetry. apply Same; [reflexivity |]. intros. cbn [parts In]. intuition discriminate.
  - rewrite app_nil_r, (IH Me). symmetry. apply Same; [reflexivity |]. intros. cbn [parts In]. intuition discriminate.
  - rewrite !in_app_iff, (IHj (fun y I => Me y (in_or_app _ _ _ (or_introl I)))), (IHl (fun y I => Me y (in_or_app _ _ _ (or_intror I)))). rewrite (Two (IListOf j l) j l); [tauto | reflexivity |]. intros. cbn [parts In]. rewrite in_app_iff. intuition discriminate.
  - rewrite (IH Me). symmetry. apply Same; [reflexivity |]. intros. cbn [parts In]. intuition discriminate.
  - apply None_; [reflexivity |]. intros x z (s & m & args & [H | []]). discriminate.
  - rewrite in_app_iff, (IHj (fun y I => Me y (in_or_app _ _ _ (or_introl I)))), (IHl (fun y I => Me y (in_or_app _ _ _ (or_intror I)))). symmetry. apply Two; [reflexivity |]. intros. cbn [parts In]. rewrite in_app_iff. intuition discriminate.
  - rewrite (IH Me). symmetry. apply Same; [reflexivity |]. intros. cbn [parts In]. intuition discriminate.
  - rewrite in_app_iff, (IHj (fun y I => Me y (in_or_app _ _ _ (or_introl I)))), (IHl (fun y I => Me y (in_or_app _ _ _ (or_intror I)))). symmetry. apply Two; [reflexivity |]. intros. cbn [parts In]. rewrite in_app_iff. intuition discriminate.
Qed.
Lemma item_token_reports r p : forall i, In p (undefined_tokens w r (imeans (describe f) i)) <-> exists x, p = UndefinedToken x r /\ In x (tokens_of i) /\ x <> eof_name /\ ~ declared f x.
Proof.
  assert (A : forall y, In p (if has_token w y then [] else [UndefinedToken y r]) <-> exists x, p = UndefinedToken x r /\ In x [y] /\ x <> eof_name /\ ~ declared f x).
  { intros y. pose proof (has_token_declared y) as H. destruct (has_token w y); split.
    - intros [].
    - intros (x & _ & [<- | []] & N1 & N2). tauto.
    - intros [<- | []]. exists y. split; [reflexivity |]. split; [left; reflexivity |]. split; intros Q; assert (false = true) by tauto; discriminate.
    - intros (x & -> & [<- | []] & _). left. reflexivity. }
  assert (N : In p [] <-> exists x, p = UndefinedToken x r /\ In x [] /\ x <> eof_name /\ ~ declared f x) by (split; [intros [] | intros (x & _ & [] & _)]).
  assert (B : forall l m, (exists x, p = UndefinedToken x r /\ In x (l ++ m) /\ x <> eof_name /\ ~ declared f x) <->
    (exists x, p = UndefinedToken x r /\ In x l /\ x <> eof_name /\ ~ declared f x) \/ (exists x, p = UndefinedToken x r /\ In x m /\ x <> eof_name /\ ~ declared f x)).
  { intros l m. split; [intros (x & E & I & R); apply in_app_or in I; destruct I; [left | right]; eauto |]. intros [(x & E & I & R) | (x & E & I & R)]; exists x; (split; [exact E | split; [apply in_or_app; auto | exact R]]). }
  induction i as [| [y | y args] | y | s m x [y | y args] | j IH | j IH | j IHj l IHl | j IH | j IH | j IH | j IHj l IHl | j IH y | y | j IHj l IHl | y j IH | j IHj l IHl];
    cbn [imeans atom_means undefined_tokens tokens_of atom_tokens]; rewrite ?app_nil_r, ?in_app_iff, ?B; try exact N; try apply A; try exact IH; rewrite IHj, IHl; tauto.
Qed.

Variable order : list item.
Hypothesis Or : Permutation order (rules_pushed (rev (events w))).
Lemma rule_mentions i r ft : In (RRule i r ft) (rules_ f) -> forall y, In y (symbols_of i) -> In y (flat_map rule_symbols (rules_ f)).
Proof. intros I y J. apply in_flat_map. exists (RRule i r ft). split; [exact I |]. cbn [rule_symbols]. apply in_or_app. auto. Qed.
(** All reports. *)
Definition file_report (p : report) : Prop :=
  (exists r i, ordinary f r i /\ item_report r i p) \/
  (exists r d x, In r (rules_ f) /\ first_var r d /\ reported d x /\ p = UndefinedType x (rule_name r)) \/
  (exists r i x, ordinary f r i /\ p = UndefinedToken x r /\ In x (tokens_of i) /\ x <> eof_name /\ ~ declared f x).
Lemma all_reports p : In p (undefined_reports w order) <-> file_report p.
Proof.
  unfold undefined_reports, file_report. rewrite in_app_iff, !in_flat_map.
  assert (M : forall i, In i order <-> exists r, In r (rules_ f) /\ i = rule_means (describe f) r).
  { intros i. split.
    - intros I. pose proof (Permutation_in _ Or I) as J. rewrite Rl in J. apply in_map_iff in J. destruct J as (r & E & J). exists r. split; [exact J | congruence].
    - intros (r & I & ->). apply (Permutation_in _ (Permutation_sym Or)). rewrite Rl. apply in_map. exact I. }
  assert (D : forall r, defined f (rule_name r) \/ ~ In r (rules_ f)).
  { intros r. destruct (has_rule w (rule_name r)) eqn:E; [left; apply has_rule_defined; exact E |]. right. intros I. apply not_true in E. apply E, has_rule_defined. exists r. auto. }
  assert (V : forall r q, (exists d, first_var r d /\ In q (visit_declaration w (rule_name r) d)) <-> In q match rule_vars r with d :: _ => visit_declaration w (rule_name r) d | [] => [] end).
  { intros r q. unfold first_var. destruct (rule_vars r) as [| d l]; split; [intros (d & (l & E) & _); discriminate | intros [] | intros (d' & (l' & E) & I); injection E as <- <-; exact I | intros I; exists d; eauto]. }
  split.
  - intros [(e & I & J) | (e & I & J)]; apply M in I; destruct I as (r & I & ->); rewrite evolve_name in J.
    + assert (K : In p match rule_vars r with d :: _ => visit_declaration w (rule_name r) d | [] => [] end \/ (exists i ft, r = RRule i (rule_name r) ft /\ In p (undefined_symbols w (rule_name r) (imeans (describe f) i)))).
      { destruct r as [i x ft | b args l x ft]; cbn [rule_means undefined_symbols rule_name rule_vars] in *; rewrite !in_app_iff, in_visit_symbol in J; destruct J as [J | [J | (_ & J)]].
        - left. exact J.
        - right. exists i, ft. split; [reflexivity | exact J].
        - destruct (D (RRule i x ft)) as [Q | Q]; tauto.
        - left. exact J.
        - destruct J.
        - destruct (D (ROperators b args l x ft)) as [Q | Q]; tauto. }
      destruct K as [K | (i & ft & E & K)].
      * apply V in K. destruct K as (d & F & K). apply in_visit_declaration in K. destruct K as (x & -> & K). right. left. exists r, d, x. auto.
      * left. exists (rule_name r), i. split; [exists ft; rewrite <- E; exact I |]. apply item_reports; [| exact K]. rewrite E in I. exact (rule_mentions _ _ _ I).
    + destruct r as [i x ft | b args l x ft]; cbn [rule_means undefined_tokens rule_name] in J; [| destruct J]. apply item_token_reports in J. destruct J as (y & J). right. right. exists x, i, y. split; [exists ft; exact I | exact J].
  - intros [(r & i & (ft & I) & K) | [(r & d & x & I & F & K & ->) | (r & i & x & (ft & I) & K)]].
    + left. exists (rule_means (describe f) (RRule i r ft)). split; [apply M; eauto |]. cbn [rule_means undefined_symbols evolve_symbol]. rewrite !in_app_iff. right. left. apply item_reports; [exact (rule_mentions _ _ _ I) | exact K].
    + left. exists (rule_means (describe f) r). split; [apply M; eauto |]. rewrite evolve_name.
      assert (Q : In (UndefinedType x (rule_name r)) match rule_vars r with d :: _ => visit_declaration w (rule_name r) d | [] => [] end) by (apply V; exists d; split; [exact F | apply in_visit_declaration; eauto]).
      destruct r; cbn [rule_means undefined_symbols rule_name rule_vars] in *; rewrite in_app_iff; left; exact Q.
    + right. exists (rule_means (describe f) (RRule i r ft)). split; [apply M; eauto |]. cbn [rule_means undefined_tokens evolve_symbol]. apply item_token_reports. eauto.
Qed.
End F.


(** The rules are read from a file, and come in some order. *)
Definition read_from (ast : bool) (f : file) (w : world) (order : list item) : Prop :=
  readable ast f /\ (exists l n v, map (fun x => (ltok x, lval x)) l = file_show f /\ read_tokens n ast (input l) = Accepted val world v w) /\
  Permutation order (rules_pushed (rev (events w))).
Lemma reports_of ast f w order : read_from ast f w order -> forall p, In p (undefined_reports w order) <-> file_report f p.
Proof.
  intros (Rd & (l & n & v & E & P) & O). destruct (any_reading ast f l n v w Rd E P) as (Rl & Sy & To). exact (all_reports f w Rl Sy To order O).
Qed.
Lemma no_reports (l : list report) : l = [] <-> forall p, ~ In p l.
Proof. split; [intros -> p [] |]. destruct l as [| p l]; [reflexivity |]. intros H. destruct (H p). left. reflexivity. Qed.

(** ** C98: undefined symbols
    Just the symbols in ordinary rules that have no rule are reported as undefined, with the
    rule they are used in.  If there are no reports, they and the types of the first variables
    have rules. *)
Theorem C98_symbols : forall ast f w order, read_from ast f w order -> forall x r,
  In (UndefinedSymbol x r) (undefined_reports w order) <-> exists i, ordinary f r i /\ In x (symbols_of i) /\ ~ defined f x.
Proof.
  intros ast f w order R x r. rewrite (reports_of _ _ _ _ R). split.
  - intros [(r' & i & O & [(y & E & I & N) | (y & z & E & _)]) | [(r' & d & y & _ & _ & _ & E) | (r' & i & y & _ & E & _)]]; try discriminate. injection E as <- <-. eauto.
  - intros (i & O & I & N). left. exists r, i. split; [exact O |]. left. eauto.
Qed.
Print Assumptions C98_symbols.
Theorem C98_silent : forall ast f w order, read_from ast f w order -> undefined_reports w order = [] ->
  (forall r i x, ordinary f r i -> In x (symbols_of i) -> defined f x) /\
  (forall r d, In r (rules_ f) -> first_var r d -> GramModel.dtype d = TypeNode -> defined f (dtypename d)).
Proof.
  intros ast f w order R E. rewrite no_reports in E. pose proof R as (Rd & (l & n & v & Es & P) & O). destruct (any_reading ast f l n v w Rd Es P) as (Rl & Sy & To).
  assert (De : forall x, (~ ~ defined f x) -> defined f x).
  { intros x H. destruct (has_rule w x) eqn:Q; [apply (has_rule_defined f w Rl); exact Q |]. apply not_true in Q. destruct H. intros H. apply Q, (has_rule_defined f w Rl). exact H. }
  split.
  - intros r i x Oi I. apply De. intros N. apply (E (UndefinedSymbol x r)). apply (C98_symbols _ _ _ _ R). eauto.
  - intros r d I F K. apply De. intros N.
    assert (Q : exists x, reported f d x).
    { destruct (in_dec (list_eq_dec ascii_dec) (dtypename d) (flat_map rule_symbols (rules_ f))) as [J | J]; [exists (dname d) | exists (dtypename d)]; split; auto. }
    destruct Q as (x & Q). apply (E (UndefinedType x (rule_name r))). apply (reports_of _ _ _ _ R). right. left. exists r, d, x. auto.
Qed.
Print Assumptions C98_silent.
(** A report on the type of a variable always means that some type has no rule. *)
Theorem C98_types : forall ast f w order, read_from ast f w order -> forall x r,
  In (UndefinedType x r) (undefined_reports w order) ->
  exists y, ~ defined f y /\ ((exists i, ordinary f r i /\ binds i x y) \/
    (exists q d, In q (rules_ f) /\ rule_name q = r /\ first_var q d /\ GramModel.dtype d = TypeNode /\ dtypename d = y /\ (x = y \/ x = dname d))).
Proof.
  intros ast f w order R x r I. apply (reports_of _ _ _ _ R) in I.
  destruct I as [(r' & i & O & [(y & E & _) | (y & z & E & B & N)]) | [(q & d & y & I & F & (K & N & H) & E) | (r' & i & y & _ & E & _)]]; try discriminate; injection E as -> ->.
  - exists z. split; [exact N |]. left. eauto.
  - exists (dtypename d). split; [exact N |]. right. exists q, d. intuition.
Qed.
Print Assumptions C98_types.

(** ** C99: undeclared tokens
    Just the tokens in ordinary rules that are not declared are reported, except for EOF. *)
Theorem C99_tokens : forall ast f w order, read_from ast f w order -> forall x r,
  In (UndefinedToken x r) (undefined_reports w order) <-> exists i, ordinary f r i /\ In x (tokens_of i) /\ x <> chars "EOF" /\ ~ declared f x.
Proof.
  intros ast f w order R x r. rewrite (reports_of _ _ _ _ R). split.
  - intros [(r' & i & O & [(y & E & I & N) | (y & z & E & _)]) | [(r' & d & y & _ & _ & _ & E) | (r' & i & y & O & E & K)]]; try discriminate. injection E as <- <-. eauto.
  - intros (i & O & K). right. right. exists r, i, x. auto.
Qed.
Print Assumptions C99_tokens.
(** So with no reports, what C94 to C97 ask for holds if the tokens of operators are declared
    and EOF is not used. *)
Definition operator_tokens_declared (f : file) : Prop := forall b args l x ft y, In (ROperators b args l x ft) (rules_ f) -> In y (flat_map operator_tokens l) -> declared f y.
Definition end_not_used (f : file) : Prop := forall r i, ordinary f r i -> ~ In (chars "EOF") (tokens_of i).
Theorem C99_declared : forall ast f w order, read_from ast f w order -> undefined_reports w order = [] -> operator_tokens_declared f -> end_not_used f -> tokens_declared f.
Proof.
  intros ast f w order R E OT EN r x I J. rewrite no_reports in E. destruct r as [i s ft | b args l s ft]; [| exact (OT _ _ _ _ _ _ I J)].
  destruct (in_dec (list_eq_dec ascii_dec) x (map fst (file_tokens f))) as [D | D]; [exact D |]. exfalso.
  apply (E (UndefinedToken x s)). apply (C99_tokens _ _ _ _ R). exists i. split; [exists ft; exact I |]. split; [exact J |]. split; [| exact D].
  intros ->. apply (EN s i); [exists ft; exact I | exact J].
Qed.
Print Assumptions C99_declared.

(** ** What is not found *)
Definition node_var (x y : string) : vsrc := Var false true false (chars x) (Some (true, chars y)).
Ltac no_rule := let r := fresh in let I := fresh in let N := fresh in intros (r & I & N); cbn [In rules_] in I; repeat destruct I as [I | I]; try (destruct I; fail); subst r; discriminate N.
Ltac read_it f := split; [repeat split; eexists; vm_compute; reflexivity | split; [| apply Permutation_refl]; exists (GramProps.shown f), 2000; eexists; split; [vm_compute; reflexivity | reading; reflexivity]].
(** Full statement of C98: whatever is used has a rule.  False: what operators are applied to
    is not looked at, and neither is any variable but the first. *)
Definition holes : file := File None (DTokens (tok "A") []) []
  [ROperators (chars "missing") None [GramSpec.OBin (plain_op "A") (PNumber (chars "1")) GramSpec.Left] (chars "expression") no_foot;
   RRule (GraphProps.T "A") (chars "start") (VarsCode (node_var "one" "expression") [node_var "two" "nowhere"] None)] None.
Theorem C98_unnoticed_refuted : exists ast f w order, read_from ast f w order /\ undefined_reports w order = [] /\
  (exists b args l x ft, In (ROperators b args l x ft) (rules_ f) /\ ~ defined f b) /\
  (exists r d, In r (rules_ f) /\ In d (rule_vars r) /\ GramModel.dtype d = TypeNode /\ ~ defined f (dtypename d)).
Proof.
  exists true, holes. eexists _, _. split; [read_it holes |]. split; [vm_compute; reflexivity |]. split.
  - eexists _, _, _, _, _. split; [left; reflexivity |]. no_rule.
  - eexists _, (vmeans (node_var "two" "nowhere")). split; [right; left; reflexivity |]. split; [right; left; reflexivity |]. split; [reflexivity |]. no_rule.
Qed.
Print Assumptions C98_unnoticed_refuted.
(** Nor does the report on a type always have its name: here fine is the name of the variable,
    and has a rule. *)
Definition misnamed : file := File None (DTokens (tok "A") []) []
  [RRule (IThen (IBind false true (chars "fine") (ASym (chars "missing") None)) (S_ "fine")) (chars "start") no_foot; RRule (GraphProps.T "A") (chars "fine") no_foot] None.
Theorem C98_name_refuted : exists ast f w order x r, read_from ast f w order /\ In (UndefinedType x r) (undefined_reports w order) /\ defined f x.
Proof.
  exists true, misnamed. eexists _, _, (chars "fine"), (chars "start"). split; [read_it misnamed |]. split; [vm_compute; auto |].
  eexists. split; [right; left; reflexivity | reflexivity].
Qed.
Print Assumptions C98_name_refuted.
(** Full statement of C99: without operator_tokens_declared and end_not_used.  False. *)
Definition blind : file := File None (DTokens (tok "A") []) []
  [ROperators (chars "start") None [GramSpec.OBin (plain_op "B") (PNumber (chars "1")) GramSpec.Left] (chars "expression") no_foot;
   RRule (IThen (GraphProps.T "A") (GraphProps.T "EOF")) (chars "start") no_foot] None.
Theorem C99_unnoticed_refuted : exists ast f w order, read_from ast f w order /\ undefined_reports w order = [] /\
  (exists r x, In r (rules_ f) /\ In x (rule_tokens r) /\ x <> chars "EOF" /\ ~ declared f x) /\ (exists r i, ordinary f r i /\ In (chars "EOF") (tokens_of i)) /\ ~ declared f (chars "EOF").
Proof.
  exists true, blind. eexists _, _. split; [read_it blind |]. split; [vm_compute; reflexivity |].
  assert (D : forall x, declared blind x -> x = chars "A") by (intros x [<- | []]; reflexivity).
  split; [| split].
  - eexists _, (chars "B"). split; [left; reflexivity |]. split; [left; reflexivity |]. split; [discriminate | intros H; apply D in H; discriminate].
  - eexists _, _. split; [eexists; right; left; reflexivity | right; left; reflexivity].
  - intros H; apply D in H; discriminate.
Qed.
Print Assumptions C99_unnoticed_refuted.

(** The calculator (GraphProps) has no reports and all that C99_declared asks for; this file
    has one of each kind. *)
Example C98_case : read_from true calculator calculator_world (rules_pushed (rev (events calculator_world))) /\
  undefined_reports calculator_world (rules_pushed (rev (events calculator_world))) = [] /\ operator_tokens_declared calculator /\ end_not_used calculator.
Proof.
  destruct calculator_read as (Rd & v & P). split; [split; [exact Rd | split; [exists (GramProps.shown calculator), 3000, v; split; [exact calculator_shown | exact P] | apply Permutation_refl]] |].
  split; [vm_compute; reflexivity |]. split.
  - intros b args l x ft y I J. rule_of I. injection I as <- <- <- <- <-. vm_compute in J |- *. tauto.
  - intros r i (ft & I) J. rule_of I; injection I as <- <- <-; vm_compute in J; repeat destruct J as [J | J]; try discriminate J; exact J.
Qed.
Definition wrong : file := File None (DTokens (tok "A") []) []
  [RRule (IThen (IBind false true (chars "x") (ASym (chars "missing") None)) (GraphProps.T "B")) (chars "start") (VarsCode (node_var "v" "nowhere") [] None)] None.
Example C98_reports_case : exists w order, read_from true wrong w order /\ undefined_reports w order =
  [UndefinedType (chars "nowhere") (chars "start"); UndefinedType (chars "x") (chars "start"); UndefinedSymbol (chars "missing") (chars "start"); UndefinedToken (chars "B") (chars "start")].
Proof. eexists _, _. split; [read_it wrong |]. vm_compute. reflexivity. Qed.
