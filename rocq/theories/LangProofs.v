(** The nodes made from a grammar file describe the language of the file. *)
From Coq Require Import List Ascii String Bool PeanoNat Lia.
From Verif Require Import FlexModel GramModel GramSpec LangSpec.
From Verif Require Import GraphModel GraphProofs GrammarModel GrammarSpec.
Import ListNotations.
Open Scope list_scope.

Scheme says_min := Minimality for says Sort Prop
with sentence_min := Minimality for sentence Sort Prop
with expression_min := Minimality for expression Sort Prop.
Combined Scheme says_all from says_min, sentence_min, expression_min.

Fixpoint unpar (i : isrc) : isrc := match i with IPar j => unpar j | _ => i end.
Lemma unpar_means D i : imeans D (unpar i) = imeans D i.
Proof. induction i; cbn [unpar imeans]; auto. Qed.
Lemma unpar_says f i w : says f (unpar i) w -> says f i w.
Proof. revert w. induction i; cbn [unpar]; auto. intros w H. constructor. auto. Qed.
Lemma unpar_not i j : unpar i <> IPar j.
Proof. induction i; cbn [unpar]; try discriminate. exact IHi. Qed.

Lemma list_says f i j u : forall w, says f (IAnyMany (IThen j i)) w -> says f i u -> says f (IListOf i j) (u ++ w).
Proof.
  intros w H. remember (IAnyMany (IThen j i)) as a eqn:E. revert u. induction H; try discriminate E; intros x Hx; injection E as ->.
  - rewrite app_nil_r. apply y_list1. exact Hx.
  - inversion H; subst. rewrite <- app_assoc. apply y_list; auto.
Qed.

Lemma forall2_right {A B} (R : A -> B -> Prop) l m : Forall2 R l m -> forall y, In y m -> exists x, In x l /\ R x y.
Proof. induction 1 as [|x y l m H F IH]; intros z I; [destruct I |]. destruct I as [<- | I]; [exists x; split; [left; reflexivity | exact H] |]. destruct (IH z I) as (u & Iu & Ru). exists u. split; [right; exact Iu | exact Ru]. Qed.
Lemma forall2_left {A B} (R : A -> B -> Prop) l m : Forall2 R l m -> forall x, In x l -> exists y, In y m /\ R x y.
Proof. induction 1 as [|x y l m H F IH]; intros z I; [destruct I |]. destruct I as [<- | I]; [exists y; split; [left; reflexivity | exact H] |]. destruct (IH z I) as (u & Iu & Ru). exists u. split; [right; exact Iu | exact Ru]. Qed.

Section L.
Variable f : file.
Variable w : world.
Variable order : list id.
Notation g := (graph w order).
Notation kind := (GrammarModel.kind g).
Notation tid := (token_id w).
Notation sid := (symbol_id w).
Notation D := (describe f).
Notation rep := (rep g tid sid).
Notation known := (known tid sid).
Notation derives := (derives g).
Hypothesis Rl : rules_pushed (rev (events w)) = map (rule_means D) (rules_ f).
Hypothesis Sy : symbols_pushed (rev (events w)) = flat_map rule_symbols (rules_ f).
Hypothesis To : forall x, lookup x (terminals w) = first_of (file_tokens f) x.
Hypothesis Decl : tokens_declared f.
Hypothesis Ord : forall e, In e order <-> In e (rule_ids w).

(** Every name has its node. *)
Lemma token_named x : In x (map fst (file_tokens f)) <-> exists t, tid x = Some t.
Proof.
  unfold token_id. rewrite <- index_some. unfold token_names. specialize (To x). unfold lookup, first_of in To.
  assert (F : forall (l : list (text * text)), In x (map fst l) <-> find (fun e => if list_eq_dec ascii_dec (fst e) x then true else false) l <> None).
  { clear. induction l as [|[y d] l IH]; cbn [map fst find In]; [split; [intros [] | congruence] |].
    destruct (list_eq_dec ascii_dec y x) as [-> | N]; [split; [discriminate | auto] |]. rewrite <- IH. split; [intros [E | H]; [congruence | exact H] | auto]. }
  rewrite !F. match type of To with match ?a with _ => _ end = match ?b with _ => _ end => destruct a, b end; split; intros; congruence.
Qed.
Lemma pushed_in x : forall l st, In x (fst (fold_left push_symbol l st)) <-> In x (fst st) \/ In x l.
Proof.
  induction l as [|y l IH]; intros st; cbn [fold_left In]; [tauto |]. rewrite IH. unfold push_symbol. destruct (existsb (same y) (fst st)) eqn:E; cbn [fst].
  - apply existsb_exists in E. destruct E as (z & I & Ez). apply same_iff in Ez. subst z. split; [tauto |]. intros [H | [-> | H]]; auto.
  - rewrite in_app_iff. cbn [In]. tauto.
Qed.
Lemma symbol_named x : In x (flat_map rule_symbols (rules_ f)) <-> exists s, sid x = Some s.
Proof. unfold symbol_id. rewrite <- index_some. unfold symbol_names, pushed. rewrite Sy, pushed_in. cbn [fst In]. tauto. Qed.

Lemma known_item : forall i, (forall x, In x (tokens_of i) -> exists t, tid x = Some t) -> (forall x, In x (symbols_of i) -> exists s, sid x = Some s) -> known (imeans D i).
Proof.
  assert (A : forall a, (forall x, In x (atom_tokens a) -> exists t, tid x = Some t) -> (forall x, In x (atom_symbols a) -> exists s, sid x = Some s) -> known (atom_means D a)).
  { intros [x | x args] H1 H2; cbn [atom_means GraphProofs.known]; [apply H1 | apply H2]; left; reflexivity. }
  induction i; cbn [tokens_of symbols_of imeans GraphProofs.known]; intros H1 H2; auto;
    try (split; [first [apply IHi1 | apply IHi2] | first [apply IHi2 | apply IHi1]]; intros; (apply H1 || apply H2); apply in_app_iff; auto; fail).
  - apply H2. left. reflexivity.
  - assert (K1 : known (imeans D i1)) by (apply IHi1; intros; (apply H1 || apply H2); apply in_app_iff; auto).
    assert (K2 : known (imeans D i2)) by (apply IHi2; intros; (apply H1 || apply H2); apply in_app_iff; auto). auto.
Qed.
Definition known_src (i : isrc) : Prop := known (imeans D i).
Lemma rule_tokens_known r x : In r (rules_ f) -> In x (rule_tokens r) -> exists t, tid x = Some t.
Proof. intros I Ix. apply token_named. eapply Decl; eauto. Qed.
Lemma rule_symbols_known r x : In r (rules_ f) -> In x (rule_symbols r) -> exists s, sid x = Some s.
Proof. intros I Ix. apply symbol_named. apply in_flat_map. eauto. Qed.
Lemma rule_src_known i x ft : In (RRule i x ft) (rules_ f) -> known_src i /\ exists s, sid x = Some s.
Proof.
  intros I. split.
  - apply known_item; [intros y Iy; eapply rule_tokens_known; [exact I | exact Iy] | intros y Iy; eapply rule_symbols_known; [exact I | apply in_app_iff; left; exact Iy]].
  - eapply rule_symbols_known; [exact I | apply in_app_iff; right; left; reflexivity].
Qed.
Lemma rule_known r : In r (rules_ f) -> known_rule tid sid (rule_means D r).
Proof.
  intros I. destruct r as [i x ft | b args l x ft]; cbn [rule_means].
  - destruct (rule_src_known _ _ _ I) as [K Kx]. unfold known_src in K. cbn [known_rule]. destruct (imeans D i) eqn:E; auto; destruct K.
  - cbn [known_rule]. split; [| split; eapply rule_symbols_known; [exact I | cbn [In rule_symbols]; auto | exact I | cbn [In rule_symbols]; auto]].
    apply Forall_forall. intros o Io. unfold by_kind in Io. apply in_flat_map in Io. destruct Io as (k & _ & Io).
    apply filter_In in Io. destruct Io as [Io _]. apply in_map_iff in Io. destruct Io as (o' & <- & Io').
    assert (T3 : forall x, In x (operator_tokens o') -> exists t, tid x = Some t) by (intros y Iy; eapply rule_tokens_known; [exact I | cbn [rule_tokens]; apply in_flat_map; eauto]).
    destruct o'; cbn [ops_means known_operator operator_tokens tok_name omeans] in *; [| split | | | split]; apply T3; cbn [In]; auto.
Qed.
Lemma rules_known : Forall (known_rule tid sid) (rules_pushed (rev (events w))).
Proof. rewrite Rl. apply Forall_forall. intros i I. apply in_map_iff in I. destruct I as (r & <- & I). apply rule_known. exact I. Qed.

(** A rule and its node. *)
Lemma rule_node e : In e order -> exists r, In r (rules_ f) /\ rep (rule_means D r) e.
Proof.
  intros I. apply Ord in I. destruct (graph_rules w order rules_known) as (F & _). rewrite Rl in F.
  destruct (forall2_right _ _ _ F e I) as (i & Ii & R). apply in_map_iff in Ii. destruct Ii as (r & <- & Ir). eauto.
Qed.
Lemma node_rule r : In r (rules_ f) -> exists e, In e order /\ rep (rule_means D r) e.
Proof.
  intros I. destruct (graph_rules w order rules_known) as (F & _). rewrite Rl in F.
  destruct (forall2_left _ _ _ F (rule_means D r) (in_map _ _ _ I)) as (e & I' & R). exists e. split; [apply Ord; exact I' | exact R].
Qed.

(** Words of tokens and their names. *)
Definition word (v : list id) (ws : list text) : Prop := Forall2 (fun t x => tid x = Some t) v ws.
Lemma word_app v1 v2 w1 w2 : word v1 w1 -> word v2 w2 -> word (v1 ++ v2) (w1 ++ w2).
Proof. apply Forall2_app. Qed.
Lemma word_fun v w1 w2 : word v w1 -> word v w2 -> w1 = w2.
Proof.
  intros H. revert w2. induction H as [|t x v w1 E H IH]; intros w2 H2; inversion H2; subst; [reflexivity |]. f_equal; [eapply index_inj; eassumption | apply IH; assumption].
Qed.
Lemma word_inj v1 v2 ws : word v1 ws -> word v2 ws -> v1 = v2.
Proof.
  intros H. revert v2. induction H as [|t x v w1 E H IH]; intros v2 H2; inversion H2; subst; [reflexivity |]. f_equal; [congruence | apply IH; assumption].
Qed.

Lemma rep_zero n : rep IZero n -> kind n = NZero.
Proof. cbn [GraphProofs.rep]. intros ->. apply kind_zero. Qed.
Lemma rep_term x d n : rep (ITerminal x d) n -> kind n = NTerm.
Proof. cbn [GraphProofs.rep]. intros E. apply (token_ok w order x n E). Qed.
Lemma sym_known x : (exists s, sid x = Some s) -> sid x = Some (sym_id sid x).
Proof. intros [s E]. unfold sym_id. rewrite E. reflexivity. Qed.


(** From nodes to the file. *)
Definition reads (n : id) (v : list id) : Prop :=
  (forall i, rep (imeans D i) n -> known_src i -> exists ws, word v ws /\ says f i ws) /\
  (forall x, sid x = Some n -> exists ws, word v ws /\ sentence f x ws) /\
  (forall nm b l, rep (IOperator nm b (map (ops_means D) l)) n -> (exists s, sid b = Some s) -> exists ws, word v ws /\ expression f b l ws).

(** What a node that is an item looks like. *)
Definition head (i : isrc) (k : node) : Prop :=
  match i with
  | IEmpty => k = NZero
  | IAtom (ATok _) => k = NTerm
  | IAtom (ASym x _) => k = NNon (sym_id sid x)
  | IInlined x => k = NInl (sym_id sid x)
  | IBind _ _ _ a => exists m, k = NAnn m /\ rep (imeans D (IAtom a)) m
  | IPar _ => False
  | IRecover j => exists m, k = NTry m None /\ rep (imeans D j) m
  | IRollback j l => exists m1 m2, k = NTry m1 (Some m2) /\ rep (imeans D j) m1 /\ rep (imeans D l) m2
  | IMany j => exists m c a, k = NPlus m c a /\ rep (imeans D j) m
  | IAnyMany j => exists m c a, k = NStar m c a /\ rep (imeans D j) m
  | IMaybe j => exists m1 m2, k = NAlt m1 m2 /\ rep (imeans D j) m1 /\ rep (imeans D IEmpty) m2
  | IListOf j l => exists m1 m2, k = NCons m1 m2 /\ rep (imeans D j) m1 /\ rep (imeans D (IAnyMany (IThen l j))) m2
  | IWithCode j _ => exists m, k = NAct (Some m) /\ rep (imeans D j) m
  | IOnlyCode _ => k = NAct None
  | IThen j l => exists m1 m2, k = NCons m1 m2 /\ rep (imeans D j) m1 /\ rep (imeans D l) m2
  | IWhen _ j => exists m, k = NCond m /\ rep (imeans D j) m
  | IOr j l => exists m1 m2, k = NAlt m1 m2 /\ rep (imeans D j) m1 /\ rep (imeans D l) m2
  end.
Lemma head_rep i n : (forall j, i <> IPar j) -> rep (imeans D i) n -> head i (kind n).
Proof.
  intros NP R. destruct i; cbn [imeans] in R; cbn [head]; try exact R.
  - apply rep_zero. exact R.
  - destruct a; cbn [atom_means] in R; [eapply rep_term; exact R | exact R].
  - exfalso. eapply NP. reflexivity.
Qed.
Lemma unparred n v : (forall i, head i (kind n) -> rep (imeans D i) n -> known_src i -> exists ws, word v ws /\ says f i ws) ->
  forall i, rep (imeans D i) n -> known_src i -> exists ws, word v ws /\ says f i ws.
Proof.
  intros H i R K. destruct (H (unpar i)) as (ws & W & Y).
  - apply head_rep; [apply unpar_not | rewrite unpar_means; exact R].
  - rewrite unpar_means. exact R.
  - unfold known_src. rewrite unpar_means. exact K.
  - exists ws. split; [exact W | apply unpar_says; exact Y].
Qed.
Ltac open_head H := cbn [head] in H; repeat match type of H with
  | exists _, _ => let m := fresh "m" in destruct H as [m H]
  | _ /\ _ => let E := fresh "E" in destruct H as [E H]
  end.
Ltac by_head i Hh := destruct i as [|[|]| | | | | | | | | | | | | |]; open_head Hh; try discriminate; try (destruct Hh; fail); try match goal with E : ?x = _ |- _ => discriminate E end.
Lemma reads_item n v : (forall b ops x, kind n <> NOper b ops x) -> kind n <> NSym ->
  (forall i, head i (kind n) -> rep (imeans D i) n -> known_src i -> exists ws, word v ws /\ says f i ws) -> reads n v.
Proof.
  intros NO NS H. split; [apply unparred; exact H |]. split.
  - intros x E. destruct (symbol_ok w order x n E) as [K _]. contradiction.
  - intros nm b l R. cbn [GraphProofs.rep] in R. destruct R as (m & os & x & K & _). exfalso. eapply NO. exact K.
Qed.
Lemma reads_operator n b' ops' x' v : kind n = NOper b' ops' x' ->
  (forall nm b l, rep (IOperator nm b (map (ops_means D) l)) n -> (exists s, sid b = Some s) -> exists ws, word v ws /\ expression f b l ws) -> reads n v.
Proof.
  intros K H. split; [apply unparred; intros i Hd _ _ | split; [| exact H]].
  - exfalso. rewrite K in Hd. by_head i Hd.
  - intros x E. destruct (symbol_ok w order x n E) as [K2 _]. congruence.
Qed.
Lemma operator_src l p os : Forall2 (rep_op tid) (by_kind (map (ops_means D) l)) os -> In p os ->
  exists o, In o l /\ rep_op tid (ops_means D o) p.
Proof.
  intros F I. destruct (forall2_right _ _ _ F p I) as (o & Io & R). unfold by_kind in Io. apply in_flat_map in Io. destruct Io as (k & _ & Io).
  apply filter_In in Io. destruct Io as [Io _]. apply in_map_iff in Io. destruct Io as (o' & <- & Io'). eauto.
Qed.
Lemma src_operator l o os : Forall2 (rep_op tid) (by_kind (map (ops_means D) l)) os -> In o l -> exists p, In p os /\ rep_op tid (ops_means D o) p.
Proof.
  intros F I. apply (forall2_left _ _ _ F). unfold by_kind. apply in_flat_map.
  exists match ops_means D o with Pre _ _ => 0 | Post _ _ _ => 1 | Bin _ _ _ => 2 | Tern _ _ _ _ => 3 | Paren _ _ => 4 end.
  split; [destruct (ops_means D o); cbn [In]; tauto |]. apply filter_In. split; [apply in_map; exact I | unfold one_kind; apply Nat.eqb_refl].
Qed.
Lemma word_one x t : tid x = Some t -> word [t] [x].
Proof. intros E. repeat constructor. exact E. Qed.
Lemma base_reads m v b : reads m v -> kind m = NNon (sym_id sid b) -> (exists s, sid b = Some s) -> exists ws, word v ws /\ sentence f b ws.
Proof.
  intros (R & _) K Kb. destruct (R (IAtom (ASym b None)) K Kb) as (ws & W & Y). exists ws. split; [exact W |]. inversion Y; subst. assumption.
Qed.

Lemma derives_reads : forall n v, derives n v -> reads n v.
Proof.
  induction 1 as [n K | n K | s e i v Ks Ie Ke Hd IH | e i s v K Hd IH | n s v K Hd IH | n s v K Hd IH | n i c a v K Hd IH | n i c a u v K H1 IH1 H2 IH2
    | n i c a K | n i c a u v K H1 IH1 H2 IH2 | n K | n i v K Hd IH | n l r v K Hd IH | n l r v K Hd IH | n l r u v K H1 IH1 H2 IH2 | n t c v K Hd IH | n t c v K Hd IH
    | n i v K Hd IH | n i v K Hd IH | n b ops x v K Hd IH | n b ops x t v K Io Hd IH | n b ops x t v K Io Hd IH | n b ops x t u v K Io H1 IH1 H2 IH2
    | n b ops x s t u v z K Io H1 IH1 H2 IH2 H3 IH3 | n b ops x s t v K Io Hd IH].
  - (* zero *) apply reads_item; try congruence. intros i Hh R Kn. rewrite K in Hh. by_head i Hh.
    exists []. split; constructor.
  - (* term *) apply reads_item; try congruence. intros i Hh R Kn. rewrite K in Hh. by_head i Hh.
    cbn [imeans atom_means GraphProofs.rep] in R. exists [x]. split; [apply word_one; exact R | constructor].
  - (* symbol *) split; [apply unparred; intros j Hh R Kn; exfalso; rewrite Ks in Hh; by_head j Hh |].
    split; [| intros nm b l R; cbn [GraphProofs.rep] in R; destruct R as (m & os & y & K & _); congruence].
    intros x E. destruct (rule_node e Ie) as (r & Ir & Rr). pose proof (rule_known r Ir) as Kr.
    destruct r as [j y ft | b args l y ft]; cbn [rule_means GraphProofs.rep] in Rr.
    + destruct Rr as (k & Kk & Rk). rewrite Ke in Kk. injection Kk as <- Es. cbn [rule_means known_rule] in Kr.
      destruct (rule_src_known _ _ _ Ir) as [Kj Ky]. apply sym_known in Ky. rewrite <- Es in Ky. assert (x = y) by (eapply index_inj; eassumption). subst y.
      destruct (proj1 IH j Rk Kj) as (ws & W & Y). exists ws. split; [exact W | eapply y_rule; eassumption].
    + destruct Rr as (k & Kk & Rk). rewrite Ke in Kk. injection Kk as <- Es. cbn [rule_means known_rule] in Kr. destruct Kr as (_ & Kb & Ky).
      apply sym_known in Ky. rewrite <- Es in Ky. assert (x = y) by (eapply index_inj; eassumption). subst y.
      destruct (proj2 (proj2 IH) x b l Rk Kb) as (ws & W & Y). exists ws. split; [exact W | eapply y_expr; eassumption].
  - (* evolve *) apply reads_item; try congruence. intros j Hh R Kn. rewrite K in Hh. by_head j Hh.
  - (* nonterminal *) apply reads_item; try congruence. intros j Hh R Kn. rewrite K in Hh. by_head j Hh. injection Hh as ->.
    destruct (proj1 (proj2 IH) _ (sym_known _ Kn)) as (ws & W & Y). exists ws. split; [exact W | constructor; exact Y].
  - (* inlined *) apply reads_item; try congruence. intros j Hh R Kn. rewrite K in Hh. by_head j Hh. injection Hh as ->.
    destruct (proj1 (proj2 IH) _ (sym_known _ Kn)) as (ws & W & Y). exists ws. split; [exact W | constructor; exact Y].
  - (* plus *) apply reads_item; try congruence. intros j Hh R Kn. rewrite K in Hh. by_head j Hh. injection E as <- <- <-.
    destruct (proj1 IH _ Hh Kn) as (ws & W & Y). exists ws. split; [exact W | apply y_many1; exact Y].
  - apply reads_item; try congruence. intros j Hh R Kn. rewrite K in Hh. by_head j Hh. injection E as <- <- <-.
    destruct (proj1 IH1 _ Hh Kn) as (ws & W & Y). destruct (proj1 IH2 _ R Kn) as (ws' & W' & Y'). exists (ws ++ ws'). split; [apply word_app; assumption | apply y_many; assumption].
  - (* star *) apply reads_item; try congruence. intros j Hh R Kn. rewrite K in Hh. by_head j Hh. exists []. split; [constructor | apply y_any0].
  - apply reads_item; try congruence. intros j Hh R Kn. rewrite K in Hh. by_head j Hh. injection E as <- <- <-.
    destruct (proj1 IH1 _ Hh Kn) as (ws & W & Y). destruct (proj1 IH2 _ R Kn) as (ws' & W' & Y'). exists (ws ++ ws'). split; [apply word_app; assumption | apply y_any; assumption].
  - (* code *) apply reads_item; try congruence. intros j Hh R Kn. rewrite K in Hh. by_head j Hh. exists []. split; constructor.
  - apply reads_item; try congruence. intros j Hh R Kn. rewrite K in Hh. by_head j Hh. injection E as <-.
    destruct (proj1 IH _ Hh Kn) as (ws & W & Y). exists ws. split; [exact W | constructor; exact Y].
  - (* alternatives *) apply reads_item; try congruence. intros j Hh R Kn. rewrite K in Hh. by_head j Hh; injection E as <- <-; destruct Kn as [Kn1 Kn2]; destruct (proj1 IH _ E0 Kn1) as (ws & W & Y); exists ws; (split; [exact W |]).
    + apply y_maybe. exact Y.
    + apply y_left. exact Y.
  - apply reads_item; try congruence. intros j Hh R Kn. rewrite K in Hh. by_head j Hh; injection E as <- <-; destruct Kn as [Kn1 Kn2]; destruct (proj1 IH _ Hh Kn2) as (ws & W & Y); exists ws; (split; [exact W |]).
    + inversion Y. apply y_maybe0.
    + apply y_right. exact Y.
  - (* sequence *) apply reads_item; try congruence. intros j Hh R Kn. rewrite K in Hh. by_head j Hh; injection E as <- <-; destruct Kn as [Kn1 Kn2];
      destruct (proj1 IH1 _ E0 Kn1) as (ws & W & Y); destruct (proj1 IH2 _ Hh Kn2) as (ws' & W' & Y'); exists (ws ++ ws'); (split; [apply word_app; assumption |]).
    + apply list_says; assumption.
    + apply y_then; assumption.
  - (* try *) apply reads_item; try congruence. intros j Hh R Kn. rewrite K in Hh. by_head j Hh; injection E as <- ->.
    + destruct (proj1 IH _ Hh Kn) as (ws & W & Y). exists ws. split; [exact W | apply y_recover; exact Y].
    + destruct Kn as [Kn1 Kn2]. destruct (proj1 IH _ E0 Kn1) as (ws & W & Y). exists ws. split; [exact W | apply y_try; exact Y].
  - apply reads_item; try congruence. intros j Hh R Kn. rewrite K in Hh. by_head j Hh; injection E as <- <-.
    destruct Kn as [Kn1 Kn2]. destruct (proj1 IH _ Hh Kn2) as (ws & W & Y). exists ws. split; [exact W | apply y_catch; exact Y].
  - (* annotation *) apply reads_item; try congruence. intros j Hh R Kn. rewrite K in Hh. by_head j Hh; injection E as <-.
    destruct (proj1 IH _ Hh Kn) as (ws & W & Y). exists ws. split; [exact W | apply y_bind; exact Y].
  - (* condition *) apply reads_item; try congruence. intros j Hh R Kn. rewrite K in Hh. by_head j Hh; injection E as <-.
    destruct (proj1 IH _ Hh Kn) as (ws & W & Y). exists ws. split; [exact W | constructor; exact Y].
  - (* operators *) eapply reads_operator; [exact K |]. intros nm b' l R Kb. cbn [GraphProofs.rep] in R. destruct R as (m & os & y & K' & Km & F). rewrite K in K'. injection K' as <- <- <-.
    destruct (base_reads _ _ _ IH Km Kb) as (ws & W & Y). exists ws. split; [exact W | apply y_base; exact Y].
  - eapply reads_operator; [exact K |]. intros nm b' l R Kb. destruct (proj2 (proj2 IH) nm b' l R Kb) as (ws & W & Y). cbn [GraphProofs.rep] in R. destruct R as (m & os & y & K' & Km & F). rewrite K in K'. injection K' as <- <- <-.
    destruct (operator_src _ _ _ F Io) as (o & Il & Ro). destruct o; cbn [ops_means rep_op tok_name omeans] in Ro; repeat match type of Ro with exists _, _ => destruct Ro as [? Ro] | _ /\ _ => destruct Ro as [? Ro] end; try discriminate Ro. injection Ro as <-.
    exists (otok o :: ws). split; [constructor; assumption | eapply y_pre; eassumption].
  - eapply reads_operator; [exact K |]. intros nm b' l R Kb. destruct (proj2 (proj2 IH) nm b' l R Kb) as (ws & W & Y). cbn [GraphProofs.rep] in R. destruct R as (m & os & y & K' & Km & F). rewrite K in K'. injection K' as <- <- <-.
    destruct (operator_src _ _ _ F Io) as (o & Il & Ro). destruct o; cbn [ops_means rep_op tok_name omeans] in Ro; repeat match type of Ro with exists _, _ => destruct Ro as [? Ro] | _ /\ _ => destruct Ro as [? Ro] end; try discriminate Ro. injection Ro as <-.
    exists (ws ++ [otok o]). split; [apply word_app; [exact W | apply word_one; assumption] | eapply y_post; eassumption].
  - eapply reads_operator; [exact K |]. intros nm b' l R Kb. destruct (proj2 (proj2 IH1) nm b' l R Kb) as (ws & W & Y). destruct (proj2 (proj2 IH2) nm b' l R Kb) as (ws' & W' & Y'). cbn [GraphProofs.rep] in R. destruct R as (m & os & y & K' & Km & F). rewrite K in K'. injection K' as <- <- <-.
    destruct (operator_src _ _ _ F Io) as (o & Il & Ro). destruct o; cbn [ops_means rep_op tok_name omeans] in Ro; repeat match type of Ro with exists _, _ => destruct Ro as [? Ro] | _ /\ _ => destruct Ro as [? Ro] end; try discriminate Ro. injection Ro as <-.
    exists (ws ++ otok o :: ws'). split; [apply word_app; [exact W | constructor; assumption] | eapply y_bin; eassumption].
  - eapply reads_operator; [exact K |]. intros nm b' l R Kb. destruct (proj2 (proj2 IH1) nm b' l R Kb) as (ws & W & Y). destruct (proj2 (proj2 IH2) nm b' l R Kb) as (ws' & W' & Y'). destruct (proj2 (proj2 IH3) nm b' l R Kb) as (wz & Wz & Yz).
    cbn [GraphProofs.rep] in R. destruct R as (m & os & y & K' & Km & F). rewrite K in K'. injection K' as <- <- <-.
    destruct (operator_src _ _ _ F Io) as (o & Il & Ro). destruct o; cbn [ops_means rep_op tok_name omeans] in Ro; repeat match type of Ro with exists _, _ => destruct Ro as [? Ro] | _ /\ _ => destruct Ro as [? Ro] end; try discriminate Ro. injection Ro as <- <-.
    exists (ws ++ otok o :: ws' ++ otok q :: wz). split; [| eapply y_tern; eassumption]. apply word_app; [exact W |]. constructor; [assumption |]. apply word_app; [exact W' |]. constructor; assumption.
  - eapply reads_operator; [exact K |]. intros nm b' l R Kb. destruct (proj2 (proj2 IH) nm b' l R Kb) as (ws & W & Y). cbn [GraphProofs.rep] in R. destruct R as (m & os & y & K' & Km & F). rewrite K in K'. injection K' as <- <- <-.
    destruct (operator_src _ _ _ F Io) as (o & Il & Ro). destruct o; cbn [ops_means rep_op tok_name omeans] in Ro; repeat match type of Ro with exists _, _ => destruct Ro as [? Ro] | _ /\ _ => destruct Ro as [? Ro] end; try discriminate Ro. injection Ro as <- <-.
    exists (otok o :: ws ++ [otok q]). split; [| eapply y_paren; eassumption]. constructor; [assumption |]. apply word_app; [exact W | apply word_one; assumption].
Qed.

(** Nodes that are the same item describe the same words. *)
Lemma rep_op_fun o p q : rep_op tid o p -> rep_op tid o q -> p = q.
Proof. destruct o; cbn [rep_op]; intros H1 H2; repeat match goal with H : exists _, _ |- _ => destruct H | H : _ /\ _ |- _ => destruct H end; congruence. Qed.
Lemma rep_ops_fun l os os' : Forall2 (rep_op tid) l os -> Forall2 (rep_op tid) l os' -> os = os'.
Proof.
  intros H. revert os'. induction H as [|o p l os R F IH]; intros os' H2; inversion H2; subst; [reflexivity |]. f_equal; [eapply rep_op_fun; eassumption | apply IH; assumption].
Qed.
Ltac open_rep R1 R2 :=
  cbn [GraphProofs.rep] in R1, R2;
  repeat match type of R1 with exists _, _ => let m := fresh "m" in destruct R1 as [m R1] | _ /\ _ => let E := fresh "E" in destruct R1 as [E R1] end;
  repeat match type of R2 with exists _, _ => let m := fresh "k" in destruct R2 as [m R2] | _ /\ _ => let E := fresh "G" in destruct R2 as [E R2] end.
Lemma rep_kind i n : rep i n ->
  match i with
  | IZero => kind n = NZero | ITerminal _ _ => kind n = NTerm | _ => True end.
Proof. destruct i; auto; [apply rep_zero | apply rep_term]. Qed.
Ltac by_item i R1 R2 K :=
  pose proof (rep_kind _ _ R1); destruct i; open_rep R1 R2; try (destruct R1; fail);
  try congruence.
Lemma rep_equiv : forall n v, derives n v -> forall i m, rep i n -> rep i m -> derives m v.
Proof.
  induction 1 as [n K | n K | s e i v Ks Ie Ke Hd IH | e i s v K Hd IH | n s v K Hd IH | n s v K Hd IH | n i c a v K Hd IH | n i c a u v K H1 IH1 H2 IH2
    | n i c a K | n i c a u v K H1 IH1 H2 IH2 | n K | n i v K Hd IH | n l r v K Hd IH | n l r v K Hd IH | n l r u v K H1 IH1 H2 IH2 | n t c v K Hd IH | n t c v K Hd IH
    | n i v K Hd IH | n i v K Hd IH | n b ops x v K Hd IH | n b ops x t v K Io Hd IH | n b ops x t v K Io Hd IH | n b ops x t u v K Io H1 IH1 H2 IH2
    | n b ops x s t u v z K Io H1 IH1 H2 IH2 H3 IH3 | n b ops x s t v K Io Hd IH]; intros it nd R1 R2; pose proof (rep_kind _ _ R1) as Z; pose proof R1 as R1'; pose proof R2 as R2'; destruct it; open_rep R1 R2; try (destruct R1; fail); try congruence.
  - apply d_zero. rewrite R2. apply kind_zero.
  - replace nd with n by congruence. apply d_term. exact K.
  - rewrite K in E. injection E as <- ->. eapply d_evolve; [exact G |]. eapply IH; eassumption.
  - rewrite K in R1. injection R1 as ->. eapply d_non; [exact R2 | exact Hd].
  - rewrite K in R1. injection R1 as ->. eapply d_inl; [exact R2 | exact Hd].
  - rewrite K in E. injection E as <- <- <-. eapply d_plus1; [exact G | eapply IH; eassumption].
  - rewrite K in E. injection E as <- <- <-. eapply d_plus; [exact G | eapply IH1; eassumption | eapply IH2; eassumption].
  - eapply d_star0; exact G.
  - rewrite K in E. injection E as <- <- <-. eapply d_star; [exact G | eapply IH1; eassumption | eapply IH2; eassumption].
  - apply d_act0. exact R2.
  - rewrite K in E. injection E as <-. eapply d_act; [exact G | eapply IH; eassumption].
  - rewrite K in E. injection E as <- <-. eapply d_altl; [exact G | eapply IH; eassumption].
  - rewrite K in E. injection E as <- <-. eapply d_altr; [exact G | eapply IH; eassumption].
  - rewrite K in E. injection E as <- <-. eapply d_cons; [exact G | eapply IH1; eassumption | eapply IH2; eassumption].
  - rewrite K in E. injection E as <- ->. eapply d_try; [exact G | eapply IH; eassumption].
  - rewrite K in E. injection E as <- ->. eapply d_try; [exact G | eapply IH; eassumption].
  - rewrite K in E. injection E as <- <-. eapply d_catch; [exact G | eapply IH; eassumption].
  - rewrite K in E. injection E as <-. eapply d_ann; [exact G | eapply IH; eassumption].
  - rewrite K in E. injection E as <-. eapply d_cond; [exact G | eapply IH; eassumption].
  - rewrite K in E. injection E as <- <- <-. eapply d_base; [exact G |]. apply (IH (INonTerminal base [])); assumption.
  - rewrite K in E. injection E as <- <- <-. pose proof (rep_ops_fun _ _ _ R1 R2). subst k0. eapply d_pre; [exact G | exact Io | eapply IH; eassumption].
  - rewrite K in E. injection E as <- <- <-. pose proof (rep_ops_fun _ _ _ R1 R2). subst k0. eapply d_post; [exact G | exact Io | eapply IH; eassumption].
  - rewrite K in E. injection E as <- <- <-. pose proof (rep_ops_fun _ _ _ R1 R2). subst k0. eapply d_bin; [exact G | exact Io | eapply IH1; eassumption | eapply IH2; eassumption].
  - rewrite K in E. injection E as <- <- <-. pose proof (rep_ops_fun _ _ _ R1 R2). subst k0. eapply d_tern; [exact G | exact Io | eapply IH1; eassumption | eapply IH2; eassumption | eapply IH3; eassumption].
  - rewrite K in E. injection E as <- <- <-. pose proof (rep_ops_fun _ _ _ R1 R2). subst k0. eapply d_paren; [exact G | exact Io | eapply IH; eassumption].
Qed.

(** From the file to nodes. *)
Lemma says_derives :
  (forall i ws, says f i ws -> forall n, rep (imeans D i) n -> known_src i -> exists v, word v ws /\ derives n v) /\
  (forall x ws, sentence f x ws -> forall n, sid x = Some n -> exists v, word v ws /\ derives n v) /\
  (forall b l ws, expression f b l ws -> forall nm n, rep (IOperator nm b (map (ops_means D) l)) n -> (exists s, sid b = Some s) -> exists v, word v ws /\ derives n v).
Proof.
  apply says_all.
  - intros n R Kn. exists []. split; [constructor | apply d_zero; apply rep_zero; exact R].
  - intros x n R Kn. cbn [imeans atom_means] in R. pose proof (rep_term _ _ _ R) as K. exists [n]. split; [apply word_one; exact R | apply d_term; exact K].
  - intros x args ws H IH n R Kn. destruct (IH _ (sym_known _ Kn)) as (v & W & Hd). exists v. split; [exact W | eapply d_non; [exact R | exact Hd]].
  - intros x ws H IH n R Kn. destruct (IH _ (sym_known _ Kn)) as (v & W & Hd). exists v. split; [exact W | eapply d_inl; [exact R | exact Hd]].
  - intros s m x a ws H IH n R Kn. destruct R as (k & K & Rk). destruct (IH k Rk Kn) as (v & W & Hd). exists v. split; [exact W | eapply d_ann; [exact K | exact Hd]].
  - intros i ws H IH n R Kn. apply IH; assumption.
  - intros i ws H IH n R Kn. destruct R as (k & K & Rk). destruct (IH k Rk Kn) as (v & W & Hd). exists v. split; [exact W | eapply d_try; [exact K | exact Hd]].
  - intros i j ws H IH n R Kn. destruct R as (k & k2 & K & Rk & _). destruct (IH k Rk (proj1 Kn)) as (v & W & Hd). exists v. split; [exact W | eapply d_try; [exact K | exact Hd]].
  - intros i j ws H IH n R Kn. destruct R as (k & k2 & K & _ & Rk). destruct (IH k2 Rk (proj2 Kn)) as (v & W & Hd). exists v. split; [exact W | eapply d_catch; [exact K | exact Hd]].
  - intros i ws H IH n R Kn. destruct R as (k & c & a & K & Rk). destruct (IH k Rk Kn) as (v & W & Hd). exists v. split; [exact W | eapply d_plus1; [exact K | exact Hd]].
  - intros i u ws H1 IH1 H2 IH2 n R Kn. destruct (IH2 n R Kn) as (v2 & W2 & Hd2). destruct R as (k & c & a & K & Rk). destruct (IH1 k Rk Kn) as (v & W & Hd). exists (v ++ v2). split; [apply word_app; assumption | eapply d_plus; eassumption].
  - intros i n R Kn. destruct R as (k & c & a & K & Rk). exists []. split; [constructor | eapply d_star0; exact K].
  - intros i u ws H1 IH1 H2 IH2 n R Kn. destruct (IH2 n R Kn) as (v2 & W2 & Hd2). destruct R as (k & c & a & K & Rk). destruct (IH1 k Rk Kn) as (v & W & Hd). exists (v ++ v2). split; [apply word_app; assumption | eapply d_star; eassumption].
  - intros i n R Kn. destruct R as (k & k2 & K & _ & Rk). exists []. split; [constructor | eapply d_altr; [exact K | apply d_zero; apply rep_zero; exact Rk]].
  - intros i ws H IH n R Kn. destruct R as (k & k2 & K & Rk & _). destruct (IH k Rk (proj1 Kn)) as (v & W & Hd). exists v. split; [exact W | eapply d_altl; [exact K | exact Hd]].
  - intros i j ws H IH n R Kn. destruct R as (k & k2 & K & Rk & (m & c & a & K2 & _)). destruct (IH k Rk (proj1 Kn)) as (v & W & Hd). exists v. split; [exact W |].
    rewrite <- (app_nil_r v). eapply d_cons; [exact K | exact Hd | eapply d_star0; exact K2].
  - intros i j u v ws H1 IH1 H2 IH2 H3 IH3 n R Kn. destruct (IH3 n R Kn) as (v3 & W3 & Hd3). destruct R as (k & k2 & K & Rk & (m & c & a & K2 & (m1 & m2 & K3 & Rm1 & Rm2))). cbn [imeans] in *.
    destruct (IH1 k Rk (proj1 Kn)) as (va & Wa & Da). destruct (IH2 m1 Rm1 (proj1 (proj2 Kn))) as (vb & Wb & Db).
    exists (va ++ vb ++ v3). split; [apply word_app; [exact Wa | apply word_app; assumption] |]. eapply d_cons; [exact K | exact Da |].
    inversion Hd3; subst; try congruence. match goal with E : kind n = NCons _ _ |- _ => rewrite K in E; injection E as <- <- end.
    rewrite app_assoc. eapply d_star; [exact K2 | | eassumption]. eapply d_cons; [exact K3 | exact Db |]. eapply rep_equiv; eassumption.
  - intros i x ws H IH n R Kn. destruct R as (k & K & Rk). destruct (IH k Rk Kn) as (v & W & Hd). exists v. split; [exact W | eapply d_act; [exact K | exact Hd]].
  - intros x n R Kn. exists []. split; [constructor | apply d_act0; exact R].
  - intros i j u ws H1 IH1 H2 IH2 n R Kn. destruct R as (k & k2 & K & Rk & Rk2). destruct (IH1 k Rk (proj1 Kn)) as (v & W & Hd). destruct (IH2 k2 Rk2 (proj2 Kn)) as (v2 & W2 & Hd2).
    exists (v ++ v2). split; [apply word_app; assumption | eapply d_cons; eassumption].
  - intros x i ws H IH n R Kn. destruct R as (k & K & Rk). destruct (IH k Rk Kn) as (v & W & Hd). exists v. split; [exact W | eapply d_cond; [exact K | exact Hd]].
  - intros i j ws H IH n R Kn. destruct R as (k & k2 & K & Rk & _). destruct (IH k Rk (proj1 Kn)) as (v & W & Hd). exists v. split; [exact W | eapply d_altl; [exact K | exact Hd]].
  - intros i j ws H IH n R Kn. destruct R as (k & k2 & K & _ & Rk). destruct (IH k2 Rk (proj2 Kn)) as (v & W & Hd). exists v. split; [exact W | eapply d_altr; [exact K | exact Hd]].
  - intros i x ft ws I H IH n E. destruct (node_rule _ I) as (e & Ie & R). cbn [rule_means] in R. destruct R as (k & K & Rk). destruct (rule_src_known _ _ _ I) as [Ki Kx].
    destruct (IH k Rk Ki) as (v & W & Hd). exists v. split; [exact W |]. apply sym_known in Kx. rewrite E in Kx. injection Kx as Es. rewrite <- Es in K.
    eapply d_sym; [apply (symbol_ok w order x n E) | exact Ie | exact K | exact Hd].
  - intros b args l x ft ws I H IH n E. destruct (node_rule _ I) as (e & Ie & R). cbn [rule_means] in R. destruct R as (k & K & Rk).
    assert (Kb : exists s, sid b = Some s) by (eapply rule_symbols_known; [exact I | cbn [rule_symbols In]; auto]). assert (Kx : exists s, sid x = Some s) by eauto.
    destruct (IH x k Rk Kb) as (v & W & Hd). exists v. split; [exact W |]. apply sym_known in Kx. rewrite E in Kx. injection Kx as Es. rewrite <- Es in K.
    eapply d_sym; [apply (symbol_ok w order x n E) | exact Ie | exact K | exact Hd].
  - intros b l ws H IH nm n R Kb. destruct R as (m & os & y & K & Km & F). destruct (IH _ (sym_known _ Kb)) as (v & W & Hd). exists v. split; [exact W |]. eapply d_base; [exact K |]. eapply d_non; [exact Km | exact Hd].
  - intros b l o p ws I H IH nm n R Kb. destruct (IH nm n R Kb) as (v & W & Hd). destruct R as (m & os & y & K & Km & F). destruct (src_operator _ _ _ F I) as (q & Iq & t & Et & ->). cbn [tok_name omeans] in Et.
    exists (t :: v). split; [constructor; assumption | eapply d_pre; eassumption].
  - intros b l o p a ws I H IH nm n R Kb. destruct (IH nm n R Kb) as (v & W & Hd). destruct R as (m & os & y & K & Km & F). destruct (src_operator _ _ _ F I) as (q & Iq & t & Et & ->). cbn [tok_name omeans] in Et.
    exists (v ++ [t]). split; [apply word_app; [exact W | apply word_one; assumption] | eapply d_post; eassumption].
  - intros b l o p a u ws I H1 IH1 H2 IH2 nm n R Kb. destruct (IH1 nm n R Kb) as (v & W & Hd). destruct (IH2 nm n R Kb) as (v2 & W2 & Hd2). destruct R as (m & os & y & K & Km & F). destruct (src_operator _ _ _ F I) as (q & Iq & t & Et & ->). cbn [tok_name omeans] in Et.
    exists (v ++ t :: v2). split; [apply word_app; [exact W | constructor; assumption] | eapply d_bin; eassumption].
  - intros b l o o2 p a u v ws I H1 IH1 H2 IH2 H3 IH3 nm n R Kb. destruct (IH1 nm n R Kb) as (v1 & W1 & Hd1). destruct (IH2 nm n R Kb) as (v2 & W2 & Hd2). destruct (IH3 nm n R Kb) as (v3 & W3 & Hd3).
    destruct R as (m & os & y & K & Km & F). destruct (src_operator _ _ _ F I) as (q & Iq & t & t2 & Et & Et2 & ->). cbn [tok_name omeans] in Et, Et2.
    exists (v1 ++ t :: v2 ++ t2 :: v3). split; [| eapply d_tern; eassumption]. apply word_app; [exact W1 |]. constructor; [assumption |]. apply word_app; [exact W2 |]. constructor; assumption.
  - intros b l o o2 ws I H IH nm n R Kb. destruct (IH nm n R Kb) as (v & W & Hd). destruct R as (m & os & y & K & Km & F). destruct (src_operator _ _ _ F I) as (q & Iq & t & t2 & Et & Et2 & ->). cbn [tok_name omeans] in Et, Et2.
    exists (t :: v ++ [t2]). split; [| eapply d_paren; eassumption]. constructor; [assumption |]. apply word_app; [exact W | apply word_one; assumption].
Qed.

(** The two languages. *)
Lemma graph_language x s v ws : sid x = Some s -> word v ws -> (derives s v <-> sentence f x ws).
Proof.
  intros E W. split.
  - intros H. apply derives_reads in H. destruct (proj1 (proj2 H) x E) as (ws' & W' & Y). rewrite (word_fun _ _ _ W W'). exact Y.
  - intros H. destruct (proj1 (proj2 says_derives) x ws H s E) as (v' & W' & Hd). rewrite (word_inj _ _ _ W W'). exact Hd.
Qed.
Lemma derives_word x s v : sid x = Some s -> derives s v -> exists ws, word v ws /\ sentence f x ws.
Proof. intros E H. apply derives_reads in H. exact (proj1 (proj2 H) x E). Qed.
Lemma sentence_word x ws : sentence f x ws -> exists s v, sid x = Some s /\ word v ws /\ derives s v.
Proof.
  intros H. assert (E : exists s, sid x = Some s).
  { inversion H; subst; (eapply rule_symbols_known; [eassumption |]); cbn [rule_symbols]; [apply in_app_iff; right; left; reflexivity | right; left; reflexivity]. }
  destruct E as [s E]. destruct (proj1 (proj2 says_derives) x ws H s E) as (v & W & Hd). eauto.
Qed.
End L.
