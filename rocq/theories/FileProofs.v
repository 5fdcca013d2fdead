(** What a grammar file respects, its nodes respect. *)
From Coq Require Import List Ascii String Bool PeanoNat Lia Relations.
From Verif Require Import FirstProofs.
From Verif Require Import FlexModel GramModel GramSpec LangSpec.
From Verif Require Import GraphModel GraphProofs LangProofs OriginProofs GrammarModel GrammarSpec ParserSpec EndSpec.
Import ListNotations.
Open Scope list_scope.

(** The items of a right side. *)
Section D.
Variable D : text -> text.
Lemma parts_self i : In i (parts i).
Proof. destruct i; left; reflexivity. Qed.
Lemma subs_parts : forall i j, In j (subs (imeans D i)) ->
  (forall k, j = ITryRecover k -> exists k', In (IRecover k') (parts i)) /\
  (forall x, j = IInline x -> In (IInlined x) (parts i)) /\
  (forall a b, j = IAlternative a b -> (exists p q, In (IOr p q) (parts i) /\ a = imeans D p /\ b = imeans D q) \/ (exists p, In (IMaybe p) (parts i) /\ a = imeans D p /\ b = IZero)) /\
  (forall a b, j = ITryRollback a b -> exists p q, In (IRollback p q) (parts i) /\ a = imeans D p /\ b = imeans D q).
Proof.
  assert (Up : forall (P Q : list isrc) j, (forall x, In x P -> In x Q) ->
    (forall k, j = ITryRecover k -> exists k', In (IRecover k') P) /\
    (forall x, j = IInline x -> In (IInlined x) P) /\
    (forall a b, j = IAlternative a b -> (exists p q, In (IOr p q) P /\ a = imeans D p /\ b = imeans D q) \/ (exists p, In (IMaybe p) P /\ a = imeans D p /\ b = IZero)) /\
    (forall a b, j = ITryRollback a b -> exists p q, In (IRollback p q) P /\ a = imeans D p /\ b = imeans D q) ->
    (forall k, j = ITryRecover k -> exists k', In (IRecover k') Q) /\
    (forall x, j = IInline x -> In (IInlined x) Q) /\
    (forall a b, j = IAlternative a b -> (exists p q, In (IOr p q) Q /\ a = imeans D p /\ b = imeans D q) \/ (exists p, In (IMaybe p) Q /\ a = imeans D p /\ b = IZero)) /\
    (forall a b, j = ITryRollback a b -> exists p q, In (IRollback p q) Q /\ a = imeans D p /\ b = imeans D q)).
  { intros P Q j S (A & B & C & E). split; [intros k H; destruct (A k H); eauto |]. split; [intros x H; eauto |]. split.
    - intros a b H. destruct (C a b H) as [(p & q & I & H2) | (p & I & H2)]; [left; eauto | right; eauto].
    - intros a b H. destruct (E a b H) as (p & q & I & H2). eauto. }
  assert (No : forall (P : list isrc) j, (forall k, j <> ITryRecover k) -> (forall x, j <> IInline x) -> (forall a b, j <> IAlternative a b) -> (forall a b, j <> ITryRollback a b) ->
    (forall k, j = ITryRecover k -> exists k', In (IRecover k') P) /\
    (forall x, j = IInline x -> In (IInlined x) P) /\
    (forall a b, j = IAlternative a b -> (exists p q, In (IOr p q) P /\ a = imeans D p /\ b = imeans D q) \/ (exists p, In (IMaybe p) P /\ a = imeans D p /\ b = IZero)) /\
    (forall a b, j = ITryRollback a b -> exists p q, In (IRollback p q) P /\ a = imeans D p /\ b = imeans D q)).
  { intros P j A B C E. split; [intros k H; exfalso; eapply A; eauto |]. split; [intros k H; exfalso; eapply B; eauto |]. split; intros a b H; exfalso; [eapply C | eapply E]; eauto. }
  induction i as [|a|x|sq m x a|i IH|i IH|i IHi j IHj|i IH|i IH|i IH|i IHi j IHj|i IH x|x|i IHi j IHj|x i IH|i IHi j IHj]; intros k I; cbn [imeans subs] in I.
  - destruct I as [<- | []]. apply No; discriminate.
  - destruct a as [x | x args]; cbn [atom_means subs] in I; destruct I as [<- | []]; apply No; discriminate.
  - destruct I as [<- | []]. split; [discriminate |]. split; [intros y H; injection H as <-; left; reflexivity |]. split; discriminate.
  - destruct I as [<- | I]; [apply No; discriminate |]. destruct a as [y | y args]; cbn [atom_means subs] in I; destruct I as [<- | []]; apply No; discriminate.
  - apply (Up (parts i)); [intros y Hy; right; exact Hy | apply IH; exact I].
  - destruct I as [<- | I]; [| apply (Up (parts i)); [intros y Hy; right; exact Hy | apply IH; exact I]].
    split; [intros y H; exists i; left; reflexivity |]. split; [discriminate |]. split; discriminate.
  - destruct I as [<- | I].
    + split; [discriminate |]. split; [discriminate |]. split; [discriminate |]. intros a b H. injection H as <- <-. exists i, j. split; [left; reflexivity | auto].
    + apply in_app_iff in I. destruct I as [I | I]; [apply (Up (parts i)); [intros y Hy; right; apply in_app_iff; left; exact Hy | apply IHi; exact I] | apply (Up (parts j)); [intros y Hy; right; apply in_app_iff; right; exact Hy | apply IHj; exact I]].
  - destruct I as [<- | I]; [apply No; discriminate | apply (Up (parts i)); [intros y Hy; right; exact Hy | apply IH; exact I]].
  - destruct I as [<- | I]; [apply No; discriminate | apply (Up (parts i)); [intros y Hy; right; exact Hy | apply IH; exact I]].
  - destruct I as [<- | I].
    + split; [discriminate |]. split; [discriminate |]. split; [| discriminate]. intros a b H. injection H as <- <-. right. exists i. split; [left; reflexivity | auto].
    + apply in_app_iff in I. destruct I as [I | I]; [apply (Up (parts i)); [intros y Hy; right; exact Hy | apply IH; exact I] |]. destruct I as [<- | []]. apply No; discriminate.
  - destruct I as [<- | I]; [apply No; discriminate |]. apply in_app_iff in I. destruct I as [I | I]; [apply (Up (parts i)); [intros y Hy; right; apply in_app_iff; left; exact Hy | apply IHi; exact I] |].
    cbn [subs In] in I. destruct I as [<- | [<- | I]]; [apply No; discriminate | apply No; discriminate |]. apply in_app_iff in I. destruct I as [I | I]; [apply (Up (parts j)); [intros y Hy; right; apply in_app_iff; right; exact Hy | apply IHj; exact I] | apply (Up (parts i)); [intros y Hy; right; apply in_app_iff; left; exact Hy | apply IHi; exact I]].
  - destruct I as [<- | I]; [apply No; discriminate | apply (Up (parts i)); [intros y Hy; right; exact Hy | apply IH; exact I]].
  - destruct I as [<- | []]. apply No; discriminate.
  - destruct I as [<- | I]; [apply No; discriminate |]. apply in_app_iff in I. destruct I as [I | I]; [apply (Up (parts i)); [intros y Hy; right; apply in_app_iff; left; exact Hy | apply IHi; exact I] | apply (Up (parts j)); [intros y Hy; right; apply in_app_iff; right; exact Hy | apply IHj; exact I]].
  - destruct I as [<- | I]; [apply No; discriminate | apply (Up (parts i)); [intros y Hy; right; exact Hy | apply IH; exact I]].
  - destruct I as [<- | I].
    + split; [discriminate |]. split; [discriminate |]. split; [| discriminate]. intros a b H. injection H as <- <-. left. exists i, j. split; [left; reflexivity | auto].
    + apply in_app_iff in I. destruct I as [I | I]; [apply (Up (parts i)); [intros y Hy; right; apply in_app_iff; left; exact Hy | apply IHi; exact I] | apply (Up (parts j)); [intros y Hy; right; apply in_app_iff; right; exact Hy | apply IHj; exact I]].
Qed.
Lemma subs_loops : forall i j, In j (subs (imeans D i)) -> forall k, j = GramModel.IPlus k \/ j = GramModel.IStar k ->
  (exists p, (In (IMany p) (parts i) \/ In (IAnyMany p) (parts i)) /\ k = imeans D p) \/ (exists p q, In (IListOf p q) (parts i) /\ k = imeans D (IThen q p)).
Proof.
  assert (Up : forall (P Q : list isrc) k, (forall x, In x P -> In x Q) ->
    (exists p, (In (IMany p) P \/ In (IAnyMany p) P) /\ k = imeans D p) \/ (exists p q, In (IListOf p q) P /\ k = imeans D (IThen q p)) ->
    (exists p, (In (IMany p) Q \/ In (IAnyMany p) Q) /\ k = imeans D p) \/ (exists p q, In (IListOf p q) Q /\ k = imeans D (IThen q p))).
  { intros P Q k S [(p & [I | I] & E) | (p & q & I & E)]; [left | left | right]; eauto 8. }
  induction i as [|a|x|sq m x a|i IH|i IH|i IHi j IHj|i IH|i IH|i IH|i IHi j IHj|i IH x|x|i IHi j IHj|x i IH|i IHi j IHj]; intros k I kk Hk; cbn [imeans subs] in I;
    try (destruct I as [<- | I]; [try (destruct Hk; discriminate) |]).
  - destruct I.
  - destruct a as [x | x args]; cbn [atom_means subs] in I; destruct I as [<- | []]; destruct Hk; discriminate.
  - destruct I.
  - destruct a as [y | y args]; cbn [atom_means subs] in I; destruct I as [<- | []]; destruct Hk; discriminate.
  - apply (Up (parts i)); [intros y Hy; right; exact Hy | eapply IH; eassumption].
  - apply (Up (parts i)); [intros y Hy; right; exact Hy | eapply IH; eassumption].
  - apply in_app_iff in I. destruct I as [I | I]; [apply (Up (parts i)); [intros y Hy; right; apply in_app_iff; left; exact Hy | eapply IHi; eassumption] | apply (Up (parts j)); [intros y Hy; right; apply in_app_iff; right; exact Hy | eapply IHj; eassumption]].
  - left. exists i. split; [left; left; reflexivity |]. destruct Hk as [Hk | Hk]; [injection Hk as <-; reflexivity | discriminate].
  - apply (Up (parts i)); [intros y Hy; right; exact Hy | eapply IH; eassumption].
  - left. exists i. split; [right; left; reflexivity |]. destruct Hk as [Hk | Hk]; [discriminate | injection Hk as <-; reflexivity].
  - apply (Up (parts i)); [intros y Hy; right; exact Hy | eapply IH; eassumption].
  - apply in_app_iff in I. destruct I as [I | I]; [apply (Up (parts i)); [intros y Hy; right; exact Hy | eapply IH; eassumption] |]. destruct I as [<- | []]. destruct Hk; discriminate.
  - apply in_app_iff in I. destruct I as [I | I]; [apply (Up (parts i)); [intros y Hy; right; apply in_app_iff; left; exact Hy | eapply IHi; eassumption] |].
    cbn [subs In] in I. destruct I as [<- | [<- | I]].
    + right. exists i, j. split; [left; reflexivity |]. destruct Hk as [Hk | Hk]; [discriminate | injection Hk as <-; reflexivity].
    + destruct Hk; discriminate.
    + apply in_app_iff in I. destruct I as [I | I]; [apply (Up (parts j)); [intros y Hy; right; apply in_app_iff; right; exact Hy | eapply IHj; eassumption] | apply (Up (parts i)); [intros y Hy; right; apply in_app_iff; left; exact Hy | eapply IHi; eassumption]].
  - apply (Up (parts i)); [intros y Hy; right; exact Hy | eapply IH; eassumption].
  - destruct I.
  - apply in_app_iff in I. destruct I as [I | I]; [apply (Up (parts i)); [intros y Hy; right; apply in_app_iff; left; exact Hy | eapply IHi; eassumption] | apply (Up (parts j)); [intros y Hy; right; apply in_app_iff; right; exact Hy | eapply IHj; eassumption]].
  - apply (Up (parts i)); [intros y Hy; right; exact Hy | eapply IH; eassumption].
  - apply in_app_iff in I. destruct I as [I | I]; [apply (Up (parts i)); [intros y Hy; right; apply in_app_iff; left; exact Hy | eapply IHi; eassumption] | apply (Up (parts j)); [intros y Hy; right; apply in_app_iff; right; exact Hy | eapply IHj; eassumption]].
Qed.
End D.

(** Start symbols. *)
Notation text_dec := (list_eq_dec ascii_dec).
Lemma pushed_start x : forall l, In x (snd (pushed l)) <-> count_occ text_dec l x = 1.
Proof.
  intros l. induction l as [|y l IH] using rev_ind; [cbn; split; [intros [] | discriminate] |].
  unfold pushed in *. rewrite fold_left_app. cbn [fold_left]. rewrite count_occ_app. cbn [count_occ]. set (st := fold_left push_symbol l ([], [])) in *.
  assert (F : In y (fst st) <-> In y l). { unfold st. rewrite pushed_in. cbn [fst In]. tauto. }
  unfold push_symbol. destruct (existsb (same y) (fst st)) eqn:E; cbn [snd].
  - apply existsb_exists in E. destruct E as (z & Iz & Ez). apply same_iff in Ez. subst z. apply F in Iz. assert (Ct : count_occ text_dec l y > 0) by (apply count_occ_In; exact Iz). rewrite filter_In, IH.
    destruct (text_dec y x) as [-> | N].
    + split; [intros [_ H]; assert (same x x = true) by (apply same_iff; reflexivity); rewrite H0 in H; discriminate | intros H; exfalso; (unfold text in *; lia)].
    + split; [intros [H _]; (unfold text in *; lia) | intros H; split; [(unfold text in *; lia) |]]. destruct (same y x) eqn:Es; [apply same_iff in Es; contradiction | reflexivity].
  - assert (Ny : ~ In y l). { intros I. apply F in I. assert (existsb (same y) (fst st) = true) by (apply existsb_exists; exists y; split; [exact I | apply same_iff; reflexivity]). congruence. }
    cbn [In]. rewrite IH. destruct (text_dec y x) as [-> | N].
    + apply (count_occ_not_In text_dec) in Ny. split; [(unfold text in *; lia) | auto].
    + split; [intros [H | H]; [contradiction | (unfold text in *; lia)] | intros H; right; (unfold text in *; lia)].
Qed.

Section L.
Variable f : file.
Variable w : world.
Variable order : list id.
Notation g := (graph w order).
Notation kind := (GrammarModel.kind g).
Notation tid := (token_id w).
Notation sid := (symbol_id w).
Notation D := (describe f).
Notation rep := (rep g tid sid).
Notation known := (known tid sid).
Hypothesis Rl : rules_pushed (rev (events w)) = map (rule_means D) (rules_ f).
Hypothesis Sy : symbols_pushed (rev (events w)) = flat_map rule_symbols (rules_ f).
Hypothesis To : forall x, lookup x (terminals w) = first_of (file_tokens f) x.
Hypothesis Decl : tokens_declared f.
Hypothesis Ord : forall e, In e order <-> In e (rule_ids w).

(** Every node. *)
Lemma node_cases n :
  (kind n = NZero \/ kind n = NTerm \/ kind n = NSym \/ kind n = NOther) \/
  (exists r e, In r (rules_ f) /\ In e order /\ rep (rule_means D r) e /\ origin g tid sid (rule_means D r) e n) \/
  (gregular g <= n /\ quiet g n).
Proof.
  pose proof (pins_len w) as P. pose proof (to_from w) as Q. pose proof (plain_len w) as R. pose proof (size_graph w order) as Z. pose proof (rules_known f w Rl Sy To Decl) as RK.
  destruct (rules_origin g tid sid (items_from w) eq_refl (kind_zero w order) ltac:(unfold items_from; lia) (to_from w) (token_ok w order) (symbol_ok w order)
    (rules_pushed (rev (events w))) (items_from w) (items_to w) RK (le_n _) (le_n _) (sits_in w order) (sits_out w order)) as (A & B).
  - fold (all_placed w). cbn [gregular graph]. lia.
  - fold (all_placed w). lia.
  - fold (all_placed w) in *. fold (rule_ids w) in *. rewrite P in A. replace (items_from w + (items_to w - items_from w)) with (items_to w) in A by lia. rewrite <- R in B.
    destruct (Nat.lt_ge_cases n (items_from w)) as [L1 | L1].
    { left. destruct n as [|n]; [left; apply kind_zero |]. destruct (Nat.lt_ge_cases (S n) (1 + len (token_names w))); [right; left; apply kind_tok; lia | right; right; left; apply kind_sym; lia]. }
    destruct (Nat.lt_ge_cases n (items_to w)) as [L2 | L2].
    { right. left. destruct (A n ltac:(lia)) as (i & e & Ii & Ie & Re & O). rewrite Rl in Ii. apply in_map_iff in Ii. destruct Ii as (r & <- & Ir). exists r, e. split; [exact Ir |]. split; [apply Ord; exact Ie | auto]. }
    destruct (Nat.lt_ge_cases n (len (plain_nodes w))) as [L3 | L3]; [right; right; split; [exact L2 | apply B; lia] |].
    left. destruct (token_id w eof_name) as [t|] eqn:E.
    + right. right. right. unfold GrammarModel.kind. apply nth_overflow. unfold size in Z. lia.
    + destruct (Nat.eq_dec n (len (plain_nodes w))) as [-> | N]; [right; left; apply kind_eof; exact E |]. right. right. right. unfold GrammarModel.kind. apply nth_overflow. unfold size in Z. lia.
Qed.
Lemma known_child j n m : known j -> rep j n -> child g n m -> exists j', known j' /\ rep j' m.
Proof.
  intros K R C. unfold child in C. pose proof (rep_kind w order j n R) as Z. destruct j; cbn [GraphProofs.known] in K; try (destruct K; fail); cbn [GraphProofs.rep] in R;
    repeat match type of R with exists _, _ => destruct R as [? R] | _ /\ _ => let E := fresh "E" in destruct R as [E R] end;
    try (rewrite Z in C; destruct C; fail); try (rewrite R in C; destruct C; fail); try (rewrite E in C; subst m; eauto; fail).
  all: rewrite E in C; destruct K as [K1 K2]; destruct C as [-> | ->]; eauto.
Qed.
Lemma known_not_oper j n : known j -> rep j n -> plain_node (kind n).
Proof. exact (known_plain g tid sid (items_from w) (kind_zero w order) (token_ok w order) j n). Qed.
Lemma rule_evolve r e : rep (rule_means D r) e -> exists k, kind e = NEvolve k (sym_id sid (rule_name r)).
Proof. destruct r; cbn [rule_means GraphProofs.rep rule_name]; intros (k & K & _); eauto. Qed.

Lemma file_on_top : operators_not_inlined f -> operators_on_top g.
Proof.
  intros NI. split; [| split].
  - intros n m b ops x C K. destruct (node_cases n) as [H | [(r & e & Ir & Ie & Re & [(j & _ & Kj & Rj) | [(nm & b' & l & s & ds & c & Ei & Ro & Ke) | ->]]) | (_ & l & rr & E & Pl & Pr)]].
    + exfalso. unfold child in C. destruct H as [H | [H | [H | H]]]; rewrite H in C; destruct C.
    + exfalso. destruct (known_child _ _ _ Kj Rj C) as (j' & Kj' & Rj'). exact (known_not_oper _ _ Kj' Rj' _ _ _ K).
    + exfalso. destruct Ro as (mm & os & y & Kn & Km & _). unfold child in C. rewrite Kn in C. congruence.
    + destruct (rule_evolve r e Re) as (k & Ke). unfold child in C. rewrite Ke in C. subst k. eauto.
    + exfalso. unfold child in C. destruct E as [E | E]; rewrite E in C; destruct C as [-> | ->]; [apply (Pl _ _ _ K) | apply (Pr _ _ _ K) | apply (Pl _ _ _ K) | apply (Pr _ _ _ K)].
  - intros n s e i b ops x K Ie Ke Ko. destruct (rule_node f w order Rl Sy To Decl Ord e Ie) as (r' & Ir' & Re').
    destruct (node_cases n) as [H | [(r & e' & Ir & Ie' & Re & [(j & Ij & Kj & Rj) | [(nm & b' & l & s' & ds & c & Ei & Ro & Ke') | ->]]) | (_ & l & rr & E & _)]].
    + destruct H as [H | [H | [H | H]]]; congruence.
    + destruct r' as [i' x' ft' | b2 args2 l2 x' ft']; cbn [rule_means GraphProofs.rep] in Re'; destruct Re' as (k & Kk & Rk); rewrite Ke in Kk; injection Kk as <- Es.
      * destruct (rule_src_known f w Sy To Decl _ _ _ Ir') as [Ki' _]. exact (known_not_oper _ _ Ki' Rk _ _ _ Ko).
      * destruct j; cbn [GraphProofs.known] in Kj; try (destruct Kj; fail); pose proof (rep_kind w order _ _ Rj) as Zj; cbn [GraphProofs.rep] in Rj;
          repeat match type of Rj with exists _, _ => destruct Rj as [? Rj] | _ /\ _ => let E := fresh "E" in destruct Rj as [E Rj] end; try congruence.
        rewrite K in Rj. injection Rj as Rs. rewrite Es in Rs. apply sym_known in Kj.
        assert (Kx : sid x' = Some (sym_id sid x')) by (apply sym_known; eapply (rule_symbols_known f w Sy); [exact Ir' | cbn [rule_symbols In]; auto]).
        rewrite <- Rs in Kj. assert (symbol = x') by (eapply index_inj; eassumption). subst symbol.
        apply (NI _ _ _ _ _ Ir'). destruct r as [i3 x3 ft3 | b3 args3 l3 x3 ft3]; cbn [rule_means subs In] in Ij.
        -- destruct Ij as [Ij | Ij]; [discriminate Ij |]. exists i3, x3, ft3. split; [exact Ir |]. destruct (subs_parts D _ _ Ij) as (_ & H & _). apply H. reflexivity.
        -- destruct Ij as [Ij | [Ij | [Ij | []]]]; discriminate Ij.
    + destruct Ro as (mm & os & y & Kn & Km & _). congruence.
    + destruct (rule_evolve r e' Re) as (k & Kk). congruence.
    + destruct E as [E | E]; congruence.
  - intros m b ops x K. destruct (node_cases m) as [H | [(r & e & Ir & Ie & Re & [(j & Ij & Kj & Rj) | [(nm & b' & l & s' & ds & c & Ei & Ro & Ke') | ->]]) | (_ & l & rr & E & _)]].
    + destruct H as [H | [H | [H | H]]]; congruence.
    + exfalso. exact (known_not_oper _ _ Kj Rj _ _ _ K).
    + eauto.
    + destruct (rule_evolve r e Re) as (k & Kk). congruence.
    + destruct E as [E | E]; congruence.
Qed.

(** The item a node stands for. *)
Lemma rule_item r e n j : In r (rules_ f) -> rep (rule_means D r) e -> In j (subs (rule_means D r)) -> known j -> rep j n ->
  (exists i x ft, r = RRule i x ft /\ In j (subs (imeans D i))) \/ (exists b, j = INonTerminal b []).
Proof.
  intros Ir Re Ij Kj Rj. destruct r as [i x ft | b args l x ft]; cbn [rule_means subs In] in Ij.
  - destruct Ij as [<- | Ij]; [destruct Kj | left; eauto 6].
  - destruct Ij as [<- | [<- | [<- | []]]]; [destruct Kj | destruct Kj | right; eauto].
Qed.
(** What a node stands for. *)
Lemma node_item n :
  (kind n = NZero \/ kind n = NTerm \/ kind n = NSym \/ kind n = NOther \/ (exists s, kind n = NNon s) \/ (exists k s, kind n = NEvolve k s) \/ (exists b ops x, kind n = NOper b ops x)) \/
  (exists i x ft j, In (RRule i x ft) (rules_ f) /\ In j (subs (imeans D i)) /\ known j /\ rep j n) \/
  (gregular g <= n /\ exists l r, kind n = NAlt l r \/ kind n = NCons l r).
Proof.
  destruct (node_cases n) as [H | [(r & e & Ir & Ie & Re & [(j & Ij & Kj & Rj) | [(nm & b' & l & s' & ds & c & Ei & Ro & Ke') | ->]]) | (L & l & r & E & _)]].
  - left. tauto.
  - destruct (rule_item r e n j Ir Re Ij Kj Rj) as [(i & x & ft & -> & I2) | (b & ->)]; [right; left; eauto 14 |]. left. cbn [GraphProofs.rep] in Rj. eauto 10.
  - left. destruct Ro as (mm & os & y & Kn & _). eauto 12.
  - left. destruct (rule_evolve r e Re) as (k & Kk). eauto 12.
  - right. right. eauto.
Qed.
Ltac item_case n := let H := fresh "H" in destruct (node_item n) as [[H | [H | [H | [H | [[? H] | [(? & ? & H) | (? & ? & ? & H)]]]]]] | [(?i & ?x & ?ft & ?j & ?Ir & ?Ij & ?Kj & ?Rj) | (?L & ?l & ?r & [H | H])]]; try congruence.
Ltac rep_case j Kj Rj := pose proof (rep_kind w order _ _ Rj); destruct j; cbn [GraphProofs.known] in Kj; try (destruct Kj; fail); cbn [GraphProofs.rep] in Rj;
  repeat match type of Rj with exists _, _ => destruct Rj as [? Rj] | _ /\ _ => let E := fresh "E" in destruct Rj as [E Rj] end; try congruence.

Lemma file_no_recovery : nothing_recovers f -> no_recovery g.
Proof.
  intros NR n t K. item_case n. rep_case j Kj Rj. destruct (subs_parts D _ _ Ij) as (A & _). destruct (A _ eq_refl) as (k & Ik).
  apply (NR k). exists i, x, ft. auto.
Qed.
Lemma file_inlined : inlined_optional f -> inlined_can_be_empty g.
Proof.
  intros IO n s K. item_case n. rep_case j Kj Rj. destruct (subs_parts D _ _ Ij) as (_ & A & _). specialize (A _ eq_refl).
  assert (s = sym_id sid symbol) by congruence. subst s. apply sym_known in Kj.
  apply (proj2 (graph_language f w order Rl Sy To Decl Ord symbol _ [] [] Kj (Forall2_nil _))). apply IO. exists i, x, ft. auto.
Qed.
Lemma file_end : end_kept f -> end_not_written g.
Proof.
  intros EK I. cbn [geof gterms graph] in I. destruct (token_id w eof_name) as [t|] eqn:E.
  - apply EK. apply (token_named f w To). exists t. exact E.
  - pose proof (pins_len w). pose proof (plain_len w). pose proof (to_from w). apply in_seq in I. unfold items_from in *. lia.
Qed.
Lemma rule_name_known r : In r (rules_ f) -> sid (rule_name r) = Some (sym_id sid (rule_name r)).
Proof.
  intros Ir. apply sym_known. eapply (rule_symbols_known f w Sy); [exact Ir |]. destruct r; cbn [rule_symbols rule_name]; [apply in_app_iff; right; left; reflexivity | cbn [In]; auto].
Qed.
Lemma file_alone : operators_only f -> operators_alone g.
Proof.
  intros OO e i s b ops x v Ie Ke Ki Hd. cbn [grules graph] in Ie. destruct (rule_node f w order Rl Sy To Decl Ord e Ie) as (r & Ir & Re).
  pose proof (rule_name_known r Ir) as Nr. destruct (rule_evolve r e Re) as (k & Kk). rewrite Ke in Kk. injection Kk as <- Es.
  destruct r as [i0 x0 ft0 | b0 args0 l0 x0 ft0].
  { exfalso. cbn [rule_means GraphProofs.rep] in Re. destruct Re as (k & Kk & Rk). rewrite Ke in Kk. injection Kk as <- _.
    destruct (rule_src_known f w Sy To Decl _ _ _ Ir) as [Ki0 _]. exact (known_not_oper _ _ Ki0 Rk _ _ _ Ki). }
  assert (Ss : kind s = NSym) by (apply (symbol_ok w order (rule_name (ROperators b0 args0 l0 x0 ft0))); rewrite Es; exact Nr).
  inversion Hd; subst; try congruence.
  match goal with A : In ?e' (grules _), B : GrammarModel.kind _ ?e' = NEvolve _ _, C : derives _ ?i' _ |- _ => rename A into Ie'; rename B into Ke'; rename C into Hi; rename e' into e2; rename i' into i2 end.
  cbn [grules graph] in Ie'. destruct (rule_node f w order Rl Sy To Decl Ord e2 Ie') as (r' & Ir' & Re').
  pose proof (rule_name_known r' Ir') as Nr'. destruct (rule_evolve r' e2 Re') as (k' & Kk'). rewrite Ke' in Kk'. injection Kk' as <- Es'.
  assert (rule_name r' = x0) as Nx by (eapply index_inj; [exact Nr' | rewrite <- Es'; exact Nr]).
  pose proof (OO r' _ _ _ _ _ Ir Ir' Nx) as ->.
  cbn [rule_means] in Re, Re'. cbn [GraphProofs.rep] in Re, Re'. destruct Re as (k1 & K1 & R1). destruct Re' as (k2 & K2 & R2).
  rewrite Ke in K1. injection K1 as <-. rewrite Ke' in K2. injection K2 as <-.
  refine (rep_equiv w order _ _ Hi (IOperator [] _ _) _ R2 R1).
Qed.

Ltac open_head H := cbn [head] in H; repeat match type of H with
  | exists _, _ => let m := fresh "m" in destruct H as [m H]
  | _ /\ _ => let E := fresh "E" in destruct H as [E H]
  end.
Ltac by_head i Hh := destruct i as [|[|]| | | | | | | | | | | | | |]; open_head Hh; try discriminate; try (destruct Hh; fail); try match goal with E : ?x = _ |- _ => discriminate E end.
Notation head := (head f w order).
Notation known_src := (known_src f w).
(** It is enough to look at items that are not in parentheses. *)
Lemma by_unpar (P : isrc -> Prop) n : (forall i, P (unpar i) -> P i) ->
  (forall i, head i (kind n) -> rep (imeans D i) n -> known_src i -> P i) -> forall i, rep (imeans D i) n -> known_src i -> P i.
Proof.
  intros U H i R K. apply U. apply H.
  - apply head_rep; [apply unpar_not | rewrite unpar_means; exact R].
  - rewrite unpar_means. exact R.
  - unfold LangProofs.known_src. rewrite unpar_means. exact K.
Qed.

Lemma unpar_code i : only_code (unpar i) = only_code i.
Proof. induction i; cbn [unpar only_code]; auto. Qed.
Lemma bare_code n : bare g n -> forall i, rep (imeans D i) n -> known_src i -> only_code i = true.
Proof.
  induction 1 as [n K | n m K B IH | n l r K B1 IH1 B2 IH2 | n m c a K B IH | n m K B IH | n m K B IH | n m K B IH];
    (apply by_unpar; [intros i; rewrite unpar_code; auto |]); intros i Hh R Kn; rewrite K in Hh; by_head i Hh; cbn [only_code]; auto;
    try (injection E as <-; apply IH; assumption).
  - injection E as <- <-. destruct Kn as [Kn1 Kn2]. specialize (IH2 _ Hh Kn2). discriminate IH2.
  - injection E as <- <-. destruct Kn as [Kn1 Kn2]. rewrite (IH1 _ E0 Kn1), (IH2 _ Hh Kn2). reflexivity.
  - injection E as <-. specialize (IH _ Hh Kn). discriminate IH.
Qed.
Lemma zero_not_bare : ~ bare g 0.
Proof. pose proof (kind_zero w order) as Z. intros B. inversion B; subst; congruence. Qed.
Lemma file_code : code_accompanied f -> code_has_company g.
Proof.
  intros (C1 & C2 & C3). split.
  - intros e i s Ie Ke B. cbn [grules graph] in Ie. destruct (rule_node f w order Rl Sy To Decl Ord e Ie) as ([i0 x0 ft0 | b0 args0 l0 x0 ft0] & Ir & Re); cbn [rule_means] in Re; cbn [GraphProofs.rep] in Re; destruct Re as (k & Kk & Rk); rewrite Ke in Kk; injection Kk as <- _.
    + destruct (rule_src_known f w Sy To Decl _ _ _ Ir) as [Ki _]. pose proof (bare_code _ B _ Rk Ki) as H. rewrite (C1 _ _ _ Ir) in H. discriminate.
    + destruct Rk as (m & os & y & Ko & _). inversion B; subst; congruence.
  - intros n l r Kn IN. assert (LL : n < gregular g) by (apply Nat.ltb_lt; exact IN).
    destruct (node_item n) as [[H | [H | [H | [H | [[? H] | [(? & ? & H) | (? & ? & ? & H)]]]]]] | [(i & x & ft & j & Ir & Ij & Kj & Rj) | (L & l' & r' & _)]]; try (destruct Kn; congruence); [| lia].
    destruct (subs_parts D _ _ Ij) as (_ & _ & A & B).
    assert (IFL : forall p, In p (parts i) -> in_file f p) by (intros p Ip; exists i, x, ft; auto).
    pose proof (rep_kind w order _ _ Rj) as Z. destruct j; cbn [GraphProofs.known] in Kj; try (destruct Kj; fail); cbn [GraphProofs.rep] in Rj;
      repeat match type of Rj with exists _, _ => destruct Rj as [? Rj] | _ /\ _ => let E := fresh "E" in destruct Rj as [E Rj] end; try (destruct Kn; congruence).
    + destruct Kn as [Kn | Kn]; [| congruence]. rewrite Kn in E. injection E as <- <-. destruct Kj as [Kj1 Kj2]. destruct (A _ _ eq_refl) as [(p & q & Ip & -> & ->) | (p & Ip & -> & ->)].
      * destruct (C2 p q (or_introl (IFL _ Ip))) as [H1 H2]. split; intros Bb; [rewrite (bare_code _ Bb _ E0 Kj1) in H1 | rewrite (bare_code _ Bb _ Rj Kj2) in H2]; discriminate.
      * pose proof (C3 p (IFL _ Ip)) as H1. split; intros Bb; [rewrite (bare_code _ Bb _ E0 Kj1) in H1; discriminate |]. cbn [GraphProofs.rep] in Rj. subst r. exact (zero_not_bare Bb).
    + destruct Kn as [Kn | Kn]; [congruence |]. rewrite Kn in E. injection E as <- <-. destruct Kj as [Kj1 Kj2]. destruct (B _ _ eq_refl) as (p & q & Ip & -> & ->).
      destruct (C2 p q (or_intror (IFL _ Ip))) as [H1 H2]. split; intros Bb; [rewrite (bare_code _ Bb _ E0 Kj1) in H1 | rewrite (bare_code _ Bb _ Rj Kj2) in H2]; discriminate.
Qed.
Lemma file_start x : begins f x -> exists s, sid x = Some s /\ In s (gstart g) /\ exists e i, In e order /\ kind e = NEvolve i s.
Proof.
  intros (O & r & Ir & Nr). pose proof (rule_name_known r Ir) as Ns. rewrite Nr in Ns. exists (sym_id sid x). split; [exact Ns |]. split.
  - cbn [gstart graph]. apply in_flat_map. exists x. rewrite Ns. split; [| left; reflexivity]. rewrite Sy. apply pushed_start. exact O.
  - destruct (node_rule f w order Rl Sy To Decl Ord r Ir) as (e & Ie & Re). destruct (rule_evolve r e Re) as (k & Kk). rewrite Nr in Kk. eauto.
Qed.

(** ** Left recursion *)
Lemma unpar_skippable i : skippable f (unpar i) -> skippable f i.
Proof. induction i; cbn [unpar]; auto. intros H. apply k_par. auto. Qed.
Lemma unpar_leads i y : leads f (unpar i) y -> leads f i y.
Proof. induction i; cbn [unpar]; auto. intros H. apply l_par. auto. Qed.
Lemma rule_inv e i s : In e order -> kind e = NEvolve i s ->
  (exists j x ft, In (RRule j x ft) (rules_ f) /\ rep (imeans D j) i /\ known_src j /\ sid x = Some s) \/
  (exists b args l x ft, In (ROperators b args l x ft) (rules_ f) /\ (exists nm, rep (IOperator nm b (map (ops_means D) l)) i) /\ (exists t, sid b = Some t) /\ sid x = Some s).
Proof.
  intros Ie Ke. destruct (rule_node f w order Rl Sy To Decl Ord e Ie) as (r & Ir & Re). pose proof (rule_name_known r Ir) as Nr. destruct (rule_evolve r e Re) as (k & Kk). rewrite Ke in Kk. injection Kk as <- Es. rewrite <- Es in Nr.
  destruct r as [j x ft | b args l x ft]; cbn [rule_means] in Re; cbn [GraphProofs.rep] in Re; destruct Re as (k & Kk & Rk); rewrite Ke in Kk; injection Kk as <- _; cbn [rule_name] in Nr.
  - left. destruct (rule_src_known f w Sy To Decl _ _ _ Ir) as [Kj _]. exists j, x, ft. auto.
  - right. exists b, args, l, x, ft. split; [exact Ir |]. split; [exists []; exact Rk |]. split; [| exact Nr]. eapply (rule_symbols_known f w Sy); [exact Ir | cbn [rule_symbols In]; auto].
Qed.
Lemma not_item_oper (P : isrc -> Prop) n b ops x : kind n = NOper b ops x -> forall i, rep (imeans D i) n -> known_src i -> P i.
Proof. intros K i R Kn. exfalso. exact (known_not_oper _ _ Kn R _ _ _ K). Qed.
Lemma not_operator (P : Prop) n nm b l : (forall b ops x, kind n <> NOper b ops x) -> rep (IOperator nm b l) n -> P.
Proof. intros N (m & os & y & K & _). exfalso. eapply N. exact K. Qed.
Definition skips (n : id) : Prop :=
  (forall i, rep (imeans D i) n -> known_src i -> skippable f i) /\
  (forall nm b l, rep (IOperator nm b (map (ops_means D) l)) n -> (exists s, sid b = Some s) -> sym_skippable f b).
Lemma skips_item n : (forall b ops x, kind n <> NOper b ops x) -> (forall i, head i (kind n) -> rep (imeans D i) n -> known_src i -> skippable f i) -> skips n.
Proof.
  intros N H. split; [apply by_unpar; [intros i; apply unpar_skippable | exact H] |]. intros nm b l R _. exact (not_operator _ _ _ _ _ N R).
Qed.
Lemma idle_skips n : idle g n -> skips n.
Proof.
  induction 1 as [n K | n K | n m K B IH | n s e i K Ie Ke B IH | n s K | n m c a K B IH | n m c a K | n l r K B IH | n l r K B IH | n l r K B1 IH1 B2 IH2 | n t c K B IH | n t c K B IH | n t K | n m K B IH | n m K B IH | n b ops x K B IH];
    try (apply skips_item; [congruence |]; intros j Hh R Kn; rewrite K in Hh; by_head j Hh; try (constructor; fail)).
  - injection E as <-. apply k_with. apply IH; assumption.
  - injection Hh as ->. apply k_sym. cbn [grules graph] in Ie. destruct (rule_inv e i _ Ie Ke) as [(j & y & ft & Ir & Rj & Kj & Ey) | (b & args2 & l & y & ft & Ir & (nm & Ro) & Kb & Ey)].
    + assert (x = y) by (eapply index_inj; [apply sym_known; exact Kn | exact Ey]). subst y. eapply k_rule; [exact Ir | apply IH; assumption].
    + assert (x = y) by (eapply index_inj; [apply sym_known; exact Kn | exact Ey]). subst y. eapply k_expr; [exact Ir | eapply IH; eassumption].
  - injection E as <- <- <-. apply k_many. apply IH; assumption.
  - injection E as <- <-. apply k_left. apply IH; [exact E0 | apply Kn].
  - injection E as <- <-. apply k_right. apply IH; [exact Hh | apply Kn].
  - injection E as <- <-. apply k_list. apply IH1; [exact E0 | apply Kn].
  - injection E as <- <-. apply k_then; [apply IH1; [exact E0 | apply Kn] | apply IH2; [exact Hh | apply Kn]].
  - injection E as <- ->. apply k_try. apply IH; [exact E0 | apply Kn].
  - injection E as <- <-. apply k_catch. apply IH; [exact Hh | apply Kn].
  - injection E as <-. apply k_bind. apply IH; assumption.
  - injection E as <-. apply k_when. apply IH; assumption.
  - split; [intros i; eapply not_item_oper; exact K |]. intros nm b' l (m & os & y & K' & Km & _) Kb. rewrite K in K'. injection K' as <- <- <-.
    assert (H : skippable f (IAtom (ASym b' None))) by (apply IH; [exact Km | exact Kb]). inversion H; subst. assumption.
Qed.

(** [nbegins n s]: symbol [s] is looked at in [n] with nothing read before. *)
Inductive nbegins : id -> id -> Prop :=
| nb_here n s : kind n = NNon s \/ kind n = NInl s -> nbegins n s
| nb_down n m s : starts g n m -> (forall s, kind n <> NNon s) -> (forall s, kind n <> NInl s) -> n <> m -> nbegins m s -> nbegins n s.
Definition nleft (s s' : id) : Prop := exists e i, In e order /\ kind e = NEvolve i s /\ nbegins i s'.
Definition leading (n s : id) : Prop :=
  (forall i, rep (imeans D i) n -> known_src i -> exists y, sid y = Some s /\ leads f i y) /\
  (forall nm b l, rep (IOperator nm b (map (ops_means D) l)) n -> (exists t, sid b = Some t) -> sid b = Some s).
Lemma leading_item n s : (forall b ops x, kind n <> NOper b ops x) -> (forall i, head i (kind n) -> rep (imeans D i) n -> known_src i -> exists y, sid y = Some s /\ leads f i y) -> leading n s.
Proof.
  intros N H. split; [apply by_unpar; [intros i (y & Ey & L); exists y; split; [exact Ey | apply unpar_leads; exact L] | exact H] |]. intros nm b l R _. exact (not_operator _ _ _ _ _ N R).
Qed.
Ltac lead IH R Kn C := destruct (proj1 IH _ R Kn) as (y & Ey & L); exists y; split; [exact Ey | apply C; assumption].
Lemma nbegins_leading n s : nbegins n s -> leading n s.
Proof.
  induction 1 as [n s K | n m s X N1 N2 NE B IH].
  - assert (leading n s); [| assumption]. apply leading_item; [destruct K; congruence |]. intros j Hh R Kn.
    destruct K as [K | K]; rewrite K in Hh; by_head j Hh; injection Hh as ->; exists x; (split; [apply sym_known; exact Kn | constructor]).
  - inversion X as [n0 s0 e i K _ _ | n0 s0 e i K _ _ | n0 i c a K | n0 i c a K | n0 i c a K _ | n0 i K | n0 l r K | n0 l r K | n0 l r K | n0 l r K Id | n0 t c K | n0 t c K | n0 i K | n0 i K | n0 b ops x K]; subst;
      try (exfalso; eapply N1; exact K); try (exfalso; eapply N2; exact K); try (exfalso; apply NE; reflexivity);
      try (apply leading_item; [congruence |]; intros j Hh R Kn; rewrite K in Hh; by_head j Hh).
    + injection E as <- <- <-. lead IH Hh Kn l_many.
    + injection E as <- <- <-. lead IH Hh Kn l_any.
    + injection E as <-. lead IH Hh Kn l_with.
    + injection E as <- <-. destruct Kn as [Kn1 Kn2]. lead IH E0 Kn1 l_maybe.
    + injection E as <- <-. destruct Kn as [Kn1 Kn2]. lead IH E0 Kn1 l_left.
    + injection E as <- <-. destruct Kn as [Kn1 Kn2]. destruct (proj1 IH _ Hh Kn2) as (y & Ey & L). inversion L.
    + injection E as <- <-. destruct Kn as [Kn1 Kn2]. lead IH Hh Kn2 l_right.
    + injection E as <- <-. destruct Kn as [Kn1 Kn2]. lead IH E0 Kn1 l_list1.
    + injection E as <- <-. destruct Kn as [Kn1 Kn2]. lead IH E0 Kn1 l_then1.
    + injection E as <- <-. destruct Kn as [Kn1 Kn2]. pose proof (proj1 (idle_skips _ Id) _ E0 Kn1) as SK. destruct (proj1 IH _ Hh Kn2) as (y & Ey & L). exists y. split; [exact Ey |].
      inversion L as [| | | | | | | |? ? L' | | | | | | | | |]; subst. inversion L' as [| | | | | | | | | | | | | ? ? ? L2 | ? ? ? _ L2 | | |]; subst; [apply l_list2; assumption | apply l_list1; assumption].
    + injection E as <- <-. destruct Kn as [Kn1 Kn2]. pose proof (proj1 (idle_skips _ Id) _ E0 Kn1) as SK. lead IH Hh Kn2 l_then2.
    + injection E as <- ->. lead IH Hh Kn l_recover.
    + injection E as <- ->. destruct Kn as [Kn1 Kn2]. lead IH E0 Kn1 l_try.
    + injection E as <- <-. destruct Kn as [Kn1 Kn2]. lead IH Hh Kn2 l_catch.
    + injection E as <-. lead IH Hh Kn l_bind.
    + injection E as <-. lead IH Hh Kn l_when.
    + split; [intros i R Kn; exfalso; exact (known_not_oper _ _ Kn R _ _ _ K) |]. intros nm b' l (m' & os & y & K' & Km & _) Kb. rewrite K in K'. injection K' as <- <- <-.
      destruct (proj1 IH (IAtom (ASym b' None)) Km Kb) as (y & Ey & L). inversion L; subst. exact Ey.
Qed.
Lemma nleft_symbol s s' x : nleft s s' -> sid x = Some s -> exists y, sid y = Some s' /\ left_symbol f x y.
Proof.
  intros (e & i & Ie & Ke & B) Ex. destruct (nbegins_leading i s' B) as [L1 L2].
  destruct (rule_inv e i s Ie Ke) as [(j & x' & ft & Ir & Rj & Kj & Ey) | (b & args & l & x' & ft & Ir & (nm & Ro) & Kb & Ey)]; assert (x' = x) by (eapply index_inj; eassumption); subst x'.
  - destruct (L1 j Rj Kj) as (y & Ey' & L). exists y. split; [exact Ey' | eapply ls_rule; eassumption].
  - exists b. split; [eapply L2; eassumption | eapply ls_expr; eassumption].
Qed.
Lemma nleft_trans s s' : clos_trans id nleft s s' -> forall x, sid x = Some s -> exists y, sid y = Some s' /\ clos_trans text (left_symbol f) x y.
Proof.
  induction 1 as [s s' L | s t s' _ IH1 _ IH2]; intros x Ex.
  - destruct (nleft_symbol s s' x L Ex) as (y & Ey & H). exists y. split; [exact Ey | apply t_step; exact H].
  - destruct (IH1 x Ex) as (y & Ey & H). destruct (IH2 y Ey) as (z & Ez & H2). exists z. split; [exact Ez | eapply t_trans; eassumption].
Qed.

Notation WF := (graph_well_formed w order (rules_known f w Rl Sy To Decl) (fun e I => proj1 (Ord e) I)).
Lemma step_down n m : inside g n = true -> starts g n m ->
  inside g m = true /\ (m < n /\ (forall s, kind n <> NNon s) /\ (forall s, kind n <> NInl s) \/ (exists s e, (kind n = NNon s \/ kind n = NInl s) /\ In e order /\ kind e = NEvolve m s) \/
    (m = n /\ exists i c a, (kind n = NPlus i c a \/ kind n = NStar i c a) /\ idle g i)).
Proof.
  intros IN X. assert (KN : kind n <> NOther) by (intros K; inversion X; subst; try congruence; destruct H; congruence).
  assert (RULE : forall e i s, In e (grules g) -> kind e = NEvolve i s -> inside g i = true).
  { intros e i s Ie Ke. destruct (rule_kind g WF e Ie) as (I & _). assert (SH : shape g e = true) by (apply (shaped g WF); rewrite Ke; discriminate).
    unfold shape in SH. rewrite I, Ke in SH. apply andb_true_iff in SH. apply (below_inside g i e); [apply SH | exact I]. }
  pose proof (shaped g WF n KN) as SH. unfold shape in SH. rewrite IN in SH.
  assert (DN : forall m, below g m n = true -> inside g m = true /\ m < n).
  { intros m' B. split; [eapply below_inside; eassumption |]. unfold below in B. apply andb_true_iff in B. destruct B as [B _]. apply Nat.ltb_lt. exact B. }
  inversion X; subst; change (grules g) with order in *;
    try (split; [eapply RULE; eassumption | right; left; eauto 8]; fail); try (split; [exact IN | right; right; split; [reflexivity | eauto 6]]; fail).
  all: match goal with H : _ = NPlus _ _ _ |- _ => rename H into K | H : _ = NStar _ _ _ |- _ => rename H into K | H : _ = NAct _ |- _ => rename H into K | H : _ = NAlt _ _ |- _ => rename H into K | H : _ = NCons _ _ |- _ => rename H into K | H : _ = NTry _ _ |- _ => rename H into K | H : _ = NAnn _ |- _ => rename H into K | H : _ = NCond _ |- _ => rename H into K | H : _ = NOper _ _ _ |- _ => rename H into K end.
  all: rewrite K in SH; try match goal with c : option id |- _ => destruct c end; repeat rewrite andb_true_iff in SH.
  all: assert (BB : below g m n = true) by (apply SH); destruct (DN _ BB); (split; [assumption | left; split; [assumption | split; intros ?; rewrite K; discriminate]]).
Qed.
Lemma path_case (A : forall n i c a, inside g n = true -> kind n = NPlus i c a \/ kind n = NStar i c a -> ~ idle g i) n m : clos_trans_1n id (starts g) n m -> inside g n = true ->
  (m < n /\ forall s, nbegins m s -> nbegins n s) \/ (exists s s2, nbegins n s /\ clos_refl_trans id nleft s s2 /\ forall s', nbegins m s' -> nleft s2 s').
Proof.
  induction 1 as [n m X | n k m X P IH]; intros IN; destruct (step_down _ _ IN X) as (IK & [(L & N1 & N2) | [(s & e & Kn & Ie & Ke) | (-> & i & c & a & Kn & Id)]]); try (exfalso; exact (A _ _ _ _ IN Kn Id)).
  - left. split; [exact L |]. intros s B. eapply nb_down; try eassumption. lia.
  - right. exists s, s. split; [apply nb_here; exact Kn |]. split; [apply rt_refl |]. intros s' B. exists e, m. auto.
  - assert (UP : forall s, nbegins k s -> nbegins n s) by (intros s B; eapply nb_down; try eassumption; lia).
    destruct (IH IK) as [(L2 & H) | (s & s2 & H & R & H2)]; [left; split; [lia | auto] | right; exists s, s2; auto].
  - right. destruct (IH IK) as [(L2 & H) | (s1 & s2 & H & R & H2)].
    + exists s, s. split; [apply nb_here; exact Kn |]. split; [apply rt_refl |]. intros s' B. exists e, k. auto.
    + exists s, s2. split; [apply nb_here; exact Kn |]. split; [| exact H2]. eapply rt_trans; [apply rt_step; exists e, k; eauto | exact R].
Qed.
Lemma file_left : not_left_recursive f -> no_left_recursion g.
Proof.
  intros (NL & NS & NLi) n IN C.
  assert (A : forall n i c a, inside g n = true -> kind n = NPlus i c a \/ kind n = NStar i c a -> ~ idle g i).
  { intros n' k c a IN' K Id.
    destruct (node_item n') as [[H | [H | [H | [H | [[? H] | [(? & ? & H) | (? & ? & ? & H)]]]]]] | [(i & x & ft & j & Ir & Ij & Kj & Rj) | (L & l' & r' & H)]]; try (destruct K; congruence);
      [| destruct K, H; congruence].
    assert (IFL : forall p, In p (parts i) -> in_file f p) by (intros p Ip; exists i, x, ft; auto).
    assert (J : exists kk, (j = GramModel.IPlus kk \/ j = GramModel.IStar kk) /\ rep kk k /\ known kk).
    { pose proof (rep_kind w order _ _ Rj) as Z. destruct j; cbn [GraphProofs.known] in Kj; try (destruct Kj; fail); cbn [GraphProofs.rep] in Rj;
        repeat match type of Rj with exists _, _ => destruct Rj as [? Rj] | _ /\ _ => let E := fresh "E" in destruct Rj as [E Rj] end; try (destruct K; congruence);
        (destruct K as [K | K]; [| ]; try congruence; rewrite K in E; injection E as <- <- <-; eexists; eauto). }
    destruct J as (kk & Jk & Rk & Kk). destruct (subs_loops D _ _ Ij kk Jk) as [(p & Ip & ->) | (p & q & Ip & ->)].
    - apply (NS p); [destruct Ip as [Ip | Ip]; [left | right]; apply IFL; exact Ip |]. apply (idle_skips _ Id); assumption.
    - apply (NLi p q (IFL _ Ip)). assert (SK : skippable f (IThen q p)) by (apply (idle_skips _ Id); assumption). inversion SK; subst. auto. }
  apply clos_trans_t1n in C. destruct (path_case A n n C IN) as [(L & _) | (s & s2 & B & R & H)]; [lia |].
  pose proof (H s B) as H'. pose proof (clos_rt_t _ _ _ _ _ R (t_step _ _ _ _ H')) as CY. destruct H' as (e & i & Ie & Ke & _).
  assert (SX : exists x, sid x = Some s2).
  { destruct (rule_inv e i s2 Ie Ke) as [(j & x & ft & _ & _ & _ & Ex) | (b & args & l & x & ft & _ & _ & _ & Ex)]; eauto. }
  destruct SX as [x Ex]. destruct (nleft_symbol s2 s x (H s B) Ex) as (y & Ey & _). destruct (nleft_trans s s CY y Ey) as (z & Ez & T).
  assert (z = y) by (eapply index_inj; eassumption). subst z. exact (NL y T).
Qed.

(** The operand of an operator. *)
Lemma file_operands : (forall b args l x ft, In (ROperators b args l x ft) (rules_ f) -> ~ sentence f b []) -> operands_not_empty g.
Proof.
  intros OR n b ops x K Hd.
  destruct (node_cases n) as [H | [(r & e & Ir & Ie & Re & [(j & Ij & Kj & Rj) | [(nm & b' & l & s' & ds & c & Ei & Ro & Ke') | ->]]) | (_ & l & rr & E & _)]].
  - destruct H as [H | [H | [H | H]]]; congruence.
  - exact (known_not_oper _ _ Kj Rj _ _ _ K).
  - destruct r as [i0 x0 ft0 | b0 args0 l0 x0 ft0]; cbn [rule_means] in Ei.
    + injection Ei as Ei _ _ _. destruct (rule_src_known f w Sy To Decl _ _ _ Ir) as [Ki _]. unfold LangProofs.known_src in Ki. rewrite Ei in Ki. destruct Ki.
    + injection Ei as <- <- <- _ _ _. destruct Ro as (m & os & y & Kn & Km & _). rewrite K in Kn. injection Kn as <- <- <-.
      apply (OR _ _ _ _ _ Ir). assert (Kb : sid b0 = Some (sym_id sid b0)) by (apply sym_known; eapply (rule_symbols_known f w Sy); [exact Ir | cbn [rule_symbols In]; auto]).
      inversion Hd; subst; try congruence. match goal with Q : GrammarModel.kind _ b = NNon ?s |- _ => assert (s = sym_id sid b0) by congruence; subst s end.
      apply (graph_language f w order Rl Sy To Decl Ord b0 _ [] [] Kb (Forall2_nil _)). assumption.
  - destruct (rule_evolve r e Re) as (k & Kk). congruence.
  - destruct E as [E | E]; congruence.
Qed.
End L.
