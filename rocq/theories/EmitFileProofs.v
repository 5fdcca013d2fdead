(** What the nodes of a grammar file are like, as far as the text of the parse functions
    depends on it. *)
From Coq Require Import List Ascii String Bool PeanoNat Lia Permutation.
From Verif Require Import GrammarProofs FirstProofs.
From Verif Require Import FlexModel GramModel GramSpec LangSpec EmitSpec.
From Verif Require Import GraphModel GraphProofs LangProofs OriginProofs FileProofs GrammarModel GrammarSpec ParserModel CppSpec EmitModel EmitReadProofs EmitTotalProofs.
Import ListNotations.
Open Scope list_scope.

Section F.
Variables (f : file) (w : world) (order : list id).
Notation g := (graph w order).
Notation kind := (GrammarModel.kind g).
Notation tid := (token_id w).
Notation sid := (symbol_id w).
Notation D := (describe f).
Notation rep := (rep g tid sid).
Notation known := (known tid sid).
Hypothesis Rl : rules_pushed (rev (events w)) = map (rule_means D) (rules_ f).
Hypothesis Sy : symbols_pushed (rev (events w)) = flat_map rule_symbols (rules_ f).
Hypothesis To : forall x, lookup x (terminals w) = first_of (file_tokens f) x.
Hypothesis Decl : tokens_declared f.
Hypothesis Ord : forall e, In e order <-> In e (rule_ids w).
Let WF : well_formed g = true := graph_well_formed w order (rules_known f w Rl Sy To Decl) (fun e I => proj1 (Ord e) I).


(** ** Symbols *)
Lemma push_nodup : forall l st, NoDup (fst st) -> NoDup (fst (fold_left push_symbol l st)).
Proof.
  induction l as [| y l IH]; intros st N; [exact N |]. cbn [fold_left]. apply IH. unfold push_symbol. destruct (existsb (same y) (fst st)) eqn:E; cbn [fst]; [exact N |].
  apply (Permutation_NoDup (Permutation_cons_append (fst st) y)). constructor; [| exact N]. intros I.
  assert (X : existsb (same y) (fst st) = true) by (apply existsb_exists; exists y; split; [exact I | apply same_iff; reflexivity]). congruence.
Qed.
Lemma index_at x : forall l n k, NoDup l -> nth_error l k = Some x -> index x l n = Some (n + k).
Proof.
  induction l as [| y l IH]; intros n k N E; [destruct k; discriminate |]. cbn [index]. inversion N as [| ? ? N1 N2]; subst. destruct k as [| k]; cbn [nth_error] in E.
  - injection E as ->. rewrite (proj2 (same_iff x x) eq_refl). f_equal. lia.
  - destruct (same x y) eqn:Q; [| rewrite (IH (S n) k N2 E); f_equal; lia]. apply same_iff in Q. subst y. exfalso. apply N1. eapply nth_error_In. exact E.
Qed.
Lemma sym_place s : kind s = NSym -> 1 + List.length (token_names w) <= s < items_from w.
Proof.
  intros K. pose proof (pins_len w) as P. pose proof (to_from w) as Q. pose proof (plain_len w) as R. pose proof (size_graph w order) as Z. pose proof (rules_known f w Rl Sy To Decl) as RK.
  destruct (rules_origin g tid sid (items_from w) eq_refl (kind_zero w order) ltac:(unfold items_from; lia) (to_from w) (token_ok w order) (symbol_ok w order)
    (rules_pushed (rev (events w))) (items_from w) (items_to w) RK (le_n _) (le_n _) (sits_in w order) (sits_out w order)) as (A & B).
  - fold (all_placed w). cbn [gregular graph]. lia.
  - fold (all_placed w). lia.
  - fold (all_placed w) in *. fold (rule_ids w) in *. rewrite P in A. replace (items_from w + (items_to w - items_from w)) with (items_to w) in A by lia. rewrite <- R in B.
    destruct (Nat.lt_ge_cases s (1 + List.length (token_names w))) as [L1 | L1].
    { exfalso. destruct s as [| s]; [rewrite kind_zero in K; discriminate | rewrite (kind_tok w order (S s) ltac:(lia)) in K; discriminate]. }
    split; [exact L1 |]. destruct (Nat.lt_ge_cases s (items_from w)) as [L2 | L2]; [exact L2 |]. exfalso.
    destruct (Nat.lt_ge_cases s (items_to w)) as [L3 | L3].
    { destruct (A s ltac:(lia)) as (i & e & Ii & Ie & Re & [(j & Ij & Kj & Rj) | [(nm & b' & l & s' & ds & c & Ei & Ro & Ke') | ->]]).
      - pose proof (rep_kind w order _ _ Rj) as Zj. destruct j; cbn [GraphProofs.known] in Kj; try (destruct Kj; fail); cbn [GraphProofs.rep] in Rj;
          repeat match type of Rj with exists _, _ => destruct Rj as [? Rj] | _ /\ _ => let E := fresh "E" in destruct Rj as [E Rj] end; congruence.
      - destruct Ro as (mm & os & y & Kn & Km & _). congruence.
      - rewrite Rl in Ii. apply in_map_iff in Ii. destruct Ii as (r & <- & Ir). destruct (rule_evolve f w order r e Re) as (k & Kk). congruence. }
    destruct (Nat.lt_ge_cases s (List.length (plain_nodes w))) as [L4 | L4]; [destruct (B s ltac:(lia)) as (l & r & [E | E] & _); congruence |].
    destruct (token_id w eof_name) as [t|] eqn:E.
    + unfold GrammarModel.kind in K. rewrite nth_overflow in K by (unfold size in Z; lia). discriminate.
    + destruct (Nat.eq_dec s (List.length (plain_nodes w))) as [-> | N]; [rewrite (kind_eof w order E) in K; discriminate |]. unfold GrammarModel.kind in K. rewrite nth_overflow in K by (unfold size in Z; lia). discriminate.
Qed.
Lemma sym_named s : kind s = NSym -> exists x, sid x = Some s /\ In x (flat_map rule_symbols (rules_ f)).
Proof.
  intros K. pose proof (sym_place s K) as R. unfold items_from in R. destruct (nth_error (symbol_names w) (s - (1 + List.length (token_names w)))) as [x |] eqn:E.
  - exists x. assert (X : sid x = Some s).
    { unfold symbol_id. rewrite (index_at x (symbol_names w) _ _ ltac:(unfold symbol_names, pushed; apply push_nodup; constructor) E). f_equal. lia. }
    split; [exact X |]. apply (symbol_named f w Sy). eauto.
  - apply nth_error_None in E. lia.
Qed.
Lemma file_defined : symbols_defined f -> forall s, kind s = NSym -> env g s <> [].
Proof.
  intros SD s K. destruct (sym_named s K) as (x & E & I). destruct (SD x I) as (r & Ir & N). destruct (node_rule f w order Rl Sy To Decl Ord r Ir) as (e & Ie & R).
  destruct (rule_evolve f w order r e R) as (k & Kk). rewrite N in Kk. assert (X : sym_id sid x = s) by (unfold sym_id; rewrite E; reflexivity). rewrite X in Kk.
  assert (J : In e (env g s)) by (unfold env; apply -> in_rev; apply filter_In; split; [exact Ie |]; unfold rule_of; rewrite Kk; apply Nat.eqb_refl).
  intros H. rewrite H in J. exact J.
Qed.

(** ** Operators *)
Lemma by_kind_in o l : In o (by_kind l) <-> In o l.
Proof.
  unfold by_kind. rewrite in_flat_map. split.
  - intros (k & _ & I). apply filter_In in I. apply I.
  - intros I. destruct o;
      first [solve [exists 0; split; [cbn; auto 7 | apply filter_In; split; [exact I | reflexivity]]] | solve [exists 1; split; [cbn; auto 7 | apply filter_In; split; [exact I | reflexivity]]]
        | solve [exists 2; split; [cbn; auto 7 | apply filter_In; split; [exact I | reflexivity]]] | solve [exists 3; split; [cbn; auto 7 | apply filter_In; split; [exact I | reflexivity]]]
        | solve [exists 4; split; [cbn; auto 7 | apply filter_In; split; [exact I | reflexivity]]]].
Qed.
Lemma file_oper n b ops x : operators_infix f -> kind n = NOper b ops x -> (exists s, kind b = NNon s) /\ existsb is_tern ops = false /\ has_infix ops.
Proof.
  intros OI K. destruct (node_cases f w order Rl Sy To Decl Ord n) as [H | [(r & e & Ir & Ie & Re & [(j & Ij & Kj & Rj) | [(nm & b' & l & s' & ds & c & Ei & Ro & Ke') | ->]]) | (_ & l & rr & E & _)]].
  - destruct H as [H | [H | [H | H]]]; congruence.
  - exfalso. exact (known_not_oper w order _ _ Kj Rj _ _ _ K).
  - destruct r as [i x0 ft | b0 args l0 x0 ft]; cbn [rule_means] in Ei.
    + exfalso. destruct (rule_src_known f w Sy To Decl _ _ _ Ir) as [Ki _]. unfold known_src in Ki. injection Ei as Ei _ _ _. rewrite Ei in Ki. exact Ki.
    + injection Ei as _ <- El _ _ _. destruct Ro as (mm & os & y & Kn & Km & F2). rewrite K in Kn. injection Kn as -> -> ->. split; [eauto |].
      assert (IN : forall o, In o l <-> exists o', In o' l0 /\ o = ops_means D o') by (intros o; rewrite <- El, in_map_iff; split; [intros (o' & <- & Io'); eauto | intros (o' & Io' & ->); eauto]).
      destruct (OI _ _ _ _ _ Ir) as [(o & Io & Co) NT]. split.
      * apply not_true_iff_false. intros X. apply existsb_exists in X. destruct X as (p & Ip & Tp).
        assert (G : exists o, In o (by_kind l) /\ rep_op tid o p).
        { clear - F2 Ip. revert Ip. induction F2 as [| a c la lc R F IH]; intros Ip; [destruct Ip |]. destruct Ip as [-> | Ip]; [exists a; split; [left; reflexivity | exact R] |]. destruct (IH Ip) as (o & I & R2). exists o. split; [right; exact I | exact R2]. }
        destruct G as (o2 & I2 & R2). apply -> by_kind_in in I2. apply -> IN in I2. destruct I2 as (o3 & I3 & ->). apply (NT o3 I3).
        destruct o3; cbn [ops_means rep_op] in R2; cbn [ternary]; auto; repeat match type of R2 with exists _, _ => destruct R2 as [? R2] end; repeat match goal with H : _ /\ _ |- _ => destruct H end; subst p; discriminate.
      * assert (I2 : In (ops_means D o) (by_kind l)) by (apply by_kind_in, IN; eauto).
        assert (G : exists p, In p os /\ rep_op tid (ops_means D o) p).
        { clear - F2 I2. revert I2. induction F2 as [| a c la lc R F IH]; intros Ip; [destruct Ip |]. destruct Ip as [-> | Ip]; [exists c; split; [left; reflexivity | exact R] |]. destruct (IH Ip) as (p & I & R2). exists p. split; [right; exact I | exact R2]. }
        destruct G as (p & Ip & Rp). exists p. split; [exact Ip |]. destruct o; cbn [comes_after] in Co; try (destruct Co; fail); cbn [ops_means rep_op] in Rp; destruct Rp as (t & _ & ->); [right | left]; reflexivity.
  - destruct (rule_evolve f w order r e Re) as (k & Kk). congruence.
  - destruct E as [E | E]; congruence.
Qed.

(** ** Inlining *)
Lemma inlined_there n s : kind n = NInl s -> exists x i y ft, sid x = Some s /\ In (RRule i y ft) (rules_ f) /\ In (IInlined x) (parts i).
Proof.
  intros K. destruct (node_item f w order Rl Sy To Decl Ord n) as [[H | [H | [H | [H | [[? H] | [(? & ? & H) | (? & ? & ? & H)]]]]]] | [(i & y & ft & j & Ir & Ij & Kj & Rj) | (L & l & r & [H | H])]]; try congruence.
  pose proof (rep_kind w order _ _ Rj); destruct j; cbn [GraphProofs.known] in Kj; try (destruct Kj; fail); cbn [GraphProofs.rep] in Rj;
    repeat match type of Rj with exists _, _ => destruct Rj as [? Rj] | _ /\ _ => let E := fresh "E" in destruct Rj as [E Rj] end; try congruence.
  destruct (subs_parts D _ _ Ij) as (_ & A & _). specialize (A _ eq_refl). apply sym_known in Kj. assert (s = sym_id sid symbol) by congruence. subst s. exists symbol, i, y, ft. auto.
Qed.
Lemma parts_symbols x : forall i, In (IInlined x) (parts i) -> In x (symbols_of i).
Proof.
  induction i; intros I; cbn [parts In symbols_of] in *; try (destruct I as [I | []]; try discriminate); try (destruct I as [I | I]; [discriminate |]);
    repeat match goal with H : In _ (_ ++ _) |- _ => apply in_app_or in H; destruct H | |- In _ (_ ++ _) => apply in_or_app end; auto.
  injection I as ->. left. reflexivity.
Qed.
Lemma file_inlined_rule : symbols_defined f -> forall n s, kind n = NInl s -> search_rule g s <> None.
Proof.
  intros SD n s K H. destruct (inlined_there n s K) as (x & i & y & ft & E & Ir & Ii). destruct (SD x) as (r & Irr & N); [apply in_flat_map; exists (RRule i y ft); split; [exact Ir |]; cbn [rule_symbols]; apply in_or_app; left; apply parts_symbols; exact Ii |].
  destruct (node_rule f w order Rl Sy To Decl Ord r Irr) as (e & Ie & R). destruct (rule_evolve f w order r e R) as (k & Kk). rewrite N in Kk. assert (X : sym_id sid x = s) by (unfold sym_id; rewrite E; reflexivity). rewrite X in Kk.
  pose proof (find_none _ _ H e Ie) as F. unfold rule_of in F. rewrite Kk, Nat.eqb_refl in F. discriminate.
Qed.
Lemma file_inlined_start n s : symbols_defined f -> kind n = NInl s -> mem s (gstart g) = false.
Proof.
  intros SD K. destruct (inlined_there n s K) as (x & i & y & ft & E & Ir & Ii). apply mem_not. cbn [gstart graph]. intros I. apply in_flat_map in I. destruct I as (x' & Ix & I). destruct (symbol_id w x') as [s' |] eqn:E'; [| destruct I]. destruct I as [-> | []].
  assert (x' = x) by (eapply index_inj; eassumption). subst x'. rewrite Sy in Ix. apply pushed_start in Ix.
  pose proof (parts_symbols x i Ii) as Is. destruct (SD x) as (r & Irr & N); [apply in_flat_map; exists (RRule i y ft); split; [exact Ir |]; cbn [rule_symbols]; apply in_or_app; left; exact Is |].
  assert (C2 : forall l, In x l -> 1 <= count_occ text_dec l x) by (intros l Il; apply (count_occ_In text_dec) in Il; lia).
  apply in_split in Ir. destruct Ir as (l1 & l2 & El). rewrite El in Ix, Irr. rewrite flat_map_app in Ix. cbn [flat_map rule_symbols] in Ix. rewrite !count_occ_app in Ix.
  assert (C1 : 1 <= count_occ text_dec (symbols_of i) x) by (apply C2; exact Is).
  assert (IR : In x (rule_symbols r)) by (rewrite <- N; destruct r; cbn [rule_symbols rule_name]; [apply in_or_app; right; left; reflexivity | right; left; reflexivity]).
  apply in_app_or in Irr. destruct Irr as [Irr | [<- | Irr]].
  - assert (1 <= count_occ text_dec (flat_map rule_symbols l1) x) by (apply C2, in_flat_map; eauto). unfold text in *; lia.
  - cbn [rule_name] in N. subst y. cbn [count_occ] in Ix. unfold text in *; destruct (text_dec x x); [lia | congruence].
  - assert (1 <= count_occ text_dec (flat_map rule_symbols l2) x) by (apply C2, in_flat_map; eauto). unfold text in *; lia.
Qed.
Lemma sub_child j n m : known j -> rep j n -> child g n m -> exists j', In j' (subs j) /\ known j' /\ rep j' m.
Proof.
  intros K R C. unfold child in C. pose proof (rep_kind w order j n R) as Z. destruct j; cbn [GraphProofs.known] in K; try (destruct K; fail); cbn [GraphProofs.rep] in R;
    repeat match type of R with exists _, _ => destruct R as [? R] | _ /\ _ => let E := fresh "E" in destruct R as [E R] end;
    try (rewrite Z in C; destruct C; fail); try (rewrite R in C; destruct C; fail); try (rewrite E in C; subst m; eexists; split; [right; apply subs_self | split; eassumption]; fail).
  all: rewrite E in C; destruct K as [K1 K2]; cbn [subs]; destruct C as [-> | ->].
  all: first [exists j1; split; [right; apply in_or_app; left; apply subs_self | split; assumption] | exists j2; split; [right; apply in_or_app; right; apply subs_self | split; assumption]].
Qed.
Lemma subs_trans a : forall i j, In j (subs i) -> In a (subs j) -> In a (subs i).
Proof.
  induction i; intros j Ij Ia; cbn [subs In] in *; (destruct Ij as [<- | Ij]; [exact Ia |]); try (destruct Ij; fail); right; eauto;
    try (apply in_app_or in Ij; apply in_or_app; destruct Ij; eauto).
  destruct Ij as [<- | []]. exact Ia.
Qed.
Lemma sub_reach n m : reach g n m -> forall j, known j -> rep j n -> exists j', In j' (subs j) /\ known j' /\ rep j' m.
Proof.
  induction 1 as [n | n k m C R IH]; intros j K Rj; [exists j; split; [apply subs_self | auto] |]. destruct (sub_child j n k K Rj C) as (j1 & I1 & K1 & R1). destruct (IH j1 K1 R1) as (j2 & I2 & K2 & R2).
  exists j2. split; [eapply subs_trans; eassumption | auto].
Qed.
Lemma file_inlining : inlining_ends f -> forall s, Acc (inlines g) s.
Proof.
  intros IE. assert (A : forall x s, sid x = Some s -> Acc (inlines g) s).
  { intros x. induction (IE x) as [x _ IH]. intros s E. constructor. intros s' (e & i & s0 & n & SR & Ke & Re & Kn).
    assert (Ie : In e order) by (apply find_some in SR; apply SR). assert (s0 = s). { apply find_some in SR. destruct SR as [_ SR]. unfold rule_of in SR. rewrite Ke in SR. apply Nat.eqb_eq in SR. auto. } subst s0.
    destruct (inlined_there n s' Kn) as (y & _ & _ & _ & Ey & _). apply (IH y); [| exact Ey].
    destruct (rule_inv f w order Rl Sy To Decl Ord e i s Ie Ke) as [(j & x' & ft & Ir & Rj & Kj & Ex') | (b & args & l & x' & ft & Ir & (nm & Ro) & _)].
    - assert (x' = x) by (eapply index_inj; eassumption). subst x'. exists j, ft. split; [exact Ir |]. destruct (sub_reach i n Re _ Kj Rj) as (j' & I' & K' & R').
      pose proof (rep_kind w order _ _ R') as Zj. destruct j'; cbn [GraphProofs.known] in K'; try (destruct K'; fail); cbn [GraphProofs.rep] in R';
        repeat match type of R' with exists _, _ => destruct R' as [? R'] | _ /\ _ => let E := fresh "E" in destruct R' as [E R'] end; try congruence.
      apply sym_known in K'. assert (Q : sym_id sid symbol = s') by congruence. rewrite Q in K'. assert (symbol = y) by (eapply index_inj; [exact K' | exact Ey]). subst symbol.
      destruct (subs_parts D _ _ I') as (_ & B & _). apply B. reflexivity.
    - exfalso. destruct Ro as (mm & os & z & Ki & Km & _). inversion Re as [| ? k ? C R2]; subst; [congruence |]. unfold child in C. rewrite Ki in C. subst k. inversion R2 as [| ? k ? C R3]; subst; [congruence |]. unfold child in C. rewrite Km in C. exact C. }
  intros s. constructor. intros s' (e & i & s0 & n & SR & Ke & Re & Kn). destruct (inlined_there n s' Kn) as (y & _ & _ & _ & Ey & _). exact (A y s' Ey).
Qed.
Lemma file_annotated n i : kind n = NAnn i -> kind i = NTerm \/ exists s, kind i = NNon s.
Proof.
  intros K. destruct (node_item f w order Rl Sy To Decl Ord n) as [[H | [H | [H | [H | [[? H] | [(? & ? & H) | (? & ? & ? & H)]]]]]] | [(i0 & y & ft & j & Ir & Ij & Kj & Rj) | (L & l & r & [H | H])]]; try congruence.
  pose proof (rep_kind w order _ _ Rj); destruct j; cbn [GraphProofs.known] in Kj; try (destruct Kj; fail); cbn [GraphProofs.rep] in Rj;
    repeat match type of Rj with exists _, _ => destruct Rj as [? Rj] | _ /\ _ => let E := fresh "E" in destruct Rj as [E Rj] end; try congruence.
  assert (X : exists t, j = atom_means D t).
  { clear - Ij. revert Ij. induction i0; intros Ij; cbn [imeans subs In] in Ij; try (destruct a as [? | ? ?]; cbn [atom_means subs In] in Ij);
      repeat match goal with H : _ \/ _ |- _ => destruct H as [H | H] | H : False |- _ => destruct H | H : In _ (_ ++ _) |- _ => apply in_app_or in H | H : In _ (_ :: _) |- _ => cbn [In] in H | H : In _ [] |- _ => destruct H end;
      try discriminate; auto.
    all: match goal with H : IAnnotation _ _ _ _ = IAnnotation _ _ _ _ |- _ => injection H as _ _ _ <-; first [exists (ATok text0); reflexivity | eexists (ASym _ _); reflexivity | eexists (ATok _); reflexivity] end. }
  destruct X as (t & ->). assert (x = i) by congruence. subst x. pose proof (rep_kind w order _ _ Rj) as Zj. destruct t as [y' | y' a']; cbn [atom_means GraphProofs.rep] in Rj.
  - left. exact Zj.
  - right. eauto.
Qed.
Lemma file_writable : symbols_defined f -> operators_infix f -> forall n, writable g n.
Proof.
  intros SD OI n. unfold writable. destruct (kind n) eqn:K; auto.
  - exact (file_inlined_rule SD n _ K).
  - exact (file_annotated n _ K).
  - destruct (file_oper n _ _ _ OI K) as (A & B & _). auto.
Qed.
End F.
