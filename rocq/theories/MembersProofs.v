(** Proofs about MembersModel. *)
From Coq Require Import List NArith PeanoNat Bool Lia.
From Verif Require Import Base ItemModel InlineModel InlineSpec InlineProofs MembersModel MembersSpec.
Import ListNotations.

Notation inl_ ds := (fun d : decl => In d ds).
Lemma decls_app a b : decls_of (a ++ b) = decls_of a ++ decls_of b.
Proof. unfold decls_of. apply flat_map_app. Qed.
Lemma decls_chain follow l : decls_of (chain follow l) = if follow then l else match l with [] => [] | d :: _ => [d] end.
Proof.
  unfold chain, decls_of. destruct follow; [|destruct l; reflexivity].
  induction l as [|d l IH]; [reflexivity|]. cbn in *. rewrite IH. reflexivity.
Qed.

(** ** Members *)
Lemma members_in : forall ds names m n, members ds names = (m, n) -> forall d, In d m -> In d ds /\ dmember d = true /\ ~ In (dname d) names.
Proof.
  induction ds as [|e ds IH]; intros names m n E d I; cbn [members] in E.
  - injection E as <- <-. destruct I.
  - destruct (dmember e) eqn:M; cbn [andb] in E.
    + destruct (tmem (dname e) names) eqn:T; cbn [negb] in E.
      * destruct (IH _ _ _ E d I) as (A & B & C). split; [right; exact A|split; assumption].
      * destruct (members ds (dname e :: names)) as [l n'] eqn:E'. injection E as <- <-. destruct I as [<-|I].
        -- split; [left; reflexivity|]. split; [exact M|]. rewrite <- tmem_In, T. discriminate.
        -- destruct (IH _ _ _ E' d I) as (A & B & C). split; [right; exact A|]. split; [exact B|]. intros X. apply C. right. exact X.
    + destruct (IH _ _ _ E d I) as (A & B & C). split; [right; exact A|split; assumption].
Qed.
Lemma members_all : forall ds names m n, members ds names = (m, n) -> forall d, In d ds -> dmember d = true ->
  In (dname d) names \/ exists e, In e m /\ dname e = dname d.
Proof.
  induction ds as [|e ds IH]; intros names m n E d I M; cbn [members] in E; [destruct I|].
  destruct (dmember e && negb (tmem (dname e) names))%bool eqn:B.
  - destruct (members ds (dname e :: names)) as [l n'] eqn:E'. injection E as <- <-. destruct I as [<-|I].
    + right. exists e. split; [left; reflexivity|reflexivity].
    + destruct (IH _ _ _ E' d I M) as [[X|X]|(x & X & Y)].
      * right. exists e. split; [left; reflexivity|exact X].
      * left. exact X.
      * right. exists x. split; [right; exact X|exact Y].
  - destruct I as [<-|I]; [|exact (IH _ _ _ E d I M)].
    rewrite M in B. cbn [andb] in B. apply negb_false_iff, tmem_In in B. left. exact B.
Qed.
Lemma members_nodup : forall ds names m n, members ds names = (m, n) -> NoDup (map dname m).
Proof.
  induction ds as [|e ds IH]; intros names m n E; cbn [members] in E; [injection E as <- <-; constructor|].
  destruct (dmember e && negb (tmem (dname e) names))%bool.
  - destruct (members ds (dname e :: names)) as [l n'] eqn:E'. injection E as <- <-. cbn [map]. constructor.
    + intros X. apply in_map_iff in X. destruct X as (d & X & I). destruct (members_in _ _ _ _ E' d I) as (_ & _ & C). apply C. left. symmetry. exact X.
    + exact (IH _ _ _ E').
  - exact (IH _ _ _ E).
Qed.
Lemma shown_nodup ds m : apart (inl_ ds) -> incl m ds -> NoDup (map dname m) -> NoDup (map fst (map as_var m)).
Proof.
  intros A. induction m as [|d m IH]; intros I N; cbn [map]; [constructor|].
  cbn [map] in N. inversion N as [|x y N1 N2]; subst. constructor.
  - intros X. apply in_map_iff in X. destruct X as (v & X & J). apply in_map_iff in J. destruct J as (e & <- & J). cbn in X.
    apply N1. rewrite (A d e); [apply in_map; exact J|apply I; left; reflexivity|apply I; right; exact J|symmetry; exact X].
  - apply IH; [intros y J; apply I; right; exact J|exact N2].
Qed.
Lemma members_has ds m n : consistent (inl_ ds) -> members ds [] = (m, n) -> forall d, In d ds -> dmember d = true -> In (as_var d) (map as_var m).
Proof.
  intros C E d I M. destruct (members_all _ _ _ _ E d I M) as [[]|(e & J & X)].
  rewrite <- (proj2 (C e d (proj1 (members_in _ _ _ _ E e J)) I X)). apply in_map. exact J.
Qed.

(** ** Scopes *)
Lemma visible_block sc x ty : visible sc x ty -> visible ([] :: sc) x ty.
Proof. intros V. apply vis_outer; [intros []|exact V]. Qed.
Definition no_var (l : list stmt) : Prop := forall v, ~ In (SVar v) l.
Lemma wn_app st : forall l1 sc l2, no_var l1 -> well_named st sc l1 -> well_named st sc l2 -> well_named st sc (l1 ++ l2).
Proof.
  induction l1 as [|s l1 IH]; intros sc l2 N W1 W2; [exact W2|]. cbn [app].
  assert (N' : no_var l1) by (intros v J; apply (N v); right; exact J).
  inversion W1; subst.
  - exfalso. apply (N v). left. reflexivity.
  - constructor; [assumption|]. apply IH; assumption.
  - constructor; [assumption|]. apply IH; assumption.
  - constructor; [assumption|]. apply IH; assumption.
  - constructor; [assumption|]. apply IH; assumption.
Qed.

Section L.
Variable D : list decl.
Hypothesis cons : consistent (inl_ D).
Hypothesis ap : apart (inl_ D).
Variable st : list var.
Hypothesis st_has : forall d, In d D -> dmember d = true -> In (as_var d) st.
Variable ast : bool.

(** The names known are those of visible variables; the names of the inner scope
    are among them. *)
Definition known_names (names : list text) (here : list var) (outer : list (list var)) : Prop :=
  (forall d, In d D -> In (dname d) names -> visible (here :: outer) (shown d) (shown_type d)) /\
  (forall x, In x (map fst here) -> exists d, In d D /\ shown d = x /\ In (dname d) names).
Lemma locals_ok : forall ds names l names' here outer,
  incl ds D -> locals ast ds names = (l, names') -> known_names names here outer ->
  (forall d, In d ds -> dmember d = true -> dargument d = true -> ast = true -> In (dname d) names) ->
  exists here', known_names names' here' outer /\ incl names names' /\
    (forall d, In d ds -> dmember d = false -> dargument d = false -> In (dname d) names') /\
    forall rest, well_named st (here' :: outer) rest -> well_named st (here :: outer) (l ++ rest).
Proof.
  induction ds as [|d ds IH]; intros names l names' here outer I E K A; cbn [locals] in E.
  - injection E as <- <-. exists here. split; [exact K|]. split; [apply incl_refl|]. split; [intros d []|]. intros rest W. exact W.
  - assert (Id : In d D) by (apply I; left; reflexivity).
    assert (Is : incl ds D) by (intros y J; apply I; right; exact J).
    assert (As : forall d, In d ds -> dmember d = true -> dargument d = true -> ast = true -> In (dname d) names)
      by (intros y J; apply A; right; exact J).
    destruct (negb (dmember d) && negb (dargument d))%bool eqn:B.
    + apply andb_true_iff in B. destruct B as (B1 & B2). apply negb_true_iff in B1. apply negb_true_iff in B2.
      destruct (tmem (dname d) names) eqn:T.
      * destruct (IH _ _ _ here outer Is E K As) as (here' & K' & L & H & W). exists here'. split; [exact K'|]. split; [exact L|].
        split; [|exact W]. intros e [<-|J] M1 M2; [apply L, tmem_In, T|exact (H e J M1 M2)].
      * destruct (locals ast ds (dname d :: names)) as [l1 n1] eqn:E1. injection E as <- <-.
        assert (F : ~ In (shown d) (map fst here)).
        { intros X. destruct (proj2 K _ X) as (e & Ie & S' & J). rewrite (ap e d Ie Id S') in J. apply tmem_In in J. congruence. }
        assert (K1 : known_names (dname d :: names) (as_var d :: here) outer).
        { split.
          - intros e Ie [X|X].
            + apply vis_here. left. exact (proj2 (cons d e Id Ie X)).
            + destruct (teq_spec (shown e) (shown d)) as [Y|Y].
              * exfalso. rewrite (ap e d Ie Id Y) in X. apply tmem_In in X. congruence.
              * pose proof (proj1 K e Ie X) as V. inversion V; subst; [apply vis_here; right; assumption|].
                apply vis_outer; [|assumption]. intros [Z|Z]; [apply Y; symmetry; exact Z|contradiction].
          - intros x [<-|X]; [exists d; split; [exact Id|split; [reflexivity|left; reflexivity]]|].
            destruct (proj2 K x X) as (e & Ie & S' & J). exists e. split; [exact Ie|]. split; [exact S'|right; exact J]. }
        destruct (IH _ _ _ _ outer Is E1 K1) as (here' & K' & L & H & W).
        { intros e J M1 M2 M3. right. exact (As e J M1 M2 M3). }
        exists here'. split; [exact K'|]. split; [intros y J; apply L; right; exact J|]. split.
        -- intros e [<-|J] M1 M2; [apply L; left; reflexivity|exact (H e J M1 M2)].
        -- intros rest Wr. cbn [app]. apply wn_var; [exact F|]. apply W, Wr.
    + destruct (dmember d && dargument d && ast)%bool eqn:B'.
      * apply andb_true_iff in B'. destruct B' as (B1 & B2). apply andb_true_iff in B1. destruct B1 as (B0 & B1).
        destruct (locals ast ds names) as [l1 n1] eqn:E1. injection E as <- <-.
        destruct (IH _ _ _ here outer Is E1 K As) as (here' & K' & L & H & W). exists here'. split; [exact K'|]. split; [exact L|]. split.
        -- intros e [<-|J] M1 M2; [congruence|exact (H e J M1 M2)].
        -- intros rest Wr. cbn [app]. apply wn_use; [apply (proj1 K); [exact Id|apply A; [left; reflexivity|assumption..]]|].
           apply wn_member; [apply st_has; assumption|]. apply W, Wr.
      * destruct (IH _ _ _ here outer Is E K As) as (here' & K' & L & H & W). exists here'. split; [exact K'|]. split; [exact L|].
        split; [|exact W]. intros e [<-|J] M1 M2; [|exact (H e J M1 M2)]. rewrite M1, M2 in B. discriminate B.
Qed.
Lemma locals_none : forall ds names, no_arguments (inl_ ds) -> (forall d, In d ds -> dmember d = false -> In (dname d) names) ->
  locals ast ds names = ([], names).
Proof.
  induction ds as [|d ds IH]; intros names N A; [reflexivity|]. cbn [locals].
  rewrite (N d (or_introl eq_refl)), andb_false_r, andb_true_r. cbn [negb andb].
  assert (E : locals ast ds names = ([], names)) by (apply IH; [intros e J; apply N; right; exact J|intros e J; apply A; right; exact J]).
  destruct (dmember d) eqn:M; cbn [negb]; [exact E|].
  rewrite (proj2 (tmem_In _ _) (A d (or_introl eq_refl) M)). exact E.
Qed.

(** ** Code *)
Variable g : grammar.
Variable fuel : nat.
Variable names : list text.
Variable J : list decl.   (* the declarations of the item *)
Hypothesis J_D : incl J D.
Hypothesis J_args : no_arguments (inl_ J).
Hypothesis J_names : forall d, In d J -> dmember d = false -> In (dname d) names.
Definition fine (l : list stmt) : Prop :=
  no_var l /\ forall sc, (forall d, In d J -> dmember d = false -> visible sc (shown d) (shown_type d)) -> well_named st sc l.
Lemma fine_nil : fine [].
Proof. split; [intros v []|]. intros sc _. constructor. Qed.
Lemma fine_block l : fine l -> fine [SBlock l].
Proof.
  intros (N & W). split; [intros v [X|[]]; discriminate X|]. intros sc H. apply wn_block; [|constructor].
  apply W. intros d I M. apply visible_block, H; assumption.
Qed.
Lemma fine_app a b : fine a -> fine b -> fine (a ++ b).
Proof.
  intros (N & W) (N' & W'). split; [intros v X; apply in_app_iff in X; destruct X as [X|X]; [exact (N v X)|exact (N' v X)]|].
  intros sc H. apply wn_app; [exact N|apply W, H|apply W', H].
Qed.
Definition fine_result (o : option (list stmt * list text)) : Prop := exists l, o = Some (l, names) /\ fine l.
Lemma fine_result_block o : fine_result o -> fine_result (option_map block o).
Proof. intros (l & -> & F). exists [SBlock l]. split; [reflexivity|apply fine_block, F]. Qed.
Lemma fine_result_seq a b : fine_result a -> fine_result b -> fine_result (do p <- a; do q <- b; Some (fst p ++ fst q, snd q)).
Proof. intros (l & -> & F) (m & -> & G). exists (l ++ m). split; [reflexivity|apply fine_app; assumption]. Qed.
Lemma fine_assign x m s a : In (ann_decl x m s a) J -> fine (assign ast x m s a).
Proof.
  intros I. unfold assign. destruct ast; [|apply fine_nil].
  assert (T : (if s then x ++ t_sequence else x) = shown (ann_decl x m s a)) by (destruct a; reflexivity).
  assert (Y : (s, match a with ATerm _ => CInt | ANon s => CNode s end) = shown_type (ann_decl x m s a)) by (destruct a; reflexivity).
  assert (M : dmember (ann_decl x m s a) = m) by (destruct a; reflexivity). cbv zeta.
  split; [intros v [X|[]]; destruct m; discriminate X|]. intros sc H. destruct m.
  - rewrite T, Y. apply wn_member; [|constructor]. apply (st_has _ (J_D _ I) M).
  - rewrite T, Y. apply wn_assign; [|constructor]. apply H; assumption.
Qed.
Lemma code_item_fine inlc inlw
  (H : forall n l, inlw n = Some l -> incl (decls_of l) J -> fine_result (inlc n names)) :
  forall i l, walk_item inlw i = Some l -> incl (decls_of l) J -> fine_result (code_item ast inlc i names).
Proof.
  assert (two : forall a b l, (do x <- a; do y <- b; Some (x ++ y)) = Some l -> incl (decls_of l) J ->
    (exists x, a = Some x /\ incl (decls_of x) J) /\ exists y, b = Some y /\ incl (decls_of y) J).
  { intros a b l E I. destruct a as [x|]; [|discriminate E]. destruct b as [y|]; [|discriminate E].
    cbn [obind] in E. injection E as <-. rewrite decls_app in I. split; [exists x|exists y]; (split; [reflexivity|]);
      intros d X; apply I, in_app_iff; [left|right]; exact X. }
  induction i; intros l0 E I; cbn [walk_item] in E; cbn [code_item];
    try (exists []; split; [reflexivity|apply fine_nil]).
  - eapply H; eassumption.
  - apply fine_result_block. eapply IHi; eassumption.
  - apply fine_result_block. eapply IHi; eassumption.
  - eapply IHi; eassumption.
  - destruct (two _ _ _ E I) as ((x & X & X') & (y & Y & Y')).
    assert (A : fine_result (if is_alt i1 then code_item ast inlc i1 names else option_map block (code_item ast inlc i1 names)))
      by (destruct (is_alt i1); [|apply fine_result_block]; eapply IHi1; eassumption).
    assert (B : fine_result (if is_alt i2 then code_item ast inlc i2 names else option_map block (code_item ast inlc i2 names)))
      by (destruct (is_alt i2); [|apply fine_result_block]; eapply IHi2; eassumption).
    pose proof A as (la & Ea & _). rewrite Ea in *. cbn [obind snd]. exact (fine_result_seq _ _ A B).
  - destruct (two _ _ _ E I) as ((x & X & X') & (y & Y & Y')).
    assert (A : fine_result (code_item ast inlc i1 names)) by (eapply IHi1; eassumption).
    assert (B : fine_result (code_item ast inlc i2 names)) by (eapply IHi2; eassumption).
    pose proof A as (la & Ea & _). rewrite Ea in *. cbn [obind snd]. exact (fine_result_seq _ _ A B).
  - apply fine_result_block. eapply IHi; eassumption.
  - destruct (two _ _ _ E I) as ((x & X & X') & (y & Y & Y')).
    assert (A : fine_result (option_map block (code_item ast inlc i1 names))) by (apply fine_result_block; eapply IHi1; eassumption).
    assert (B : fine_result (option_map block (code_item ast inlc i2 names))) by (apply fine_result_block; eapply IHi2; eassumption).
    pose proof A as (la & Ea & _). rewrite Ea in *. cbn [obind snd]. exact (fine_result_seq _ _ A B).
  - injection E as <-. exists (assign ast x member seq a). split; [reflexivity|]. apply fine_assign. apply I. left. reflexivity.
  - eapply IHi; eassumption.
Qed.
Definition cstep (f : nat) (n : nat) (names : list text) : option (list stmt * list text) :=
    match target g n with
    | None => Some ([], names)
    | Some s =>
      match search g s with
      | None => Some ([], names)
      | Some r =>
        match f with
        | 0 => None
        | S f =>
          do evs <- walk g true fuel (ritem r);
          let (l, names) := locals ast (decls_of evs) names in
          do p <- code g fuel ast f (ritem r) names;
          Some (block (l ++ fst p, snd p))
        end
      end
    end.
Lemma code_eq f i n : code g fuel ast f i n = code_item ast (cstep f) i n.
Proof. destruct f; reflexivity. Qed.
Lemma code_fine : forall f i l, f <= fuel -> walk g true f i = Some l -> incl (decls_of l) J -> fine_result (code g fuel ast f i names).
Proof.
  induction f as [|f IH]; intros i l L E I; rewrite walk_eq in E; rewrite code_eq.
  - apply (code_item_fine (cstep 0) _) with (2 := E); [|exact I].
    intros n l' E' _. unfold wstep in E'. unfold cstep. destruct (target g n) as [s|]; [|exists []; split; [reflexivity|apply fine_nil]].
    destruct (search g s) as [r|]; [discriminate E'|exists []; split; [reflexivity|apply fine_nil]].
  - apply (code_item_fine (cstep (S f)) _) with (2 := E); [|exact I].
    intros n l' E' I'. unfold wstep in E'. unfold cstep. destruct (target g n) as [s|]; [|exists []; split; [reflexivity|apply fine_nil]].
    destruct (search g s) as [r|]; [|exists []; split; [reflexivity|apply fine_nil]].
    destruct (walk g true f (ritem r)) as [x|] eqn:X; cbn [obind] in E'; [|discriminate E']. injection E' as <-.
    rewrite decls_app in I'. assert (Ix : incl (decls_of x) J) by (intros d Y; apply I', in_app_iff; right; exact Y).
    rewrite (walk_more g true f _ _ fuel X) by lia. cbn [obind].
    rewrite (locals_none (decls_of x) names); [|intros d Y; apply J_args, Ix, Y|intros d Y; apply J_names, Ix, Y].
    destruct (IH (ritem r) x) as (c & Ec & Fc); [lia|exact X|exact Ix|]. rewrite Ec. cbn [obind fst snd app].
    exists [SBlock c]. split; [reflexivity|apply fine_block, Fc].
Qed.
End L.

(** Without following mNext one sees some of the declarations. *)
Lemma chain_incl r : incl (decls_of (chain false r)) (decls_of (chain true r)).
Proof. rewrite !decls_chain. destruct r as [|d r]; [apply incl_refl|]. intros e [<-|[]]. left. reflexivity. Qed.
Lemma walk_item_incl inl inl' : (forall n l, inl' n = Some l -> exists m, inl n = Some m /\ incl (decls_of m) (decls_of l)) ->
  forall i l, walk_item inl' i = Some l -> exists m, walk_item inl i = Some m /\ incl (decls_of m) (decls_of l).
Proof.
  intros H. induction i; intros l0 E; cbn [walk_item] in *;
    try (injection E as <-; eexists; split; [reflexivity|apply incl_refl]); try (apply IHi; exact E); try (apply H; exact E).
  all: destruct (walk_item inl' i1) as [x|]; cbn [obind] in E; [|discriminate E];
    destruct (walk_item inl' i2) as [y|]; cbn [obind] in E; [|discriminate E]; injection E as <-;
    destruct (IHi1 x eq_refl) as (a & -> & A); destruct (IHi2 y eq_refl) as (b & -> & B); cbn [obind];
    exists (a ++ b); (split; [reflexivity|]); rewrite !decls_app; apply incl_app; [apply incl_appl|apply incl_appr]; assumption.
Qed.
Lemma walk_incl g : forall f i l, walk g true f i = Some l -> exists m, walk g false f i = Some m /\ incl (decls_of m) (decls_of l).
Proof.
  induction f as [|f IH]; intros i l E; rewrite walk_eq in *;
    [apply (walk_item_incl (wstep g false 0) (wstep g true 0)); [|exact E]|apply (walk_item_incl (wstep g false (S f)) (wstep g true (S f))); [|exact E]];
    intros n m; unfold wstep; (destruct (target g n) as [s|]; [|intros X; injection X as <-; exists []; split; [reflexivity|apply incl_refl]]);
    (destruct (search g s) as [r|]; [|intros X; injection X as <-; exists []; split; [reflexivity|apply incl_refl]]).
  - intros X. discriminate X.
  - destruct (walk g true f (ritem r)) as [x|] eqn:X; cbn [obind]; intros Y; [|discriminate Y]. injection Y as <-.
    destruct (IH _ _ X) as (z & -> & I). cbn [obind]. exists (chain false (rdecls r) ++ z). split; [reflexivity|].
    rewrite !decls_app. apply incl_app; [apply incl_appl, chain_incl|apply incl_appr, I].
Qed.

Lemma initialize_ok st sc D l rest : (forall d, In d D -> dmember d = true -> In (as_var d) st) -> tokens_kept (inl_ D) -> incl l D ->
  well_named st sc rest -> well_named st sc (initialize l ++ rest).
Proof.
  intros H T. induction l as [|d l IH]; intros I W; [exact W|]. unfold initialize in *. cbn [flat_map].
  assert (W' : well_named st sc (flat_map (fun d => match dkind d with VToken => if dseq d then [] else [SMember (dname d) (false, CInt)] | _ => [] end) l ++ rest))
    by (apply IH; [intros y J; apply I; right; exact J|exact W]).
  destruct (dkind d) eqn:K; try exact W'. destruct (dseq d) eqn:Q; [exact W'|]. cbn [app]. apply wn_member; [|exact W'].
  assert (Id : In d D) by (apply I; left; reflexivity).
  pose proof (H d Id (T d Id K Q)) as X. unfold as_var, shown, shown_type, element in X. rewrite K, Q in X. exact X.
Qed.

Lemma params_nodup ast D ds : apart (inl_ D) -> incl ds D -> NoDup (argument_names ds) -> NoDup (map fst (map as_var (parameters ast ds))).
Proof.
  intros A I N. apply (shown_nodup D); [exact A|intros d X; apply filter_In in X; apply I, X|].
  unfold argument_names in N. revert N. clear. induction ds as [|d ds IH]; intros N; [constructor|].
  cbn [parameters filter] in *. destruct (dargument d) eqn:G; cbn [andb].
  - cbn [map] in N. inversion N as [|x y N1 N2]; subst. destruct (ast || negb (dmember d))%bool; [|exact (IH N2)].
    cbn [map]. constructor; [|exact (IH N2)]. intros X. apply N1. apply in_map_iff in X. destruct X as (e & X & J).
    apply filter_In in J. destruct J as (J & B). apply andb_true_iff in B. apply in_map_iff. exists e. split; [exact X|].
    apply filter_In. split; [exact J|apply B].
  - exact (IH N).
Qed.

(** ** What is declared *)
Lemma declared_sub g i j d : (forall x m s a, annotated g i x m s a -> annotated g j x m s a) -> (forall n, inlined n i -> inlined n j) ->
  declared_in g i d -> declared_in g j d.
Proof.
  intros H K [(x & m & s & a & A & E)|(r & R & I)]; [left; exists x, m, s, a; split; [apply H, A|exact E]|right; exists r; split; [|exact I]].
  inversion R as [i0 n t q I1 I2 I3|i0 n t q r0 I1 I2 I3 I4]; subst; [eapply ir_here|eapply ir_there]; try eassumption; apply K; assumption.
Qed.
Lemma walk_item_declared g inl d : (forall n l, inl n = Some l -> In d (decls_of l) -> declared_in g (IInl n) d) ->
  forall i l, walk_item inl i = Some l -> In d (decls_of l) -> declared_in g i d.
Proof.
  intros H. induction i; intros l0 E X; cbn [walk_item] in E; try (injection E as <-; cbn [decls_of flat_map app] in X; destruct X; fail).
  - eapply H; eassumption.
  - apply (declared_sub g i); [intros; apply an_plus; assumption|intros; apply in_plus; assumption|eapply IHi; eassumption].
  - apply (declared_sub g i); [intros; apply an_star; assumption|intros; apply in_star; assumption|eapply IHi; eassumption].
  - apply (declared_sub g i); [intros; apply an_act; assumption|intros; apply in_act; assumption|eapply IHi; eassumption].
  - destruct (walk_item inl i1) as [a|]; cbn [obind] in E; [|discriminate E]. destruct (walk_item inl i2) as [b|]; cbn [obind] in E; [|discriminate E].
    injection E as <-. rewrite decls_app in X. apply in_app_iff in X. destruct X as [X|X].
    + apply (declared_sub g i1); [intros; apply an_alt_l; assumption|intros; apply in_alt_l; assumption|eapply IHi1; [reflexivity|eassumption]].
    + apply (declared_sub g i2); [intros; apply an_alt_r; assumption|intros; apply in_alt_r; assumption|eapply IHi2; [reflexivity|eassumption]].
  - destruct (walk_item inl i1) as [a|]; cbn [obind] in E; [|discriminate E]. destruct (walk_item inl i2) as [b|]; cbn [obind] in E; [|discriminate E].
    injection E as <-. rewrite decls_app in X. apply in_app_iff in X. destruct X as [X|X].
    + apply (declared_sub g i1); [intros; apply an_cons_l; assumption|intros; apply in_cons_l; assumption|eapply IHi1; [reflexivity|eassumption]].
    + apply (declared_sub g i2); [intros; apply an_cons_r; assumption|intros; apply in_cons_r; assumption|eapply IHi2; [reflexivity|eassumption]].
  - apply (declared_sub g i); [intros; apply an_try; assumption|intros; apply in_try; assumption|eapply IHi; eassumption].
  - destruct (walk_item inl i1) as [a|]; cbn [obind] in E; [|discriminate E]. destruct (walk_item inl i2) as [b|]; cbn [obind] in E; [|discriminate E].
    injection E as <-. rewrite decls_app in X. apply in_app_iff in X. destruct X as [X|X].
    + apply (declared_sub g i1); [intros; apply an_roll_l; assumption|intros; apply in_roll_l; assumption|eapply IHi1; [reflexivity|eassumption]].
    + apply (declared_sub g i2); [intros; apply an_roll_r; assumption|intros; apply in_roll_r; assumption|eapply IHi2; [reflexivity|eassumption]].
  - injection E as <-. destruct X as [<-|[]]. left. exists x, member, seq, a. split; [constructor|]. destruct a; reflexivity.
  - apply (declared_sub g i); [intros; apply an_cond; assumption|intros; apply in_cond; assumption|eapply IHi; eassumption].
Qed.
Lemma walk_declared g d : forall f i l, walk g true f i = Some l -> In d (decls_of l) -> declared_in g i d.
Proof.
  induction f as [|f IH]; intros i l E; rewrite walk_eq in E; revert i l E; apply walk_item_declared; intros n l; unfold wstep;
    (destruct (target g n) as [s|] eqn:T; [|intros X; injection X as <-; intros []]);
    (destruct (search g s) as [r|] eqn:R; [|intros X; injection X as <-; intros []]); apply search_first in R.
  - intros X. discriminate X.
  - destruct (walk g true f (ritem r)) as [m|] eqn:W; cbn [obind]; intros X; [|discriminate X]. injection X as <-.
    rewrite decls_app, decls_chain. intros X. apply in_app_iff in X. destruct X as [X|X].
    + right. exists r. split; [|exact X]. apply (ir_here g (IInl n) n s r); [constructor|exact T|exact R].
    + destruct (IH _ _ W X) as [(x & k & q & a & A & B)|(r' & A & B)].
      * left. exists x, k, q, a. split; [|exact B]. eapply an_inl; eassumption.
      * right. exists r'. split; [|exact B]. apply (ir_there g (IInl n) n s r r'); [constructor|exact T|exact R|exact A].
Qed.
Ltac two E :=
  match type of E with (do a <- ?p; do b <- ?q; _) = _ =>
    destruct p as [?|] eqn:?; cbn [obind] in E; [|discriminate E]; destruct q as [?|] eqn:?; cbn [obind] in E; [|discriminate E] end;
  injection E as <-.
Lemma annotated_walk g i x m s a : annotated g i x m s a -> forall f l, walk g true f i = Some l -> In (ann_decl x m s a) (decls_of l).
Proof.
  induction 1; intros f l E; rewrite walk_eq in E; cbn [walk_item] in E; rewrite <- ?(walk_eq g true) in E;
    try (eapply IHannotated; exact E).
  - injection E as <-. left. reflexivity.
  - unfold wstep in E. rewrite H in E. apply search_first in H0. rewrite H0 in E. destruct f as [|f]; [discriminate E|].
    destruct (walk g true f (ritem r)) as [k|] eqn:W; cbn [obind] in E; [|discriminate E]. injection E as <-.
    rewrite decls_app. apply in_app_iff. right. eapply IHannotated; exact W.
  - two E. rewrite decls_app. apply in_app_iff. left. eapply IHannotated; eassumption.
  - two E. rewrite decls_app. apply in_app_iff. right. eapply IHannotated; eassumption.
  - two E. rewrite decls_app. apply in_app_iff. left. eapply IHannotated; eassumption.
  - two E. rewrite decls_app. apply in_app_iff. right. eapply IHannotated; eassumption.
  - two E. rewrite decls_app. apply in_app_iff. left. eapply IHannotated; eassumption.
  - two E. rewrite decls_app. apply in_app_iff. right. eapply IHannotated; eassumption.
Qed.
Lemma walk_item_inlined inl n i : inlined n i -> forall l, walk_item inl i = Some l -> exists m, inl n = Some m /\ incl (decls_of m) (decls_of l).
Proof.
  induction 1; intros l0 E; cbn [walk_item] in E; try (eapply IHinlined; exact E).
  - exists l0. split; [exact E|apply incl_refl].
  - two E. destruct (IHinlined _ eq_refl) as (m & M & I). exists m. split; [exact M|]. rewrite decls_app. apply incl_appl, I.
  - two E. destruct (IHinlined _ eq_refl) as (m & M & I). exists m. split; [exact M|]. rewrite decls_app. apply incl_appr, I.
  - two E. destruct (IHinlined _ eq_refl) as (m & M & I). exists m. split; [exact M|]. rewrite decls_app. apply incl_appl, I.
  - two E. destruct (IHinlined _ eq_refl) as (m & M & I). exists m. split; [exact M|]. rewrite decls_app. apply incl_appr, I.
  - two E. destruct (IHinlined _ eq_refl) as (m & M & I). exists m. split; [exact M|]. rewrite decls_app. apply incl_appl, I.
  - two E. destruct (IHinlined _ eq_refl) as (m & M & I). exists m. split; [exact M|]. rewrite decls_app. apply incl_appr, I.
Qed.
Lemma inlined_walk g i r : inlined_rule g i r -> forall f l, walk g true f i = Some l -> incl (rdecls r) (decls_of l).
Proof.
  induction 1 as [i n t r I T R|i n t q r I T R _ IH]; intros f l E; rewrite walk_eq in E; destruct (walk_item_inlined _ _ _ I _ E) as (m & M & J);
    apply (fun H => incl_tran H J); clear E J; unfold wstep in M; rewrite T in M; apply search_first in R; rewrite R in M; (destruct f as [|f]; [discriminate M|]).
  - destruct (walk g true f (ritem r)) as [k|]; cbn [obind] in M; [|discriminate M]. injection M as <-. rewrite decls_app, decls_chain. apply incl_appl, incl_refl.
  - destruct (walk g true f (ritem q)) as [k|] eqn:W; cbn [obind] in M; [|discriminate M]. injection M as <-. rewrite decls_app. apply incl_appr. exact (IH _ _ W).
Qed.
Lemma declared_iff g f i l : walk g true f i = Some l -> forall d, In d (decls_of l) <-> declared_in g i d.
Proof.
  intros E d. split; [apply (walk_declared g d f); exact E|]. intros [(x & m & s & a & A & ->)|(r & R & I)].
  - pose proof (annotated_walk g i x m s a A f l E) as H. destruct a; exact H.
  - exact (inlined_walk g i r R f l E d I).
Qed.
Lemma declared_rule_iff g f r l : walk g true f (ritem r) = Some l -> forall d, In d (rdecls r ++ decls_of l) <-> declared g r d.
Proof. intros E d. rewrite in_app_iff, (declared_iff g f (ritem r) l E d). reflexivity. Qed.
(** Annotations are stored. *)
Lemma occurs_app_l q a b : occurs q a -> occurs q (a ++ b).
Proof. induction 1; cbn [app]; constructor; assumption. Qed.
Lemma occurs_app_r q a b : occurs q b -> occurs q (a ++ b).
Proof. induction a; intros O; cbn [app]; [exact O|constructor; auto]. Qed.
Lemma annotated_code g fuel i x m s a : annotated g i x m s a -> forall f names p, code g fuel true f i names = Some p -> occurs (store x m s a) (fst p).
Proof.
  assert (BL : forall q o p, option_map block o = Some p -> (forall p', o = Some p' -> occurs q (fst p')) -> occurs q (fst p)).
  { intros q [p'|] p E H; [|discriminate E]. cbn [option_map] in E. injection E as <-. apply oc_block. apply H. reflexivity. }
  induction 1; intros f names p E; rewrite code_eq in E; cbn [code_item] in E; rewrite <- ?code_eq in E.
  - injection E as <-. cbn [fst]. unfold assign, store. cbv zeta. destruct m; apply oc_here.
  - unfold cstep in E. rewrite H in E. apply search_first in H0. rewrite H0 in E. destruct f as [|f]; [discriminate E|].
    destruct (walk g true fuel (ritem r)) as [k|]; cbn [obind] in E; [|discriminate E].
    destruct (locals true (decls_of k) names) as [l names'].
    destruct (code g fuel true f (ritem r) names') as [p'|] eqn:C; cbn [obind] in E; [|discriminate E]. injection E as <-.
    apply oc_block. cbn [fst]. apply occurs_app_r. eapply IHannotated; exact C.
  - apply (BL _ _ _ E). intros p' X. eapply IHannotated; exact X.
  - apply (BL _ _ _ E). intros p' X. eapply IHannotated; exact X.
  - eapply IHannotated; exact E.
  - eapply IHannotated; exact E.
  - apply (BL _ _ _ E). intros p' X. eapply IHannotated; exact X.
  - match type of E with obind ?o _ = _ => destruct o as [p1|] eqn:E1; cbn [obind] in E; [|discriminate E] end.
    match type of E with obind ?o _ = _ => destruct o as [p2|] eqn:E2; cbn [obind] in E; [|discriminate E] end. injection E as <-. cbn [fst].
    apply occurs_app_l. destruct (is_alt i); [eapply IHannotated; rewrite ?code_eq in *; exact E1|].
    apply (BL _ _ _ E1). intros p' X. eapply IHannotated; rewrite ?code_eq in *; exact X.
  - match type of E with obind ?o _ = _ => destruct o as [p1|] eqn:E1; cbn [obind] in E; [|discriminate E] end.
    match type of E with obind ?o _ = _ => destruct o as [p2|] eqn:E2; cbn [obind] in E; [|discriminate E] end. injection E as <-. cbn [fst].
    apply occurs_app_r. destruct (is_alt j); [eapply IHannotated; rewrite ?code_eq in *; exact E2|].
    apply (BL _ _ _ E2). intros p' X. eapply IHannotated; rewrite ?code_eq in *; exact X.
  - match type of E with obind ?o _ = _ => destruct o as [p1|] eqn:E1; cbn [obind] in E; [|discriminate E] end.
    match type of E with obind ?o _ = _ => destruct o as [p2|] eqn:E2; cbn [obind] in E; [|discriminate E] end. injection E as <-. cbn [fst].
    apply occurs_app_l. eapply IHannotated; rewrite ?code_eq in *; exact E1.
  - match type of E with obind ?o _ = _ => destruct o as [p1|] eqn:E1; cbn [obind] in E; [|discriminate E] end.
    match type of E with obind ?o _ = _ => destruct o as [p2|] eqn:E2; cbn [obind] in E; [|discriminate E] end. injection E as <-. cbn [fst].
    apply occurs_app_r. eapply IHannotated; rewrite ?code_eq in *; exact E2.
  - match type of E with obind ?o _ = _ => destruct o as [p1|] eqn:E1; cbn [obind] in E; [|discriminate E] end.
    match type of E with obind ?o _ = _ => destruct o as [p2|] eqn:E2; cbn [obind] in E; [|discriminate E] end. injection E as <-. cbn [fst].
    apply occurs_app_l. apply (BL _ _ _ E1). intros p' X. eapply IHannotated; rewrite ?code_eq in *; exact X.
  - match type of E with obind ?o _ = _ => destruct o as [p1|] eqn:E1; cbn [obind] in E; [|discriminate E] end.
    match type of E with obind ?o _ = _ => destruct o as [p2|] eqn:E2; cbn [obind] in E; [|discriminate E] end. injection E as <-. cbn [fst].
    apply occurs_app_r. apply (BL _ _ _ E2). intros p' X. eapply IHannotated; rewrite ?code_eq in *; exact X.
Qed.
Lemma method_stores g fuel s r m : env g s = [r] -> parse_method g fuel true s = Some m ->
  forall x k q a, annotated g (ritem r) x k q a -> occurs (store x k q a) (snd m).
Proof.
  intros Er E x k q a A. unfold parse_method in E. rewrite Er in E. cbv zeta in E.
  destruct (walk g false fuel (ritem r)) as [l0|]; cbn [option_map obind] in E; [|discriminate E]. cbn [locals_rules] in E.
  match type of E with context [locals true (rdecls r) ?n] => destruct (locals true (rdecls r) n) as [l names] end.
  cbn [code_rules] in E. unfold code_rule in E.
  destruct (walk g true fuel (ritem r)) as [evs|]; cbn [obind] in E; [|discriminate E].
  destruct (locals true (decls_of evs) names) as [l2 names2].
  destruct (code g fuel true fuel (ritem r) names2) as [p|] eqn:C; cbn [obind] in E; [|discriminate E]. injection E as <-. cbn [snd fst].
  apply occurs_app_r, occurs_app_r. cbn [app]. apply oc_block, occurs_app_r. exact (annotated_code g fuel _ _ _ _ _ A _ _ _ C).
Qed.
Lemma struct_exact g fuel s r evs st : env g s = [r] -> walk g true fuel (ritem r) = Some evs ->
  consistent (inl_ (rdecls r ++ decls_of evs)) -> structs g fuel s = Some [st] ->
  forall v, In v st <-> exists d, In d (rdecls r ++ decls_of evs) /\ dmember d = true /\ as_var d = v.
Proof.
  intros Er Ew C E v. unfold structs in E. rewrite Er in E. cbn [structs_of] in E. unfold walk_rule in E. rewrite Ew in E. cbn [obind] in E.
  rewrite decls_app, decls_chain in E. destruct (members (rdecls r ++ decls_of evs) []) as [m nm] eqn:Em. cbn [obind] in E. injection E as <-.
  split.
  - intros X. apply in_map_iff in X. destruct X as (d & <- & X). exists d. destruct (members_in _ _ _ _ Em d X) as (X1 & X2 & _). repeat split; assumption.
  - intros (d & I & M & <-). apply (members_has _ m nm C Em d I M).
Qed.
Lemma params_exact g fuel ast s r m : env g s = [r] -> parse_method g fuel ast s = Some m ->
  forall v, In v (fst m) <-> exists d, In d (rdecls r) /\ dargument d = true /\ (ast = true \/ dmember d = false) /\ as_var d = v.
Proof.
  intros Er E. unfold parse_method in E. rewrite Er in E. cbv zeta in E.
  match type of E with obind ?o _ = _ => destruct o as [init|]; cbn [obind] in E; [|discriminate E] end.
  match type of E with (let (_, _) := ?o in _) = _ => destruct o as [l names] end.
  destruct (code_rules g fuel ast [r] names) as [c|]; cbn [obind] in E; [|discriminate E]. injection E as <-. cbn [fst].
  intros v. rewrite in_map_iff. split.
  - intros (d & V & X). apply filter_In in X. destruct X as (X & Y). apply andb_true_iff in Y. destruct Y as (Y & Z). apply orb_true_iff in Z.
    exists d. repeat split; try assumption. destruct Z as [Z|Z]; [left; exact Z|right; apply negb_true_iff; exact Z].
  - intros (d & I & A & Z & V). exists d. split; [exact V|]. apply filter_In. split; [exact I|]. rewrite A. cbn [andb]. apply orb_true_iff.
    destruct Z as [Z|Z]; [left; exact Z|right; rewrite Z; reflexivity].
Qed.

(** ** One rule *)
Lemma method_ok g fuel ast s r evs : env g s = [r] -> walk g true fuel (ritem r) = Some evs ->
  consistent (inl_ (rdecls r ++ decls_of evs)) -> apart (inl_ (rdecls r ++ decls_of evs)) -> no_arguments (inl_ (decls_of evs)) ->
  NoDup (argument_names (rdecls r)) -> (ast = true -> tokens_kept (inl_ (decls_of evs))) ->
  exists st m, structs g fuel s = Some [st] /\ NoDup (map fst st) /\ parse_method g fuel ast s = Some m /\ good_method st m.
Proof.
  intros Er Ew C A N P T. set (D := rdecls r ++ decls_of evs) in *.
  assert (ID : decls_of (chain true (rdecls r) ++ evs) = D) by (rewrite decls_app, decls_chain; reflexivity).
  destruct (members D []) as [m nm] eqn:Em.
  exists (map as_var m). unfold structs, parse_method. rewrite Er. cbn [structs_of]. unfold walk_rule. rewrite Ew. cbn [obind]. rewrite ID, Em.
  pose proof (members_has D m nm C Em) as Hst.
  destruct (walk_incl g fuel _ _ Ew) as (ev0 & E0 & I0).
  cbn [locals_rules]. destruct (locals ast (rdecls r) (rev (map dname (parameters ast (rdecls r))))) as [l names] eqn:El.
  assert (I1 : incl (rdecls r) D) by (apply incl_appl, incl_refl).
  assert (I2 : incl (decls_of evs) D) by (apply incl_appr, incl_refl).
  set (ps := parameters ast (rdecls r)) in *.
  assert (Ips : incl ps D) by (intros d X; apply filter_In in X; apply I1, X).
  assert (K0 : known_names D (rev (map dname ps)) (map as_var ps) []).
  { split.
    - intros d Id X. rewrite <- in_rev in X. apply in_map_iff in X. destruct X as (e & X & J). apply vis_here.
      change (shown d, shown_type d) with (as_var d). rewrite <- (proj2 (C e d (Ips _ J) Id X)). apply in_map, J.
    - intros x X. apply in_map_iff in X. destruct X as (v & <- & X). apply in_map_iff in X. destruct X as (d & <- & X).
      exists d. split; [apply Ips, X|]. split; [reflexivity|]. rewrite <- in_rev. apply in_map, X. }
  destruct (locals_ok D C A (map as_var m) Hst ast _ _ _ _ (map as_var ps) [] I1 El K0) as (here1 & K1 & L1 & H1 & W1).
  { intros d X M G Z. rewrite <- in_rev. apply in_map. apply filter_In. split; [exact X|]. rewrite G, Z. reflexivity. }
  cbn [code_rules]. unfold code_rule. rewrite Ew. cbn [obind].
  destruct (locals ast (decls_of evs) names) as [l2 names2] eqn:El2.
  assert (K1' : known_names D names [] (here1 :: [])).
  { split; [intros d Id X; apply visible_block, (proj1 K1); assumption|intros x []]. }
  destruct (locals_ok D C A (map as_var m) Hst ast _ _ _ _ [] [here1] I2 El2 K1') as (here2 & K2 & L2 & H2 & W2).
  { intros d X M G Z. rewrite (N d X) in G. discriminate G. }
  destruct (code_fine D (map as_var m) Hst ast g fuel names2 (decls_of evs) I2 N) with (f := fuel) (i := ritem r) (l := evs) as (c & Ec & Fc);
    [intros d X M; apply H2; [exact X|exact M|apply N, X]|lia|exact Ew|apply incl_refl|].
  rewrite Ec. cbn [obind fst snd app].
  assert (Wc : well_named (map as_var m) [here1] [SBlock (l2 ++ c)]).
  { apply wn_block; [|constructor]. apply W2. apply (proj2 Fc). intros d X M. apply (proj1 K2); [apply I2, X|]. apply H2; [exact X|exact M|apply N, X]. }
  assert (Wl : well_named (map as_var m) [map as_var ps] ((l ++ []) ++ [SBlock (l2 ++ c)])).
  { rewrite app_nil_r. apply W1. exact Wc. }
  assert (Nm : NoDup (map fst (map as_var m)))
    by (apply (shown_nodup D); [exact A|intros d X; apply (members_in _ _ _ _ Em d X)|apply (members_nodup _ _ _ _ Em)]).
  destruct ast eqn:Ea.
  - rewrite E0. cbn [option_map obind block fst snd]. eexists. split; [reflexivity|]. split; [exact Nm|].
    split; [reflexivity|]. split; [apply (params_nodup true D); assumption|]. cbn [fst snd].
    apply (initialize_ok _ _ (decls_of evs)); [intros d X; apply Hst, I2, X|apply T; reflexivity|exact I0|exact Wl].
  - cbn [obind block fst snd]. eexists. split; [reflexivity|]. split; [exact Nm|].
    split; [reflexivity|]. split; [apply (params_nodup false D); assumption|exact Wl].
Qed.

(** ** The visitor *)
Definition call_of (v : var) : text * bool := (fst v, fst (snd v)).
Lemma calls_members D : consistent (inl_ D) -> forall ds nc nm c nc' m nm', incl ds D ->
  (forall d, In d D -> dkind d = VNode -> In (dname d) nc <-> In (dname d) nm) ->
  calls ds nc = (c, nc') -> members ds nm = (m, nm') -> c = map call_of (filter is_node_var (map as_var m)).
Proof.
  intros C. induction ds as [|d ds IH]; intros nc nm c nc' m nm' I H Ec Em; cbn [calls members] in *.
  - injection Ec as <- <-. injection Em as <- <-. reflexivity.
  - assert (Id : In d D) by (apply I; left; reflexivity). assert (Is : incl ds D) by (intros y J; apply I; right; exact J).
    destruct (dmember d) eqn:M; cbn [andb] in *.
    2: { destruct (dkind d); eapply IH; eassumption. }
    destruct (dkind d) eqn:K.
    1,3: destruct (tmem (dname d) nm) eqn:T; cbn [negb] in Em; [eapply IH; eassumption|];
         destruct (members ds (dname d :: nm)) as [m1 n1] eqn:E1; injection Em as <- <-; cbn [map filter];
         unfold is_node_var at 1; cbn [as_var snd shown_type]; unfold element at 1; rewrite K;
         eapply IH; [exact Is| |exact Ec|exact E1];
         intros e Ie Ke; rewrite (H e Ie Ke); (split; [intros X; right; exact X|]);
         intros [X|X]; [|exact X]; exfalso; pose proof (proj2 (C d e Id Ie X)) as Y;
         unfold as_var, shown_type, element in Y; rewrite K, Ke in Y; discriminate Y.
    assert (T : tmem (dname d) nc = tmem (dname d) nm).
    { apply eq_true_iff_eq. rewrite !tmem_In. apply H; assumption. }
    rewrite T in Ec. destruct (tmem (dname d) nm) eqn:T'; cbn [negb] in *; [eapply IH; eassumption|].
    destruct (members ds (dname d :: nm)) as [m1 n1] eqn:E1. injection Em as <- <-.
    destruct (calls ds (dname d :: nc)) as [c1 k1] eqn:E2. injection Ec as <- <-. cbn [map filter].
    unfold is_node_var at 1. cbn [as_var snd shown_type]. unfold element at 1. rewrite K. cbn [map].
    f_equal. eapply IH; [exact Is| |exact E2|exact E1]. intros e Ie Ke. cbn [In]. rewrite (H e Ie Ke). reflexivity.
Qed.
Lemma chain_leads r : (existsb node_member (rdecls r) = true -> exists d l, rdecls r = d :: l /\ node_member d = true) ->
  existsb node_member (decls_of (chain true (rdecls r))) = true -> existsb node_member (decls_of (chain false (rdecls r))) = true.
Proof.
  rewrite !decls_chain. intros H E. destruct (H E) as (d & l & -> & N). cbn [existsb]. rewrite N. reflexivity.
Qed.
Lemma walk_leads g : (forall r, In r (rules g) -> existsb node_member (rdecls r) = true -> exists d l, rdecls r = d :: l /\ node_member d = true) ->
  forall f i l m, walk g true f i = Some l -> walk g false f i = Some m ->
  existsb node_member (decls_of l) = true -> existsb node_member (decls_of m) = true.
Proof.
  intros H.
  assert (B : forall inl inl', (forall n l m, inl n = Some l -> inl' n = Some m -> existsb node_member (decls_of l) = true -> existsb node_member (decls_of m) = true) ->
    forall i l m, walk_item inl i = Some l -> walk_item inl' i = Some m -> existsb node_member (decls_of l) = true -> existsb node_member (decls_of m) = true).
  { intros inl inl' Hi. induction i; intros l0 m0 E1 E2 X; cbn [walk_item] in *;
      try (injection E1 as <-; injection E2 as <-; exact X); try (eapply IHi; eassumption); try (eapply Hi; eassumption).
    all: destruct (walk_item inl i1) as [a|]; cbn [obind] in E1; [|discriminate E1];
      destruct (walk_item inl i2) as [b|]; cbn [obind] in E1; [|discriminate E1]; injection E1 as <-;
      destruct (walk_item inl' i1) as [a'|]; cbn [obind] in E2; [|discriminate E2];
      destruct (walk_item inl' i2) as [b'|]; cbn [obind] in E2; [|discriminate E2]; injection E2 as <-;
      rewrite decls_app, existsb_app in *; apply orb_true_iff in X; apply orb_true_iff;
      (destruct X as [X|X]; [left; eapply IHi1; [reflexivity|reflexivity|exact X]|right; eapply IHi2; [reflexivity|reflexivity|exact X]]). }
  induction f as [|f IH]; intros i l m E1 E2; rewrite walk_eq in *;
    [apply (B (wstep g true 0) (wstep g false 0)) with (i := i); [|exact E1|exact E2]|apply (B (wstep g true (S f)) (wstep g false (S f))) with (i := i); [|exact E1|exact E2]];
    clear E1 E2; intros n l1 m1; unfold wstep; (destruct (target g n) as [s|]; [|intros X Y; injection X as <-; injection Y as <-; auto]);
    (destruct (search g s) as [r|] eqn:R; [|intros X Y; injection X as <-; injection Y as <-; auto]).
  - intros X. discriminate X.
  - destruct (walk g true f (ritem r)) as [x|] eqn:X; cbn [obind]; intros X1; [|discriminate X1]. injection X1 as <-.
    destruct (walk g false f (ritem r)) as [y|] eqn:Y; cbn [obind]; intros Y1; [|discriminate Y1]. injection Y1 as <-.
    rewrite !decls_app, !existsb_app. intros Z. apply orb_true_iff in Z. apply orb_true_iff.
    destruct Z as [Z|Z]; [left; apply chain_leads; [apply H; apply search_first, first_rule_In in R; apply R|exact Z]|right; exact (IH _ _ _ X Y Z)].
Qed.
Lemma calls_some : forall ds names c n, calls ds names = (c, n) -> c <> [] -> existsb node_member ds = true.
Proof.
  induction ds as [|d ds IH]; intros names c n E N; cbn [calls] in E; [injection E as <- <-; contradiction|]. cbn [existsb]. unfold node_member at 1.
  destruct (dkind d) eqn:K; try (apply orb_true_iff; right; eapply IH; eassumption).
  destruct (dmember d) eqn:M; cbn [andb orb] in *; [reflexivity|]. eapply IH; eassumption.
Qed.
Lemma visitor_ok g fuel s r evs st : env g s = [r] -> walk g true fuel (ritem r) = Some evs ->
  consistent (inl_ (rdecls r ++ decls_of evs)) -> structs g fuel s = Some [st] ->
  (forall q, In q (rules g) -> existsb node_member (rdecls q) = true -> exists d l, rdecls q = d :: l /\ node_member d = true) ->
  exists b, visitor g fuel s = Some (b, map call_of (filter is_node_var st)) /\
    (map call_of (filter is_node_var st) <> [] -> b = true).
Proof.
  intros Er Ew C Es H. set (D := rdecls r ++ decls_of evs) in *.
  assert (ID : decls_of (chain true (rdecls r) ++ evs) = D) by (rewrite decls_app, decls_chain; reflexivity).
  unfold structs in Es. unfold visitor. rewrite Er in *. cbn [structs_of has_nodes calls_rules] in *. unfold walk_rule in *. rewrite Ew in *. cbn [obind] in *. rewrite ID in *.
  destruct (members D []) as [m nm] eqn:Em. cbn [obind] in Es. injection Es as <-.
  destruct (calls D []) as [c nc] eqn:Ec.
  destruct (walk_incl g fuel _ _ Ew) as (ev0 & E0 & I0). rewrite E0. cbn [obind].
  pose proof (calls_members D C D [] [] c nc m nm (incl_refl _) (fun d _ _ => iff_refl _) Ec Em) as <-.
  rewrite app_nil_r. eexists. split; [reflexivity|]. intros N.
  apply (calls_some _ _ _ _ Ec) in N. rewrite orb_false_r. rewrite decls_app, existsb_app. fold node_member.
  unfold D in N. rewrite existsb_app in N. apply orb_true_iff in N. apply orb_true_iff.
  assert (Ir : In r (rules g)).
  { assert (X : In r (env g s)) by (rewrite Er; left; reflexivity). unfold env in X. rewrite <- in_rev in X. apply filter_In in X. apply X. }
  destruct N as [N|N].
  - left. apply chain_leads; [apply H, Ir|]. rewrite decls_chain. exact N.
  - right. exact (walk_leads g H fuel _ _ _ Ew E0 N).
Qed.

(** ** The traversal *)
Section V.
Variable struct : text -> list var.
Hypothesis nodup : forall s, NoDup (map fst (struct s)).
Variable v : text -> list (text * bool).
Hypothesis v_is : forall s, v s = map call_of (filter is_node_var (struct s)).
Lemma visit_all_more {A} (f f' : A -> option (list nat)) : (forall x l, f x = Some l -> f' x = Some l) -> forall l r, visit_all f l = Some r -> visit_all f' l = Some r.
Proof.
  intros H. induction l as [|x l IH]; intros r E; cbn [visit_all] in *; [exact E|].
  destruct (f x) as [a|] eqn:F; cbn [obind] in E; [|discriminate E]. rewrite (H _ _ F). cbn [obind].
  destruct (visit_all f l) as [b|]; cbn [obind] in E; [|discriminate E]. rewrite (IH b eq_refl). exact E.
Qed.
Lemma visit_more : forall f t r f', visit v f t = Some r -> f <= f' -> visit v f' t = Some r.
Proof.
  induction f as [|f IH]; intros t r f' E L; [discriminate E|]. destruct f' as [|f']; [lia|]. cbn [visit] in *. destruct t as [id s fs].
  match type of E with (do l <- ?q; _) = _ => destruct q as [l|] eqn:X end; cbn [obind] in E; [|discriminate E].
  erewrite visit_all_more; [exact E| |exact X]. intros c r' Y. cbv beta in Y |- *. destruct (field (fst c) fs) as [ts|]; cbn [obind] in *; [|discriminate Y].
  eapply visit_all_more; [|exact Y]. intros x r'' Z. apply (IH x r'' f' Z). lia.
Qed.
Lemma visit_all_trees : forall ts, Forall (fun t => exists f, visit v f t = Some (preorder t)) ts ->
  exists f, visit_all (visit v f) ts = Some (flat_map preorder ts).
Proof.
  induction 1 as [|t ts (f1 & E1) _ (f2 & E2)]; [exists 0; reflexivity|]. exists (f1 + f2). cbn [visit_all flat_map].
  rewrite (visit_more _ _ _ (f1 + f2) E1) by lia. cbn [obind].
  erewrite visit_all_more; [reflexivity| |exact E2]. intros x r E. apply (visit_more f2); [exact E|lia].
Qed.
Lemma field_notin x f fs : fst f <> x -> field x (f :: fs) = field x fs.
Proof. intros N. unfold field. cbn [find]. destruct (teq_spec (fst f) x); [contradiction|reflexivity]. Qed.
Lemma visit_fields fs0 : forall vs fs,
  Forall2 (fun f v => fst f = fst v /\ (fst (snd v) = true \/ length (snd f) <= 1)) fs vs ->
  Forall (fun f : text * list tree => Forall (fun t => exists f, visit v f t = Some (preorder t)) (snd f)) fs ->
  (forall f, In f fs -> field (fst f) fs0 = Some (snd f)) ->
  exists f, visit_all (fun c : text * bool => do ts <- field (fst c) fs0; visit_all (visit v f) (if snd c then ts else firstn 1 ts)) (map call_of vs)
    = Some (flat_map (fun f : text * list tree => flat_map preorder (snd f)) fs).
Proof.
  intros vs fs F. induction F as [|fd w fs vs (E & Q) F IH]; intros A H; [exists 0; reflexivity|].
  inversion A as [|x y A1 A2]; subst. destruct (visit_all_trees _ A1) as (f1 & E1).
  destruct (IH A2) as (f2 & E2); [intros y J; apply H; right; exact J|].
  exists (f1 + f2). cbn [map visit_all]. cbn [call_of fst snd]. rewrite <- E, (H fd (or_introl eq_refl)). cbn [obind].
  assert (T : (if fst (snd w) then snd fd else firstn 1 (snd fd)) = snd fd).
  { destruct Q as [->|Q]; [reflexivity|]. destruct (fst (snd w)); [reflexivity|]. apply firstn_all2. exact Q. }
  rewrite T. erewrite visit_all_more; [| |exact E1]; [|intros x r X; apply (visit_more f1); [exact X|lia]]. cbn [obind flat_map].
  erewrite visit_all_more; [reflexivity| |exact E2]. intros c r X. cbv beta in X |- *. destruct (field (fst c) fs0) as [ts|]; cbn [obind] in *; [|discriminate X].
  eapply visit_all_more; [|exact X]. intros z r' Z. apply (visit_more f2); [exact Z|lia].
Qed.
Lemma filter_nodup {A B} (f : A -> B) p : forall l, NoDup (map f l) -> NoDup (map f (filter p l)).
Proof.
  induction l as [|x l IH]; intros N; [constructor|]. cbn [map] in N. inversion N as [|y z N1 N2]; subst. cbn [filter].
  destruct (p x); [|exact (IH N2)]. cbn [map]. constructor; [|exact (IH N2)]. intros X. apply N1.
  apply in_map_iff in X. destruct X as (e & X & J). apply filter_In in J. apply in_map_iff. exists e. split; [exact X|apply J].
Qed.
Lemma field_in : forall fs, NoDup (map fst fs) -> forall f, In f fs -> field (fst f) fs = Some (snd f).
Proof.
  induction fs as [|a fs IH]; intros N f I; [destruct I|]. cbn [map] in N. inversion N as [|y z N1 N2]; subst. destruct I as [<-|I].
  - unfold field. cbn [find]. rewrite teq_refl. reflexivity.
  - rewrite field_notin; [apply IH; assumption|]. intros X. apply N1. rewrite X. apply in_map. exact I.
Qed.
Lemma forall2_names (fs : list (text * list tree)) (vs : list var) :
  Forall2 (fun f v => fst f = fst v /\ (fst (snd v) = true \/ length (snd f) <= 1)) fs vs -> map fst fs = map fst vs.
Proof. induction 1 as [|f w fs vs (E & _) _ IH]; [reflexivity|]. cbn [map]. rewrite E, IH. reflexivity. Qed.
Fixpoint tree_all (P : tree -> Prop) (H : forall id s fs, Forall (fun f : text * list tree => Forall P (snd f)) fs -> P (Tree id s fs)) (t : tree) : P t :=
  match t with
  | Tree id s fs =>
    H id s fs ((fix fields (l : list (text * list tree)) : Forall (fun f : text * list tree => Forall P (snd f)) l :=
      match l with
      | [] => Forall_nil _
      | f :: l => Forall_cons f ((fix trees (ts : list tree) : Forall P ts :=
          match ts with [] => Forall_nil _ | t :: ts => Forall_cons t (tree_all P H t) (trees ts) end) (snd f)) (fields l)
      end) fs)
  end.
Lemma visit_preorder : forall t, conforms struct t -> exists f, visit v f t = Some (preorder t).
Proof.
  induction t as [id s fs IH] using tree_all. intros C. inversion C as [i s' fs' F G]; subst.
  assert (A : Forall (fun f : text * list tree => Forall (fun t => exists f, visit v f t = Some (preorder t)) (snd f)) fs).
  { rewrite Forall_forall in *. intros f I. specialize (IH f I). specialize (G f I). rewrite Forall_forall in *. intros t J. exact (IH t J (G t J)). }
  destruct (visit_fields fs _ _ F A) as (f & E).
  - apply field_in. rewrite (forall2_names _ _ F). apply filter_nodup, nodup.
  - exists (S f). cbn [visit preorder]. rewrite v_is, E. reflexivity.
Qed.
End V.

(** ** The statements *)
Lemma walk_ext g h follow : rules g = rules h -> (forall n, target g n = target h n) -> forall f i, walk g follow f i = walk h follow f i.
Proof.
  intros R T.
  assert (B : forall a b i, (forall n, a n = b n) -> walk_item a i = walk_item b i).
  { intros a b i H. induction i; cbn [walk_item]; rewrite ?IHi, ?IHi1, ?IHi2; try reflexivity. apply H. }
  induction f as [|f IH]; intros i; rewrite !walk_eq; apply B; intros n; unfold wstep; rewrite (T n); destruct (target h n) as [s|]; try reflexivity;
    unfold search; rewrite R; destruct (find _ (rules h)) as [r|]; try reflexivity. rewrite IH. reflexivity.
Qed.
Lemma walks_end g : ~ cyclic g -> ~ inlines_operator g -> exists f0, forall f r, f0 <= f -> In r (rules g) -> exists l, walk g true f (ritem r) = Some l.
Proof.
  intros C O. destruct (inline_exact g _ (le_n _)) as (c & E & H). destruct H as (_ & H).
  destruct (inline_walks g _ c true E (H (conj C O))) as (T & f0 & W). exists f0. intros f r L I. specialize (W r I). unfold walk_rule in W.
  rewrite <- (walk_ext g (after g c) true eq_refl (fun n => eq_sym (T n))) in W.
  destruct (walk g true f0 (ritem r)) as [l|] eqn:X; [|contradiction]. exists l. apply (walk_more g true f0 _ _ f X L).
Qed.
Lemma consistent_iff P Q : (forall d, P d <-> Q d) -> consistent Q -> consistent P.
Proof. intros H C d e X Y. apply C; apply H; assumption. Qed.
Lemma env_in g s r : env g s = [r] -> In r (rules g).
Proof. intros E. assert (X : In r (env g s)) by (rewrite E; left; reflexivity). unfold env in X. rewrite <- in_rev in X. apply filter_In in X. apply X. Qed.
Lemma names_ok g : ~ cyclic g -> ~ inlines_operator g -> exists f0, forall fuel ast s r, f0 <= fuel -> env g s = [r] ->
  consistent (declared g r) -> apart (declared g r) -> no_arguments (declared_in g (ritem r)) -> NoDup (argument_names (rdecls r)) ->
  (ast = true -> tokens_kept (declared_in g (ritem r))) ->
  exists st m, structs g fuel s = Some [st] /\ parse_method g fuel ast s = Some m /\
    NoDup (map fst st) /\ good_method st m /\
    (forall v, In v st <-> exists d, declared g r d /\ dmember d = true /\ as_var d = v) /\
    (forall v, In v (fst m) <-> exists d, In d (rdecls r) /\ dargument d = true /\ (ast = true \/ dmember d = false) /\ as_var d = v) /\
    (ast = true -> forall x k q a, annotated g (ritem r) x k q a -> occurs (store x k q a) (snd m)).
Proof.
  intros Cy O. destruct (walks_end g Cy O) as (f0 & W). exists f0. intros fuel ast s r L E C A N P T.
  destruct (W fuel r L (env_in _ _ _ E)) as (evs & Ew).
  pose proof (declared_rule_iff g fuel r evs Ew) as D1. pose proof (declared_iff g fuel (ritem r) evs Ew) as D2.
  assert (C' : consistent (inl_ (rdecls r ++ decls_of evs))) by (apply (consistent_iff _ (declared g r)); [exact D1|exact C]).
  destruct (method_ok g fuel ast s r evs E Ew C') as (st & m & H1 & H2 & H3 & H4).
  - intros d e X Y. apply A; apply D1; assumption.
  - intros d X. apply N, D2, X.
  - exact P.
  - intros Z d X. apply (T Z), D2, X.
  - exists st, m. split; [exact H1|]. split; [exact H3|]. split; [exact H2|]. split; [exact H4|]. split; [|split].
    + intros v. rewrite (struct_exact g fuel s r evs st E Ew C' H1 v).
      split; intros (d & X & Y); exists d; (split; [apply D1, X|exact Y]).
    + exact (params_exact g fuel ast s r m E H3).
    + intros ->. exact (method_stores g fuel s r m E H3).
Qed.
Definition struct_of g fuel s : list var := match structs g fuel s with Some [st] => st | _ => [] end.
Definition calls_in g fuel s : list (text * bool) := match visitor g fuel s with Some (_, l) => l | None => [] end.
Lemma visits_ok g : ~ cyclic g -> ~ inlines_operator g ->
  (forall s, env g s = [] \/ exists r, env g s = [r] /\ is_operator r = false /\ consistent (declared g r) /\ apart (declared g r)) ->
  exists f0, forall fuel, f0 <= fuel -> forall t, conforms (struct_of g fuel) t -> exists f, visit (calls_in g fuel) f t = Some (preorder t).
Proof.
  intros Cy O H. destruct (walks_end g Cy O) as (f0 & W). exists f0. intros fuel L.
  assert (X : forall s, NoDup (map fst (struct_of g fuel s)) /\ calls_in g fuel s = map call_of (filter is_node_var (struct_of g fuel s))).
  { intros s. destruct (H s) as [E|(r & E & _ & C & A)].
    - unfold struct_of, calls_in, structs, visitor. rewrite E. cbn [structs_of has_nodes calls_rules obind]. split; [constructor|reflexivity].
    - destruct (W fuel r L (env_in _ _ _ E)) as (evs & Ew). pose proof (declared_rule_iff g fuel r evs Ew) as D1.
      assert (C' : consistent (inl_ (rdecls r ++ decls_of evs))) by (apply (consistent_iff _ (declared g r)); [exact D1|exact C]).
      destruct (members (rdecls r ++ decls_of evs) []) as [m nm] eqn:Em.
      assert (Es : structs g fuel s = Some [map as_var m]).
      { unfold structs. rewrite E. cbn [structs_of]. unfold walk_rule. rewrite Ew. cbn [obind]. rewrite decls_app, decls_chain, Em. reflexivity. }
      unfold struct_of. rewrite Es. split.
      + apply (shown_nodup (rdecls r ++ decls_of evs)); [|intros d J; apply (members_in _ _ _ _ Em d J)|apply (members_nodup _ _ _ _ Em)].
        intros d e J K. apply A; apply D1; assumption.
      + destruct (calls (rdecls r ++ decls_of evs) []) as [c nc] eqn:Ec.
        destruct (walk_incl g fuel _ _ Ew) as (ev0 & E0 & _).
        unfold calls_in, visitor. rewrite E. cbn [has_nodes calls_rules]. unfold walk_rule. rewrite Ew, E0. cbn [obind]. rewrite decls_app, decls_chain, Ec. cbn [obind].
        rewrite app_nil_r. apply (calls_members _ C' _ [] [] c nc m nm (incl_refl _) (fun d _ _ => iff_refl _) Ec Em). }
  apply visit_preorder; intros s; apply X.
Qed.
Lemma named_ok g fuel s b l : (forall r, In r (rules g) -> leads r) -> visitor g fuel s = Some (b, l) -> l <> [] -> b = true.
Proof.
  intros H E N. unfold visitor in E. destruct (has_nodes g fuel (env g s)) as [b'|] eqn:B; cbn [obind] in E; [|discriminate E].
  destruct (calls_rules g fuel (env g s) []) as [l'|] eqn:Cl; cbn [obind] in E; [|discriminate E]. injection E as <- <-.
  assert (I : incl (env g s) (rules g)) by (intros r J; unfold env in J; rewrite <- in_rev in J; apply filter_In in J; apply J).
  revert I B Cl N. generalize (@nil text) as names. generalize (env g s) as rs. intros rs. revert b' l'.
  induction rs as [|r rs IH]; intros b' l' names I B Cl N; cbn [calls_rules has_nodes] in *; [injection Cl as <-; contradiction|].
  unfold walk_rule in *. destruct (walk g true fuel (ritem r)) as [e1|] eqn:W1; cbn [obind] in Cl; [|discriminate Cl].
  destruct (walk g false fuel (ritem r)) as [e0|] eqn:W0; cbn [obind] in B; [|discriminate B].
  destruct (calls (decls_of (chain true (rdecls r) ++ e1)) names) as [c names'] eqn:Ec.
  destruct (calls_rules g fuel rs names') as [k|] eqn:Ek; cbn [obind] in Cl; [|discriminate Cl]. injection Cl as <-.
  destruct (has_nodes g fuel rs) as [b''|] eqn:Bs; cbn [obind] in B; [|discriminate B]. injection B as <-. apply orb_true_iff.
  destruct c as [|c0 c].
  - right. apply (IH b'' k names'); [intros q J; apply I; right; exact J|reflexivity|exact Ek|exact N].
  - left. assert (Y : existsb node_member (decls_of (chain true (rdecls r) ++ e1)) = true) by (apply (calls_some _ _ _ _ Ec); discriminate).
    rewrite decls_app, existsb_app in *. fold node_member. apply orb_true_iff in Y. apply orb_true_iff.
    assert (Ir : In r (rules g)) by (apply I; left; reflexivity).
    destruct Y as [Y|Y]; [left; apply chain_leads; [apply H, Ir|exact Y]|right; exact (walk_leads g H fuel _ _ _ W1 W0 Y)].
Qed.
