(** The generator ends: with fuel enough, every parse function is written. *)
From Coq Require Import List Bool PeanoNat Wf_nat Lia.
From Verif Require Import Base GrammarModel GrammarSpec GrammarProofs FirstProofs ParserModel CppSpec EmitModel.
Import ListNotations.

Section G.
Variable g : grammar.
Variable first follow : table.
Variable managed : bool.
Notation kind := (kind g).
Notation out_item := (out_item g first follow managed).
Notation out_rules := (out_rules g first follow managed).
Hypothesis WF : well_formed g = true.

(** [reach n m]: [m] is [n] or inside. *)
Inductive reach : id -> id -> Prop :=
| reach_here n : reach n n
| reach_in n m k : child g n m -> reach m k -> reach n k.
(** [inlines s' s]: the rule that is taken for [s] inlines [s']. *)
Definition inlines (s' s : id) : Prop := exists e i s0 n, search_rule g s = Some e /\ kind e = NEvolve i s0 /\ reach i n /\ kind n = NInl s'.
(** What the generator can write: nodes for tokens and symbols below annotations, operators
    with two operands at most, symbols with a rule where they are inlined. *)
Definition writable (n : id) : Prop :=
  match kind n with
  | NAnn i => kind i = NTerm \/ exists s, kind i = NNon s
  | NOper b ops _ => (exists s, kind b = NNon s) /\ existsb is_tern ops = false
  | NInl s => search_rule g s <> None
  | _ => True
  end.
Hypothesis WR : forall n, writable n.

Definition out_ok (n : id) : Prop := exists F, forall f, F <= f -> forall cur catch c, out_item f cur catch c n <> None.
Lemma some_of {A} (o : option A) : o <> None -> exists a, o = Some a.
Proof. destruct o; [eauto | congruence]. Qed.
Lemma lower_child n m : inside g n = true -> kind n <> NOther -> child g n m -> m < n /\ inside g m = true /\ is_item g m = true.
Proof.
  intros I K C. pose proof (shaped g WF n K) as SH. unfold shape in SH. rewrite I in SH. unfold child in C.
  assert (B : below g m n = true).
  { destruct (kind n) as [| | |s|s|i c a|i c a|[i|]|l r|l r|i s|tt [c|]|i|i|bb ops x|]; try (destruct C; fail); rewrite ?andb_true_iff in SH; try (subst m; tauto); destruct C as [-> | ->]; tauto. }
  split; [| split; [exact (below_inside g m n B I) |]]; unfold below in B; apply andb_true_iff in B; [apply Nat.ltb_lt |]; apply B.
Qed.
Lemma flatten_one : forall n, inside g n = true -> is_item g n = true -> exists ns F, (forall m, In m ns -> reach n m /\ forall l r, kind m <> NAlt l r) /\
  forall work ns' F', (forall f, F' <= f -> flatten g f work = Some ns') -> forall f, F + F' <= f -> flatten g f (n :: work) = Some (ns ++ ns').
Proof.
  induction n as [n IH] using lt_wf_ind. intros I It.
  assert (D : (exists l r, kind n = NAlt l r) \/ forall l r, kind n <> NAlt l r) by (destruct (kind n); try (right; discriminate); left; eauto).
  destruct D as [(l & r & K) | N].
  - destruct (lower_child n l I ltac:(congruence) ltac:(unfold child; rewrite K; auto)) as (L1 & I1 & T1). destruct (lower_child n r I ltac:(congruence) ltac:(unfold child; rewrite K; auto)) as (L2 & I2 & T2).
    destruct (IH l L1 I1 T1) as (ns1 & F1 & A1 & H1). destruct (IH r L2 I2 T2) as (ns2 & F2 & A2 & H2). exists (ns1 ++ ns2), (S (F1 + F2)). split.
    + intros m Im. apply in_app_iff in Im. destruct Im as [Im | Im]; [destruct (A1 m Im) as [R X] | destruct (A2 m Im) as [R X]]; (split; [| exact X]); (eapply reach_in; [| exact R]); unfold child; rewrite K; auto.
    + intros work ns' F' W f L. destruct f as [| f]; [lia |]. cbn [flatten]. rewrite K, <- app_assoc. apply (H1 (r :: work) (ns2 ++ ns') (F2 + F')); [| lia]. intros f0 L0. apply (H2 work ns' F' W). exact L0.
  - exists [n], 1. split; [intros m [<- | []]; split; [apply reach_here | exact N] |]. intros work ns' F' W f L. destruct f as [| f]; [lia |]. cbn [flatten].
    rewrite (W f ltac:(lia)). cbn [obind app]. destruct (kind n) eqn:K; try reflexivity. destruct (N _ _ eq_refl).
Qed.
Lemma each_ok ns : Forall out_ok ns -> exists F, forall f, F <= f -> forall cur catch c, out_each (out_item f cur) catch c ns <> None.
Proof.
  induction 1 as [| n ns [F1 H1] _ [F2 H2]].
  - exists 0. intros. discriminate.
  - exists (F1 + F2). intros f L cur catch c. cbn [out_each]. destruct (some_of _ (H1 f ltac:(lia) cur catch c)) as [p E]. rewrite E. cbn [obind].
    destruct (some_of _ (H2 f ltac:(lia) cur catch (snd p))) as [q E2]. rewrite E2. discriminate.
Qed.
Definition good_inline (s : id) : Prop := forall e i s0, search_rule g s = Some e -> kind e = NEvolve i s0 -> out_ok i.
Lemma items_out : forall n, inside g n = true -> is_item g n = true -> (forall m s, reach n m -> kind m = NInl s -> good_inline s) -> out_ok n.
Proof.
  induction n as [n IH] using lt_wf_ind. intros I It GI.
  assert (CH : forall m, child g n m -> kind n <> NOther -> out_ok m).
  { intros m C K. destruct (lower_child n m I K C) as (L & Im & Tm). apply (IH m L Im Tm). intros k s R E. apply (GI k s); [eapply reach_in; eassumption | exact E]. }
  pose proof (WR n) as W. unfold writable in W. unfold is_item in It. unfold out_ok.
  destruct (kind n) as [| | |s|s|i cc a|i cc a|[i|]|l r|l r|i s|t h|i|i|b ops x|] eqn:K; try discriminate.
  - exists 1. intros [| f] L cur catch c; [lia |]. cbn [EmitModel.out_item]. rewrite K. discriminate.
  - exists 1. intros [| f] L cur catch c; [lia |]. cbn [EmitModel.out_item]. rewrite K. discriminate.
  - exists 1. intros [| f] L cur catch c; [lia |]. cbn [EmitModel.out_item]. rewrite K. discriminate.
  - destruct (search_rule g s) as [e |] eqn:SR; [| congruence]. assert (Ie : In e (grules g)) by (apply find_some in SR; apply SR). destruct (rule_kind g WF e Ie) as (_ & i & s0 & Ke).
    destruct (GI n s (reach_here n) K e i s0 SR Ke) as [F H]. exists (S F). intros [| f] L cur catch c; [lia |]. cbn [EmitModel.out_item]. rewrite K, SR, Ke. destruct (some_of _ (H f ltac:(lia) cur catch c)) as [p E]. rewrite E. discriminate.
  - destruct (CH i ltac:(unfold child; rewrite K; reflexivity) ltac:(congruence)) as [F H]. exists (S F). intros [| f] L cur catch c; [lia |]. cbn [EmitModel.out_item]. rewrite K. destruct (some_of _ (H f ltac:(lia) cur catch c)) as [p E]. rewrite E. discriminate.
  - destruct (CH i ltac:(unfold child; rewrite K; reflexivity) ltac:(congruence)) as [F H]. exists (S F). intros [| f] L cur catch c; [lia |]. cbn [EmitModel.out_item]. rewrite K. destruct (some_of _ (H f ltac:(lia) cur catch c)) as [p E]. rewrite E. discriminate.
  - destruct (CH i ltac:(unfold child; rewrite K; reflexivity) ltac:(congruence)) as [F H]. exists (S F). intros [| f] L cur catch c; [lia |]. cbn [EmitModel.out_item]. rewrite K. destruct (some_of _ (H f ltac:(lia) cur catch c)) as [p E]. rewrite E. discriminate.
  - exists 1. intros [| f] L cur catch c; [lia |]. cbn [EmitModel.out_item]. rewrite K. discriminate.
  - destruct (lower_child n l I ltac:(congruence) ltac:(unfold child; rewrite K; auto)) as (L1 & I1 & T1). destruct (lower_child n r I ltac:(congruence) ltac:(unfold child; rewrite K; auto)) as (L2 & I2 & T2).
    destruct (flatten_one l I1 T1) as (ns1 & F1 & A1 & H1). destruct (flatten_one r I2 T2) as (ns2 & F2 & A2 & H2).
    assert (FL : forall f, F1 + (F2 + 1) <= f -> flatten g f [l; r] = Some (ns1 ++ (ns2 ++ []))).
    { intros f L. apply (H1 [r] (ns2 ++ []) (F2 + 1)); [| exact L]. intros f0 L0. apply (H2 [] [] 1); [| exact L0]. intros [| f1] Lf; [lia | reflexivity]. }
    rewrite app_nil_r in FL.
    assert (IN : forall x, inside g x = true -> is_item g x = true -> forall m, reach x m -> m <= x /\ inside g m = true /\ is_item g m = true).
    { clear - WF. intros x Ix Tx m R. induction R as [y | y m k C R IHR]; [auto |]. destruct (lower_child y m Ix) as (A & B & D); [| exact C |]; [intros E; unfold child in C; rewrite E in C; destruct C |]. destruct (IHR B D) as (E & F). split; [lia | exact F]. }
    assert (OK : Forall out_ok (ns1 ++ ns2)).
    { apply Forall_forall. intros m Im. assert (R : (reach l m \/ reach r m)) by (apply in_app_iff in Im; destruct Im as [Im | Im]; [left; apply (A1 m Im) | right; apply (A2 m Im)]).
      assert (Q : m < n /\ inside g m = true /\ is_item g m = true) by (destruct R as [R | R]; [destruct (IN l I1 T1 m R) as (Q1 & Q2) | destruct (IN r I2 T2 m R) as (Q1 & Q2)]; (split; [lia | exact Q2])).
      destruct Q as (Q1 & Q2 & Q3). apply (IH m Q1 Q2 Q3). intros k s Rk Ek. apply (GI k s); [| exact Ek].
      assert (TR : forall a b c, reach a b -> reach b c -> reach a c) by (clear; intros a b c X; induction X; eauto using reach_in).
      destruct R as [R | R]; [apply (reach_in n l) | apply (reach_in n r)]; try (unfold child; rewrite K; auto; fail); eapply TR; eassumption. }
    destruct (each_ok _ OK) as [F3 H3]. exists (S (F1 + (F2 + 1) + F3)). intros [| f] L cur catch c; [lia |]. cbn [EmitModel.out_item]. rewrite K, (FL f ltac:(lia)). cbn [obind].
    destruct (some_of _ (H3 f ltac:(lia) cur catch c)) as [p E]. rewrite E. discriminate.
  - destruct (CH l ltac:(unfold child; rewrite K; auto) ltac:(congruence)) as [F1 H1]. destruct (CH r ltac:(unfold child; rewrite K; auto) ltac:(congruence)) as [F2 H2].
    exists (S (F1 + F2)). intros [| f] L cur catch c; [lia |]. cbn [EmitModel.out_item]. rewrite K. destruct (some_of _ (H1 f ltac:(lia) cur catch c)) as [p E]. rewrite E. cbn [obind]. destruct (some_of _ (H2 f ltac:(lia) cur catch (snd p))) as [q E2]. rewrite E2. discriminate.
  - destruct (CH t ltac:(unfold child; rewrite K; destruct h; auto) ltac:(congruence)) as [F1 H1]. destruct h as [h |].
    + destruct (CH h ltac:(unfold child; rewrite K; auto) ltac:(congruence)) as [F2 H2].
      exists (S (F1 + F2)). intros [| f] L cur catch c; [lia |]. cbn [EmitModel.out_item]. rewrite K. destruct (some_of _ (H1 f ltac:(lia) cur (S c) (S c))) as [p E]. rewrite E. cbn [obind]. destruct (some_of _ (H2 f ltac:(lia) cur catch (snd p))) as [q E2]. rewrite E2. discriminate.
    + exists (S F1). intros [| f] L cur catch c; [lia |]. cbn [EmitModel.out_item]. rewrite K. destruct (some_of _ (H1 f ltac:(lia) cur (S c) (S c))) as [p E]. rewrite E. discriminate.
  - exists 1. intros [| f] L cur catch c; [lia |]. cbn [EmitModel.out_item]. rewrite K. destruct W as [W | [s W]]; rewrite W; discriminate.
  - destruct (CH i ltac:(unfold child; rewrite K; reflexivity) ltac:(congruence)) as [F H]. exists (S F). intros [| f] L cur catch c; [lia |]. cbn [EmitModel.out_item]. rewrite K. apply H. lia.
  - exists 1. intros [| f] L cur catch c; [lia |]. cbn [EmitModel.out_item]. rewrite K. destruct W as [[s W] T]. unfold out_operator. rewrite T, W. discriminate.
Qed.
Lemma inline_good s : Acc inlines s -> good_inline s.
Proof.
  induction 1 as [s _ IH]. intros e i s0 SR Ke. assert (Ie : In e (grules g)) by (apply find_some in SR; apply SR). destruct (rule_kind g WF e Ie) as (Ins & _).
  destruct (lower_child e i Ins ltac:(congruence) ltac:(unfold child; rewrite Ke; reflexivity)) as (_ & I & T). apply items_out; [exact I | exact T |].
  intros m s' R E. apply IH. exists e, i, s0, m. auto.
Qed.
Hypothesis ENDS : forall s, Acc inlines s.
Lemma rules_out es : (forall e, In e es -> In e (grules g)) -> exists F, forall f, F <= f -> forall cur c, out_rules f cur c es <> None.
Proof.
  induction es as [| e es IH]; intros H; [exists 0; intros; discriminate |]. destruct (IH (fun x I => H x (or_intror I))) as [F1 H1].
  assert (Ie : In e (grules g)) by (apply H; left; reflexivity). destruct (rule_kind g WF e Ie) as (Ins & i & s & Ke). destruct (lower_child e i Ins ltac:(congruence) ltac:(unfold child; rewrite Ke; reflexivity)) as (_ & I & T).
  destruct (items_out i I T (fun m s' _ _ => inline_good s' (ENDS s'))) as [F2 H2]. exists (F1 + F2). intros f L cur c. cbn [EmitModel.out_rules]. rewrite Ke. destruct (some_of _ (H2 f ltac:(lia) cur 0 c)) as [p E]. rewrite E. cbn [obind].
  destruct (some_of _ (H1 f ltac:(lia) cur (snd p))) as [q E2]. rewrite E2. discriminate.
Qed.
Theorem functions_out l : exists F, forall f, F <= f -> forall c, exists fs, out_functions g first follow managed f c l = Some fs /\ map fst fs = l.
Proof.
  induction l as [| s l [F1 H1]]; [exists 0; intros; exists []; auto |].
  destruct (rules_out (env g s)) as [F2 H2]; [intros e I; unfold env in I; apply in_rev in I; apply filter_In in I; apply I |].
  exists (F1 + F2). intros f L c. cbn [out_functions]. unfold out_function. destruct (some_of _ (H2 f ltac:(lia) s c)) as [p E]. rewrite E. cbn [obind snd fst].
  destruct (H1 f ltac:(lia) (snd p)) as (fs & E2 & M). rewrite E2. cbn [obind]. eexists. split; [reflexivity |]. cbn [map fst]. rewrite M. reflexivity.
Qed.
End G.
