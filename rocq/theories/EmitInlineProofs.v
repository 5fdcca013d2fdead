(** If InlineChecker finds nothing, the generator ends. *)
From Coq Require Import List NArith Bool PeanoNat Wf_nat Relations Lia.
From Verif Require ItemModel InlineModel InlineSpec InlineProofs.
From Verif Require Import GrammarModel GrammarSpec FirstProofs ParserModel EndProofs EmitModel EmitTotalProofs RunModel.
Import ListNotations.

Section G.
Variable g : grammar.
Notation kind := (kind g).
Hypothesis WF : well_formed g = true.
Hypothesis WR : forall n, writable g n.

Lemma seen_inlined n s' : kind n = NInl s' -> forall i, reach g i n -> inside g i = true -> is_item g i = true -> forall f, i < f -> InlineSpec.inlined n (seen g f i).
Proof.
  intros K i R. induction R as [n | i m n C R IH]; intros I It f L; (destruct f as [| f]; [lia |]); cbn [seen]; [rewrite K; constructor |].
  assert (N : kind i <> NOther) by (intros H; unfold child in C; rewrite H in C; exact C). destruct (lower_child g WF i m I N C) as (Lm & Im & Tm). specialize (IH K Im Tm f ltac:(lia)).
  pose proof (WR i) as W. unfold writable in W. unfold child in C.
  destruct (kind i) as [| | |s|s|j c a|j c a|[j|]|l r|l r|j s|tt [c|]|j|j|bb ops x|] eqn:Ki; try (destruct C; fail); try (subst m; constructor; exact IH); try (destruct C as [-> | ->]; constructor; exact IH).
  - unfold is_item in It. rewrite Ki in It. discriminate.
  - exfalso. subst m. destruct W as [W | (s & W)]; inversion R; subst; try congruence; match goal with H : child g _ _ |- _ => unfold child in H; rewrite W in H; destruct H end.
  - exfalso. subst m. destruct W as [(s & W) _]; inversion R; subst; try congruence; match goal with H : child g _ _ |- _ => unfold child in H; rewrite W in H; destruct H end.
Qed.
Lemma named_inj s t : named s = named t -> s = t.
Proof. intros H. apply Nat2N.inj. exact (f_equal (hd 0%N) H). Qed.
Lemma seen_rule s : forall l e i, find (rule_of g s) l = Some e -> kind e = NEvolve i s -> (forall e, In e l -> exists i s, kind e = NEvolve i s) ->
  InlineSpec.first_rule (named s) (map (fun e => match kind e with NEvolve i s => ItemModel.Rule (named s) [] (seen g (size g) i) | _ => ItemModel.Rule [] [] ItemModel.IZero end) l) (ItemModel.Rule (named s) [] (seen g (size g) i)).
Proof.
  induction l as [| d l IH]; intros e i E K A; cbn [find] in E; [discriminate |]. cbn [map]. destruct (A d (or_introl eq_refl)) as (j & t & Kd). rewrite Kd. unfold rule_of in E at 1. rewrite Kd in E.
  rewrite Nat.eqb_sym in E. destruct (Nat.eqb t s) eqn:Q.
  - apply Nat.eqb_eq in Q. subst t. injection E as ->. rewrite K in Kd. injection Kd as <-. constructor. reflexivity.
  - apply Nat.eqb_neq in Q. constructor; [cbn; intros H; apply Q; apply named_inj; exact H |]. apply (IH e i E K). intros e' I. apply A. right. exact I.
Qed.
Lemma seen_inlines s' s : inlines g s' s -> s < size g /\ InlineSpec.inlines (seen_grammar g) (named s) (named s').
Proof.
  intros (e & i & s0 & n & SR & Ke & R & Kn). pose proof (find_some _ _ SR) as [Ie Q]. unfold rule_of in Q. rewrite Ke in Q. apply Nat.eqb_eq in Q. subst s0.
  destruct (rule_kind g WF e Ie) as (In_ & _). assert (N : kind e <> NOther) by congruence. destruct (lower_child g WF e i In_ N ltac:(unfold child; rewrite Ke; reflexivity)) as (Li & Ii & Ti).
  assert (SZ : forall n, kind n <> NOther -> n < size g) by (intros m H; destruct (Nat.lt_ge_cases m (size g)) as [L | L]; [exact L |]; destruct H; unfold GrammarModel.kind; apply nth_overflow; exact L).
  split.
  - pose proof (shaped g WF e N) as SH. unfold shape in SH. rewrite In_, Ke in SH. apply andb_true_iff in SH. destruct SH as [_ SH]. unfold is_sym in SH. apply SZ. destruct (kind s); try discriminate; rewrite andb_false_r in SH; discriminate.
  - exists (ItemModel.Rule (named s) [] (seen g (size g) i)), n. split; [| split].
    + apply (seen_rule s (grules g) e i SR Ke). intros d Id. apply (rule_kind g WF d Id).
    + cbn [ItemModel.ritem]. apply (seen_inlined n s' Kn i R Ii Ti). pose proof (SZ e N). lia.
    + cbn [ItemModel.target seen_grammar]. rewrite Kn. reflexivity.
Qed.
Theorem no_errors_end : inline_errors g = Some 0 -> forall s, Acc (inlines g) s.
Proof.
  intros E. unfold inline_errors in E. destruct (InlineProofs.inline_exact (seen_grammar g) (List.length (grules g)) ltac:(cbn [ItemModel.rules seen_grammar]; rewrite map_length; apply Nat.le_refl)) as (c & Ec & X). rewrite Ec in E. injection E as E.
  apply X in E. destruct E as [NC _]. apply (down_ends (fun s s' => inlines g s' s) (size g)); [intros s s' H; apply seen_inlines in H; apply H |].
  intros s H. apply NC. exists (named s). assert (G : forall a b, clos_trans nat (fun s s' => inlines g s' s) a b -> clos_trans ItemModel.text (InlineSpec.inlines (seen_grammar g)) (named a) (named b)); [| apply G; exact H].
  induction 1 as [a b R | a b d _ I1 _ I2]; [apply t_step; apply seen_inlines; exact R | eapply t_trans; eassumption].
Qed.
End G.
