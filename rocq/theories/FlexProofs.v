(** [longest] finds the longest match; which texts the patterns match. *)
From Coq Require Import List Ascii String Bool PeanoNat Lia.
From Verif Require Import FlexModel FlexSpec.
Import ListNotations.

Lemma lang_none w : ~ lang RNone w.
Proof. intro H; inversion H. Qed.

Lemma lang_alt a b w : lang (alt a b) w <-> lang a w \/ lang b w.
Proof.
  assert (R : lang (RAlt a b) w <-> lang a w \/ lang b w).
  { split; [intro H; inversion H; auto | intros [H | H]; [apply l_altl | apply l_altr]; exact H]. }
  assert (N := lang_none w).
  destruct a; destruct b; cbv [alt]; try exact R; tauto.
Qed.

Lemma lang_seq a b w : lang (seq a b) w <-> exists u v, w = u ++ v /\ lang a u /\ lang b v.
Proof.
  assert (R : lang (RSeq a b) w <-> exists u v, w = u ++ v /\ lang a u /\ lang b v).
  { split.
    - intro H; inversion H; subst; eauto.
    - intros (u & v & -> & A & B); apply l_seq; assumption. }
  destruct a; cbv [seq]; try exact R.
  - split; [intro H; inversion H | intros (u & v & _ & A & _); inversion A].
  - split.
    + intro H; exists [], w; repeat split; [apply l_eps | exact H].
    + intros (u & v & -> & A & B); inversion A; exact B.
Qed.

Lemma nullable_lang r : nullable r = true <-> lang r [].
Proof.
  induction r as [| | f | a IA b IB | a IA b IB | a IA]; cbn [nullable].
  - split; [discriminate | intro H; inversion H].
  - split; [intros _; apply l_eps | reflexivity].
  - split; [discriminate | intro H; inversion H].
  - rewrite orb_true_iff, IA, IB; split.
    + intros [H | H]; [apply l_altl | apply l_altr]; exact H.
    + intro H; inversion H; auto.
  - rewrite andb_true_iff, IA, IB; split.
    + intros [A B]; change (@nil ascii) with (@nil ascii ++ []); apply l_seq; assumption.
    + intro H; inversion H; subst.
      match goal with E : _ ++ _ = [] |- _ => apply app_eq_nil in E; destruct E; subst end; auto.
  - split; [intros _; apply l_nil | reflexivity].
Qed.

Lemma star_cons a c w :
  lang (RStar a) (c :: w) -> exists u v, w = u ++ v /\ lang a (c :: u) /\ lang (RStar a) v.
Proof.
  intro H; remember (RStar a) as r eqn:R; remember (c :: w) as x eqn:X.
  revert c w X; induction H; intros; try discriminate R.
  - discriminate X.
  - injection R as ->. destruct v as [| d v].
    + apply IHlang2; auto.
    + cbn [app] in X; injection X as -> <-. eauto.
Qed.

Lemma deriv_lang c r : forall w, lang (deriv c r) w <-> lang r (c :: w).
Proof.
  induction r as [| | f | a IA b IB | a IA b IB | a IA]; intro w; cbn [deriv].
  - split; intro H; inversion H.
  - split; intro H; inversion H.
  - destruct (f c) eqn:E; split; intro H.
    + inversion H; subst; apply l_cls; exact E.
    + inversion H; subst; apply l_eps.
    + inversion H.
    + inversion H; subst; congruence.
  - rewrite lang_alt, IA, IB; split.
    + intros [H | H]; [apply l_altl | apply l_altr]; exact H.
    + intro H; inversion H; auto.
  - assert (K : lang (RSeq a b) (c :: w) <->
      (exists u v, w = u ++ v /\ lang a (c :: u) /\ lang b v) \/ (lang a [] /\ lang b (c :: w))).
    { split.
      - intro H; inversion H as [| | | | a' b' v u A B | |]; subst.
        destruct v as [| d v]; cbn [app] in *.
        + right; subst; auto.
        + left. match goal with E : d :: _ = _ |- _ => injection E as -> <- end. eauto.
      - intros [(u & v & -> & A & B) | [A B]].
        + change (c :: u ++ v) with ((c :: u) ++ v); apply l_seq; assumption.
        + change (c :: w) with ([] ++ c :: w); apply l_seq; assumption. }
    rewrite K.
    assert (Sq : lang (seq (deriv c a) b) w <-> exists u v, w = u ++ v /\ lang a (c :: u) /\ lang b v).
    { rewrite lang_seq; split; intros (u & v & E & A & B); exists u, v; repeat split; auto; apply IA; exact A. }
    destruct (nullable a) eqn:N.
    + rewrite lang_alt, Sq, IB. apply nullable_lang in N. tauto.
    + rewrite Sq. assert (~ lang a []) by (intro L; apply nullable_lang in L; congruence). tauto.
  - rewrite lang_seq; split.
    + intros (u & v & -> & A & B). apply IA in A.
      change (c :: u ++ v) with ((c :: u) ++ v); apply l_star; assumption.
    + intro H; apply star_cons in H; destruct H as (u & v & -> & A & B).
      exists u, v; repeat split; auto; apply IA; exact A.
Qed.

Lemma longest_cons r c t :
  longest r (c :: t) =
  match longest (deriv c r) t with
  | Some n => Some (S n)
  | None => if nullable r then Some 0 else None
  end.
Proof.
  destruct r; try reflexivity.
  cbn [deriv]. destruct t; reflexivity.
Qed.

Lemma longest_nil r : longest r [] = if nullable r then Some 0 else None.
Proof. destruct r; reflexivity. Qed.

Lemma longest_none s : longest RNone s = None.
Proof. destruct s; reflexivity. Qed.

Lemma longest_eps s : longest REps s = Some 0.
Proof. destruct s as [| c t]; [reflexivity |]. rewrite longest_cons. cbn [deriv]. rewrite longest_none. reflexivity. Qed.

Lemma longest_spec : forall s r,
  match longest r s with
  | Some n => is_longest r s n
  | None => forall m, m <= List.length s -> ~ lang r (firstn m s)
  end.
Proof.
  induction s as [| c t IH]; intro r.
  - rewrite longest_nil. destruct (nullable r) eqn:N.
    + apply nullable_lang in N. repeat split; [cbn; lia | exact N | cbn; intros; lia].
    + intros m Hm L. cbn in Hm. replace m with 0 in L by lia. cbn [firstn] in L.
      apply nullable_lang in L; congruence.
  - rewrite longest_cons. specialize (IH (deriv c r)). destruct (longest (deriv c r) t) as [n |] eqn:Q.
    + destruct IH as (A & B & C). repeat split.
      * cbn; lia.
      * cbn [firstn]. apply deriv_lang; exact B.
      * intros [| m] Hm L; [lia |]. cbn [firstn] in L. cbn in Hm.
        assert (m <= n); [| lia]. apply C; [lia | apply deriv_lang; exact L].
    + assert (K : forall m, S m <= S (List.length t) -> ~ lang r (firstn (S m) (c :: t))).
      { intros m Hm L. cbn [firstn] in L. apply deriv_lang in L. apply (IH m); [lia | exact L]. }
      destruct (nullable r) eqn:N.
      * repeat split; [lia | cbn [firstn]; apply nullable_lang; exact N |].
        intros [| m] Hm L; [lia |]. exfalso; apply (K m); [cbn in Hm; lia | exact L].
      * intros [| m] Hm L; [| apply (K m); [cbn in Hm; lia | exact L]].
        cbn [firstn] in L. apply nullable_lang in L; congruence.
Qed.

Lemma longest_some r s n : longest r s = Some n <-> is_longest r s n.
Proof.
  split.
  - intro Q; pose proof (longest_spec s r) as H; rewrite Q in H; exact H.
  - intros (A & B & C). pose proof (longest_spec s r) as H.
    destruct (longest r s) as [m |].
    + destruct H as (A' & B' & C'). f_equal. specialize (C m A' B'). specialize (C' n A B). lia.
    + exfalso; exact (H n A B).
Qed.

(** How the patterns are built. *)
Lemma lang_cls f w : lang (RCls f) w <-> exists c, w = [c] /\ f c = true.
Proof.
  split.
  - intro H; inversion H; eauto.
  - intros (c & -> & H); apply l_cls; exact H.
Qed.

Lemma lang_chr c w : lang (chr c) w <-> w = [c].
Proof.
  unfold chr, is. rewrite lang_cls. split.
  - intros (d & -> & E). apply Ascii.eqb_eq in E; subst; reflexivity.
  - intros ->; exists c; split; [reflexivity | apply Ascii.eqb_refl].
Qed.

Lemma lang_seq' a b w : lang (RSeq a b) w <-> exists u v, w = u ++ v /\ lang a u /\ lang b v.
Proof.
  split.
  - intro H; inversion H; subst; eauto.
  - intros (u & v & -> & A & B); apply l_seq; assumption.
Qed.

Lemma lang_alt' a b w : lang (RAlt a b) w <-> lang a w \/ lang b w.
Proof.
  split; [intro H; inversion H; auto | intros [H | H]; [apply l_altl | apply l_altr]; exact H].
Qed.

Lemma lang_lit_ : forall l w, lang (lit_ l) w <-> w = l.
Proof.
  induction l as [| c t IH]; intro w.
  - cbn [lit_]. split; [intro H; inversion H; reflexivity | intros ->; apply l_eps].
  - destruct t as [| d t].
    + apply lang_chr.
    + change (lit_ (c :: d :: t)) with (RSeq (chr c) (lit_ (d :: t))). rewrite lang_seq'. split.
      * intros (u & v & -> & A & B). apply lang_chr in A. apply IH in B. subst; reflexivity.
      * intros ->. exists [c], (d :: t). repeat split; [apply lang_chr; reflexivity | apply IH; reflexivity].
Qed.

Lemma lang_lit s w : lang (lit s) w <-> w = chars s.
Proof. apply lang_lit_. Qed.

Lemma lang_star_cls f w : lang (RStar (RCls f)) w <-> forallb f w = true.
Proof.
  split.
  - intro H; remember (RStar (RCls f)) as r eqn:R; induction H; try discriminate R; [reflexivity |].
    injection R as ->. rewrite forallb_app, IHlang2 by reflexivity.
    apply lang_cls in H; destruct H as (c & -> & E); cbn. rewrite E; reflexivity.
  - induction w as [| c w IH]; cbn [forallb]; [intros _; apply l_nil |].
    rewrite andb_true_iff; intros [A B].
    change (c :: w) with ([c] ++ w); apply l_star; [apply l_cls; exact A | auto].
Qed.

Lemma lang_plus_cls f w : lang (plus (RCls f)) w <-> w <> [] /\ forallb f w = true.
Proof.
  unfold plus; rewrite lang_seq'; split.
  - intros (u & v & -> & A & B). apply lang_cls in A; destruct A as (c & -> & E).
    apply lang_star_cls in B. split; [discriminate | cbn; rewrite E; exact B].
  - intros [A B]. destruct w as [| c w]; [contradiction |]. cbn [forallb] in B.
    apply andb_true_iff in B; destruct B as [B C].
    exists [c], w; repeat split; [apply l_cls; exact B | apply lang_star_cls; exact C].
Qed.

(** A property of all characters of all texts of a pattern. *)
Fixpoint every (ok : (ascii -> bool) -> bool) (r : re) : bool :=
  match r with
  | RNone | REps => true
  | RCls f => ok f
  | RAlt a b | RSeq a b => every ok a && every ok b
  | RStar a => every ok a
  end.

(** No class of the pattern has the character [c]. *)
Definition avoids (c : ascii) (r : re) : bool := every (fun f => negb (f c)) r.

Lemma avoids_lang c r w : lang r w -> avoids c r = true -> ~ In c w.
Proof.
  unfold avoids; induction 1; cbn [every]; intros E J.
  - exact J.
  - destruct J as [-> | []]. rewrite H in E; discriminate.
  - apply andb_true_iff in E; destruct E; tauto.
  - apply andb_true_iff in E; destruct E; tauto.
  - apply andb_true_iff in E; destruct E. apply in_app_or in J; destruct J; tauto.
  - exact J.
  - apply in_app_or in J; destruct J; tauto.
Qed.
