(** Proofs: the tokens of a file, stored with line directives, are the tokens of the same
    file with these directives in front of its codes; such a file is read alike. *)
From Coq Require Import List NArith Ascii String Bool PeanoNat Lia.
From Verif Require Import FlexModel ScanModel ScanSpec DeclModel GramModel GramSpec WriteSpec WriteFileSpec WriteProofs.
Import ListNotations.

Section C.
Variable cfg : config.
Notation ST := (Forall2 (stored cfg)).
Notation K := (copied cfg).

(** ** Tokens *)
Lemma stored_c x us : ST (c x) us -> us = c x.
Proof.
  intro H. inversion H as [| a [b v] l l' S F]; subst. inversion F; subst. destruct S as (E & _ & N). cbn [fst snd] in *. subst b.
  unfold c. rewrite N; [reflexivity |]. intros [J | J]; discriminate J.
Qed.
Lemma stored_t n v us : n <> "T_CODE"%string -> n <> "T_RULE_ARGUMENTS"%string -> ST (t n v) us -> us = t n v.
Proof.
  intros N1 N2 H. inversion H as [| a [b w] l l' S F]; subst. inversion F; subst. destruct S as (E & _ & N). cbn [fst snd] in *. subst b.
  unfold t. rewrite N; [reflexivity |]. intros [J | J]; injection J as J; contradiction.
Qed.
Lemma stored_k n us : n <> "T_CODE"%string -> n <> "T_RULE_ARGUMENTS"%string -> ST (k n) us -> us = k n.
Proof. apply (stored_t n []). Qed.
Lemma stored_code v us : ST (code v) us -> exists w, K v w /\ us = code w.
Proof.
  intro H. inversion H as [| a [b w] l l' S F]; subst. inversion F; subst. destruct S as (E & C & _). cbn [fst snd] in *. subst b.
  exists w. split; [apply C; left; reflexivity | reflexivity].
Qed.
Lemma stored_args v us : ST (t "T_RULE_ARGUMENTS" v) us -> exists w, K v w /\ us = t "T_RULE_ARGUMENTS" w.
Proof.
  intro H. inversion H as [| a [b w] l l' S F]; subst. inversion F; subst. destruct S as (E & C & _). cbn [fst snd] in *. subst b.
  exists w. split; [apply C; right; reflexivity | reflexivity].
Qed.
Lemma stored_nil us : ST [] us -> us = [].
Proof. intro H. inversion H. reflexivity. Qed.

Ltac plain_token H :=
  first [apply stored_c in H | apply stored_k in H; [| discriminate | discriminate] | apply stored_t in H; [| discriminate | discriminate] | apply stored_nil in H]; subst.
Ltac parts_of :=
  repeat match goal with
  | H : ST (_ ++ _) _ |- _ => apply Forall2_app_inv_l in H; destruct H as (? & ? & ? & ? & ?); subst
  | H : ST (c _) _ |- _ => plain_token H
  | H : ST (k _) _ |- _ => plain_token H
  | H : ST (t _ _) _ |- _ => plain_token H
  | H : ST [] _ |- _ => plain_token H
  | H : ST (code _) _ |- _ => apply stored_code in H; destruct H as (? & ? & ?); subst
  end.

Definition shows {A} (R : A -> A -> Prop) (show : A -> tokens_) (x : A) : Prop :=
  forall us, ST (show x) us -> exists y, R x y /\ us = show y.
Lemma shows_opt {A} (R : A -> A -> Prop) show (o : option A) : (forall x, shows R show x) -> shows (both R) (opt show) o.
Proof.
  intros S us H. destruct o as [x |]; cbn [opt] in H.
  - destruct (S x us H) as (y & Y & ->). exists (Some y). auto.
  - plain_token H. exists None. split; [exact I | reflexivity].
Qed.
Lemma shows_code x : shows K code x.
Proof. intros us H. exact (stored_code x us H). Qed.
Lemma shows_list {A} (R : A -> A -> Prop) show (l : list A) : (forall x, In x l -> shows R show x) -> shows (Forall2 R) (flat_map show) l.
Proof.
  induction l as [| x l IH]; intros S us H; cbn [flat_map] in H.
  - plain_token H. exists []. split; [constructor | reflexivity].
  - parts_of. match goal with H1 : ST (show x) _, H2 : ST (flat_map _ _) _ |- _ => destruct (S x (or_introl eq_refl) _ H1) as (y & Y & ->); destruct (IH (fun z J => S z (or_intror J)) _ H2) as (l' & L & ->) end.
    exists (y :: l'). split; [constructor; assumption | reflexivity].
Qed.
(** Tokens without code are themselves. *)
Definition codeless (l : tokens_) : Prop := forall us, ST l us -> us = l.
Lemma codeless_app a b : codeless a -> codeless b -> codeless (a ++ b).
Proof. intros A B us H. apply Forall2_app_inv_l in H. destruct H as (u & v & H1 & H2 & ->). rewrite (A _ H1), (B _ H2). reflexivity. Qed.
Lemma codeless_c x : codeless (c x).
Proof. intros us H. exact (stored_c x us H). Qed.
Lemma codeless_t n v : n <> "T_CODE"%string -> n <> "T_RULE_ARGUMENTS"%string -> codeless (t n v).
Proof. intros A B us H. exact (stored_t n v us A B H). Qed.
Lemma codeless_inside l r n m x : codeless x -> codeless (inside l r n m x).
Proof. intro C. unfold inside. destruct (Nat.ltb m n); [| exact C]. apply codeless_app; [apply codeless_c |]. apply codeless_app; [exact C | apply codeless_c]. Qed.
Ltac codeless_tac := repeat first [assumption | apply codeless_app | apply codeless_c | apply codeless_inside | solve [intros us H; plain_token H; reflexivity]].
Lemma r_codeless : forall x, codeless (rshow x)
with a_codeless : forall x, codeless (ashow x).
Proof.
  - intros [v | v | v | | | y | a | y z | y | y | y z | y z | y | y | y z | y z | y | y]; cbn [rshow]; try (pose proof (r_codeless y)); try (pose proof (r_codeless z)); try (pose proof (a_codeless a)); clear r_codeless a_codeless; codeless_tac.
  - intros [v | v | v | v | | | y | a | y z | y z | y z | y | y | y z | y z | y | y]; cbn [ashow]; try (pose proof (r_codeless y)); try (pose proof (a_codeless y)); try (pose proof (a_codeless z)); try (pose proof (a_codeless a)); clear r_codeless a_codeless; codeless_tac.
Qed.

(** ** Rules *)
Lemma atom_shows a : shows (atom_with K) ashow_atom a.
Proof.
  intros us H. destruct a as [x | x args]; cbn [ashow_atom] in H.
  - plain_token H. exists (ATok x). split; reflexivity.
  - parts_of. match goal with H : ST (opt _ _) _ |- _ => destruct (shows_opt K _ args stored_args _ H) as (u & U & ->) end.
    exists (ASym x u). split; [split; [reflexivity | exact U] | reflexivity].
Qed.
Lemma with_level i j : i_with K i j -> ilevel j = ilevel i /\ code_first j = code_first i.
Proof. induction 1 as [| | | | | | | | | | i j i' j' H1 [L1 C1] H2 [L2 C2] | i j x y H1 [L1 C1] H2 | | | |]; cbn [ilevel code_first]; rewrite ?L1, ?C1; auto. Qed.
Lemma inside_shows n i : shows (i_with K) ishow i -> forall us, ST (inside "(" ")" n (ilevel i) (ishow i)) us -> exists j, i_with K i j /\ us = inside "(" ")" n (ilevel j) (ishow j).
Proof.
  intros S us H. unfold inside in *. destruct (Nat.ltb (ilevel i) n) eqn:L.
  - parts_of. match goal with H : ST (ishow i) _ |- _ => destruct (S _ H) as (j & J & ->) end. exists j. split; [exact J |]. rewrite (proj1 (with_level _ _ J)), L. reflexivity.
  - destruct (S _ H) as (j & J & ->). exists j. split; [exact J |]. rewrite (proj1 (with_level _ _ J)), L. reflexivity.
Qed.
Ltac sub_items :=
  repeat match goal with
  | H : ST (inside _ _ _ (ilevel ?i) (ishow ?i)) _, S : shows (i_with K) ishow ?i |- _ => apply (inside_shows _ _ S) in H; destruct H as (? & ? & ?); subst
  | H : ST (ishow ?i) _, S : shows (i_with K) ishow ?i |- _ => apply S in H; destruct H as (? & ? & ?); subst
  | H : ST (ashow_atom ?a) _ |- _ => apply atom_shows in H; destruct H as (? & ? & ?); subst
  end.
Lemma i_shows i : shows (i_with K) ishow i.
Proof.
  induction i as [| a | x | s m x a | i IHi | i IHi | i IHi j IHj | i IHi | i IHi | i IHi | i IHi j IHj | i IHi x | x | i IHi j IHj | x i IHi | i IHi j IHj];
    intros us H; cbn [ishow] in H.
  - plain_token H. exists IEmpty. split; [constructor | reflexivity].
  - sub_items. eexists (IAtom _). split; [constructor; eassumption | reflexivity].
  - parts_of. exists (IInlined x). split; [constructor | reflexivity].
  - destruct s; parts_of; sub_items; eexists (IBind _ m x _); (split; [constructor; eassumption | reflexivity]).
  - parts_of. sub_items. eexists (IPar _). split; [constructor; eassumption | reflexivity].
  - parts_of. sub_items. eexists (IRecover _). split; [constructor; eassumption | reflexivity].
  - parts_of. sub_items. eexists (IRollback _ _). split; [constructor; eassumption | reflexivity].
  - parts_of. sub_items. eexists (IMany _). split; [constructor; eassumption | reflexivity].
  - parts_of. sub_items. eexists (IAnyMany _). split; [constructor; eassumption | reflexivity].
  - parts_of. sub_items. eexists (IMaybe _). split; [constructor; eassumption | reflexivity].
  - parts_of. sub_items. eexists (IListOf _ _). split; [constructor; eassumption | reflexivity].
  - parts_of. sub_items. eexists (IWithCode _ _). split; [constructor; eassumption | reflexivity].
  - parts_of. eexists (IOnlyCode _). split; [constructor; eassumption | reflexivity].
  - parts_of. sub_items. destruct (code_first j) eqn:CF; parts_of; sub_items; eexists (IThen _ _); (split; [constructor; eassumption |]); cbn [ishow];
      match goal with W : i_with K j _ |- _ => rewrite (proj2 (with_level _ _ W)), CF end; reflexivity.
  - parts_of. sub_items. eexists (IWhen _ _). split; [constructor; eassumption | reflexivity].
  - parts_of. sub_items. eexists (IOr _ _). split; [constructor; eassumption | reflexivity].
Qed.
Ltac split_if := match goal with H : context [if ?b then _ else _] |- _ => destruct b end.
Lemma v_codeless d : codeless (vshow d).
Proof.
  unfold vshow. repeat apply codeless_app; try (destruct (varg d)); try (destruct (vmem d)); try (destruct (vseq d)); try (destruct (vtyp d) as [[[|] x] |]); codeless_tac.
Qed.
Lemma vars_codeless d l : codeless (vars_show d l).
Proof.
  unfold vars_show. apply codeless_app; [apply codeless_c |]. apply codeless_app; [| apply codeless_c].
  generalize (d :: l). clear d l. induction l as [| d l IH]; cbn [flat_map]; [codeless_tac |]. apply codeless_app; [apply v_codeless | exact IH].
Qed.
Lemma foot_shows f : shows (foot_with K) foot_show f.
Proof.
  intros us H. destruct f as [x | d l x | x d l]; cbn [foot_show] in H.
  - destruct (shows_opt K code x shows_code us H) as (y & Y & ->). exists (FootCode y). auto.
  - parts_of. match goal with H1 : ST (vars_show d l) _, H2 : ST (opt _ _) _ |- _ => apply vars_codeless in H1; destruct (shows_opt K code x shows_code _ H2) as (y & Y & ->); subst end.
    exists (VarsCode d l y). split; [repeat split; assumption | reflexivity].
  - parts_of. match goal with H1 : ST (vars_show d l) _ |- _ => apply vars_codeless in H1; subst end.
    eexists (CodeVars _ d l). split; [repeat split; eassumption | reflexivity].
Qed.
Lemma o_shows o : shows (o_with K) oshow o.
Proof.
  intros us H. unfold oshow in H. parts_of.
  repeat match goal with H : ST (opt code _) _ |- _ => apply (shows_opt K code _ shows_code) in H; destruct H as (? & ? & ?); subst end.
  assert (S : forall x, shows K (fun x => c "?" ++ code x) x).
  { intros v vs H'. parts_of. eexists. split; [eassumption | reflexivity]. }
  match goal with H : ST (opt _ (ocond o)) _ |- _ => apply (shows_opt K _ _ S) in H; destruct H as (? & ? & ?); subst end.
  eexists (Op _ (otok o) _). split; [repeat split; eassumption | reflexivity].
Qed.
Lemma p_shows p : shows (p_with K) pshow p.
Proof.
  intros us H. destruct p as [| x | x]; cbn [pshow] in H; parts_of.
  - exists PZero. split; [exact I | reflexivity].
  - exists (PNumber x). split; reflexivity.
  - eexists (PCode _). split; [eassumption | reflexivity].
Qed.
Lemma s_shows a : shows (s_with K) sshow a.
Proof.
  intros us H. destruct a as [| | x | x]; cbn [sshow] in H; parts_of.
  - exists Left. split; [exact I | reflexivity].
  - exists Right. split; [exact I | reflexivity].
  - eexists (IsLeft _). split; [eassumption | reflexivity].
  - eexists (IsRight _). split; [eassumption | reflexivity].
Qed.
Ltac conj_ := cbn [ops_with rule_with l_with d_with]; unfold file_with; cbn [head_ tail_ rules_]; repeat match goal with |- _ /\ _ => split end; try reflexivity; try eassumption.
Lemma ops_shows o : shows (ops_with K) ops_show o.
Proof.
  intros us H. destruct o as [o p a | o q p a | o p | o p a | o q]; cbn [ops_show] in H; parts_of;
  repeat match goal with
  | H : ST (oshow _) _ |- _ => apply o_shows in H; destruct H as (? & ? & ?); subst
  | H : ST (pshow _) _ |- _ => apply p_shows in H; destruct H as (? & ? & ?); subst
  | H : ST (sshow _) _ |- _ => apply s_shows in H; destruct H as (? & ? & ?); subst
  | H : ST (opt sshow _) _ |- _ => apply (shows_opt _ sshow _ s_shows) in H; destruct H as (? & ? & ?); subst
  end.
  - eexists (OBin _ _ _). split; [conj_ | reflexivity].
  - eexists (OTern _ _ _ _). split; [conj_ | reflexivity].
  - eexists (OPre _ _). split; [conj_ | reflexivity].
  - eexists (OPost _ _ _). split; [conj_ | reflexivity].
  - eexists (OParen _ _). split; [conj_ | reflexivity].
Qed.
Lemma rule_shows r : shows (rule_with K) rule_show r.
Proof.
  intros us H. destruct r as [i x f | b u l x f]; cbn [rule_show] in H; parts_of;
  repeat match goal with
  | H : ST (ishow _) _ |- _ => apply i_shows in H; destruct H as (? & ? & ?); subst
  | H : ST (foot_show _) _ |- _ => apply foot_shows in H; destruct H as (? & ? & ?); subst
  | H : ST (flat_map ops_show _) _ |- _ => apply (shows_list (ops_with K) ops_show _ (fun x _ => ops_shows x)) in H; destruct H as (? & ? & ?); subst
  end.
  - eexists (RRule _ x _). split; [conj_ | reflexivity].
  - match goal with H : ST (ashow_atom _) _ |- _ => apply atom_shows in H; destruct H as ([y | y v] & A & ?); [destruct A | destruct A as (<- & U)]; subst end.
    eexists (ROperators b _ _ x _). split; [conj_ | reflexivity].
Qed.

(** ** Lexers, declarations *)
Lemma action_codeless a : codeless (lashow a).
Proof. destruct a; cbn [lashow]; codeless_tac. Qed.
Lemma l_shows s : shows (l_with K) lshow s.
Proof.
  intros us H. destruct s as [x n | x o a | x y o a | x y o a | v | v | v]; cbn [lshow] in H; parts_of;
  repeat match goal with
  | H : ST (rshow _) _ |- _ => apply r_codeless in H; subst
  | H : ST (lashow _) _ |- _ => apply action_codeless in H; subst
  | H : ST (opt code _) _ |- _ => apply (shows_opt K code _ shows_code) in H; destruct H as (? & ? & ?); subst
  end.
  - exists (LDefine x n). split; [split; reflexivity | reflexivity].
  - eexists (LRule x _ a). split; [conj_ | reflexivity].
  - eexists (LLook x y _ a). split; [conj_ | reflexivity].
  - eexists (LBar x y _ a). split; [conj_ | reflexivity].
  - eexists (LFail _). split; [eassumption | reflexivity].
  - eexists (LEnter _). split; [eassumption | reflexivity].
  - eexists (LLeave _). split; [eassumption | reflexivity].
Qed.
Lemma token_codeless x : codeless (token_show x).
Proof. unfold token_show. destruct x as [x [d |]]; cbn [fst snd opt]; codeless_tac. Qed.
Lemma tokens_codeless l : codeless (flat_map (fun y => c "," ++ token_show y) l).
Proof. induction l as [| y l IH]; cbn [flat_map]; [codeless_tac |]. apply codeless_app; [apply codeless_app; [apply codeless_c | apply token_codeless] | exact IH]. Qed.
Lemma class_codeless b : codeless (class_show b).
Proof. unfold class_show. destruct b; codeless_tac. Qed.
Lemma member_codeless m : codeless (member_show m).
Proof. destruct m; cbn [member_show]; codeless_tac. Qed.
Lemma set_codeless s v : codeless (k (set_show s) ++ t "T_STRING" v).
Proof. destruct s; cbn [set_show]; codeless_tac. Qed.
Lemma d_shows d : shows (d_with K) dshow d.
Proof.
  intros us H. destruct d as [b m v | b v | x l | [[|] |] v | x | s v | v | v | x v | e l]; cbn [dshow] in H;
  try (match goal with |- context [DSet s v] => apply set_codeless in H; subst; exists (DSet s v); split; reflexivity end); parts_of;
  repeat match goal with
  | H : ST (class_show _) _ |- _ => apply class_codeless in H; subst
  | H : ST (member_show _) _ |- _ => apply member_codeless in H; subst
  | H : ST (token_show _) _ |- _ => apply token_codeless in H; subst
  | H : ST (flat_map (fun y => _) _) _ |- _ => apply tokens_codeless in H; subst
  | H : ST (flat_map lshow _) _ |- _ => apply (shows_list (l_with K) lshow _ (fun x _ => l_shows x)) in H; destruct H as (? & ? & ?); subst
  end.
  - eexists (DMember b m _). split; [conj_ | reflexivity].
  - eexists (DBits b _). split; [conj_ | reflexivity].
  - exists (DTokens x l). split; reflexivity.
  - exists (DType (Some true) v). split; reflexivity.
  - exists (DType (Some false) v). split; reflexivity.
  - exists (DType None v). split; reflexivity.
  - exists (DStream x). split; reflexivity.
  - eexists (DNamespace _). split; [eassumption | reflexivity].
  - eexists (DAst _). split; [eassumption | reflexivity].
  - exists (DBase x v). split; reflexivity.
  - assert (CE : codeless (opt (t "T_STRING") e)) by (destruct e; [apply (codeless_t "T_STRING"); discriminate | exact stored_nil]).
    match goal with H : ST (opt _ e) _ |- _ => apply CE in H; subst end.
    eexists (DLexer e _). split; [split; [reflexivity | eassumption] | reflexivity].
Qed.
Theorem file_shows f : shows (file_with K) file_show f.
Proof.
  intros us H. unfold file_show in H. parts_of.
  repeat match goal with
  | H : ST (opt code _) _ |- _ => apply (shows_opt K code _ shows_code) in H; destruct H as (? & ? & ?); subst
  | H : ST (flat_map dshow _) _ |- _ => apply (shows_list (d_with K) dshow _ (fun x _ => d_shows x)) in H; destruct H as (? & ? & ?); subst
  | H : ST (flat_map rule_show _) _ |- _ => apply (shows_list (rule_with K) rule_show _ (fun x _ => rule_shows x)) in H; destruct H as (? & ? & ?); subst
  end.
  match goal with H : Forall2 (d_with K) (all_decls f) ?l |- _ => destruct l as [| d0 l0]; [inversion H |] end.
  eexists (File _ d0 l0 _ _). split; [conj_ | reflexivity].
Qed.
End C.
