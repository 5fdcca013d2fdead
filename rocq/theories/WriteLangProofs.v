(** Proofs: files that differ in code only are read alike and describe the same language. *)
From Coq Require Import List NArith Ascii String Bool PeanoNat Relations Lia.
From Verif Require Import FlexModel ScanModel DeclModel GramModel GramSpec WriteFileSpec EmitSpec LangProofs LangSpec.
Import ListNotations.
Open Scope list_scope.

Definition whatever (_ _ : text) : Prop := True.
Notation like := (i_with whatever).
Notation alike := (file_with whatever).

Lemma both_any {A} (R S : A -> A -> Prop) x y : (forall a b, R a b -> S a b) -> both R x y -> both S x y.
Proof. intros I. destruct x, y; cbn [both]; auto. Qed.
Lemma both_sym {A} (R S : A -> A -> Prop) x y : (forall a b, R a b -> S b a) -> both R x y -> both S y x.
Proof. intros I. destruct x, y; cbn [both]; auto. Qed.
Lemma forall2_weak {A B} (R S : A -> B -> Prop) l m : (forall a b, R a b -> S a b) -> Forall2 R l m -> Forall2 S l m.
Proof. intro I. induction 1; constructor; auto. Qed.
Lemma forall2_sym {A} (R S : A -> A -> Prop) l m : (forall a b, R a b -> S b a) -> Forall2 R l m -> Forall2 S m l.
Proof. intro I. induction 1; constructor; auto. Qed.
Lemma forall2_in_r {A B} (R : A -> B -> Prop) l m y : Forall2 R l m -> In y m -> exists x, In x l /\ R x y.
Proof. induction 1 as [| a b l m H F IH]; [intros [] |]. intros [<- | J]; [exists a; split; [left; reflexivity | exact H] |]. destruct (IH J) as (x & X & Y). exists x. split; [right; exact X | exact Y]. Qed.
Lemma forall2_in_l {A B} (R : A -> B -> Prop) l m x : Forall2 R l m -> In x l -> exists y, In y m /\ R x y.
Proof. induction 1 as [| a b l m H F IH]; [intros [] |]. intros [<- | J]; [exists b; split; [left; reflexivity | exact H] |]. destruct (IH J) as (y & X & Y). exists y. split; [right; exact X | exact Y]. Qed.

(** ** The relation *)
Section W.
Variables K K' : text -> text -> Prop.
Hypothesis IM : forall x y, K x y -> K' x y.
Lemma atom_weak a b : atom_with K a b -> atom_with K' a b.
Proof. destruct a, b; cbn [atom_with]; auto. intros [E B]. split; [exact E | exact (both_any _ _ _ _ IM B)]. Qed.
Lemma i_weak i j : i_with K i j -> i_with K' i j.
Proof. induction 1; constructor; auto using atom_weak. Qed.
Lemma foot_weak f g : foot_with K f g -> foot_with K' f g.
Proof. destruct f, g; cbn [foot_with]; auto; intuition; eauto using both_any. Qed.
Lemma o_weak o p : o_with K o p -> o_with K' o p.
Proof. intros (A & B & C). repeat split; eauto using both_any. Qed.
Lemma p_weak o p : p_with K o p -> p_with K' o p.
Proof. destruct o, p; cbn [p_with]; auto. Qed.
Lemma s_weak o p : s_with K o p -> s_with K' o p.
Proof. destruct o, p; cbn [s_with]; auto. Qed.
Lemma ops_weak o p : ops_with K o p -> ops_with K' o p.
Proof. destruct o, p; cbn [ops_with]; intuition eauto using o_weak, p_weak, s_weak, both_any. Qed.
Lemma rule_weak r s : rule_with K r s -> rule_with K' r s.
Proof.
  destruct r, s; cbn [rule_with]; auto; intuition eauto using i_weak, foot_weak, both_any.
  eapply forall2_weak; [exact ops_weak | assumption].
Qed.
Lemma l_weak r s : WriteFileSpec.l_with K r s -> WriteFileSpec.l_with K' r s.
Proof. destruct r, s; cbn [WriteFileSpec.l_with]; auto; intuition eauto using both_any. Qed.
Lemma d_weak r s : d_with K r s -> d_with K' r s.
Proof. destruct r, s; cbn [d_with]; auto; intuition eauto. eapply forall2_weak; [exact l_weak | assumption]. Qed.
Lemma file_weak f g : file_with K f g -> file_with K' f g.
Proof.
  intros (A & B & C & D). split; [exact (both_any _ _ _ _ IM A) |]. split; [exact (forall2_weak _ _ _ _ d_weak B) |].
  split; [exact (forall2_weak _ _ _ _ rule_weak C) | exact (both_any _ _ _ _ IM D)].
Qed.
End W.
Section Y.
Notation W := whatever.
Lemma any_sym x y : W x y -> W y x.
Proof. intros _. exact I. Qed.
Lemma atom_sym a b : atom_with W a b -> atom_with W b a.
Proof. destruct a, b; cbn [atom_with]; auto. intros [E B]. split; [congruence | exact (both_sym _ _ _ _ any_sym B)]. Qed.
Lemma i_sym i j : i_with W i j -> i_with W j i.
Proof. induction 1; constructor; auto using atom_sym, any_sym. Qed.
Lemma foot_sym f g : foot_with W f g -> foot_with W g f.
Proof. destruct f, g; cbn [foot_with]; auto; intuition; eauto using both_sym, any_sym. Qed.
Lemma o_sym o p : o_with W o p -> o_with W p o.
Proof. intros (A & B & C). repeat split; [| congruence |]; eapply both_sym; eauto using any_sym. Qed.
Lemma p_sym o p : p_with W o p -> p_with W p o.
Proof. destruct o, p; cbn [p_with]; auto using any_sym. Qed.
Lemma s_sym o p : s_with W o p -> s_with W p o.
Proof. destruct o, p; cbn [s_with]; auto using any_sym. Qed.
Lemma ops_sym o p : ops_with W o p -> ops_with W p o.
Proof. destruct o, p; cbn [ops_with]; intuition eauto using o_sym, p_sym, s_sym, both_sym. Qed.
Lemma rule_sym r s : rule_with W r s -> rule_with W s r.
Proof.
  destruct r, s; cbn [rule_with]; auto; intuition eauto using i_sym, foot_sym, both_sym, any_sym.
  eapply forall2_sym; [exact ops_sym | assumption].
Qed.
Lemma lexer_sym r s : WriteFileSpec.l_with W r s -> WriteFileSpec.l_with W s r.
Proof. destruct r, s; cbn [WriteFileSpec.l_with]; auto; intuition eauto using both_sym, any_sym. Qed.
Lemma d_sym r s : d_with W r s -> d_with W s r.
Proof. destruct r, s; cbn [d_with]; auto; intuition eauto using any_sym. eapply forall2_sym; [exact lexer_sym | assumption]. Qed.
Lemma file_sym f g : file_with W f g -> file_with W g f.
Proof.
  intros (A & B & C & D). split; [exact (both_sym _ _ _ _ any_sym A) |]. split; [exact (forall2_sym _ _ _ _ d_sym B) |].
  split; [exact (forall2_sym _ _ _ _ rule_sym C) | exact (both_sym _ _ _ _ any_sym D)].
Qed.
End Y.

(** ** Reading *)
Lemma like_atom a b : atom_with whatever a b -> atom_symbols b = atom_symbols a /\ atom_tokens b = atom_tokens a.
Proof. destruct a, b; cbn [atom_with]; try contradiction; [intros -> | intros [-> _]]; split; reflexivity. Qed.
Lemma like_same i j : like i j -> symbols_of j = symbols_of i /\ tokens_of j = tokens_of i /\ has_try j = has_try i /\ plain j = plain i /\ lists_plain j = lists_plain i /\ only_code j = only_code i.
Proof.
  induction 1; cbn [symbols_of tokens_of has_try plain lists_plain only_code];
    repeat match goal with H : _ /\ _ |- _ => destruct H as [? H] | H : atom_with _ _ _ |- _ => apply like_atom in H end;
    repeat match goal with H : _ = _ |- _ => rewrite H; clear H end; repeat split; reflexivity.
Qed.
Lemma like_only i j : like i j -> only_code j = only_code i.
Proof. intro L. apply (like_same i j L). Qed.
Lemma like_ops o p : ops_with whatever o p -> operator_tokens p = operator_tokens o /\ ops_ok p = ops_ok o.
Proof.
  destruct o, p; cbn [ops_with]; try contradiction; cbn [operator_tokens ops_ok]; intro H; repeat match goal with H : _ /\ _ |- _ => destruct H end;
    repeat match goal with H : o_with _ _ _ |- _ => destruct H as (_ & -> & _) end; split; try reflexivity.
  match goal with |- context [OPost _ ?q] => idtac | _ => idtac end.
  match goal with A : p_with _ ?x ?y, B : both _ ?u ?v |- _ => destruct x, y; cbn [p_with] in A; try contradiction; destruct u, v; cbn [both] in B; try contradiction; reflexivity end.
Qed.
Lemma like_ops_all l m : Forall2 (ops_with whatever) l m -> flat_map operator_tokens m = flat_map operator_tokens l /\ forallb ops_ok m = forallb ops_ok l.
Proof. induction 1 as [| a b l m H F [I1 I2]]; cbn [flat_map forallb]; [auto |]. destruct (like_ops _ _ H) as [-> ->]. rewrite I1, I2. auto. Qed.
Lemma like_rule ast r s : rule_with whatever r s -> rule_ok ast s = rule_ok ast r /\ rule_symbols s = rule_symbols r /\ rule_tokens s = rule_tokens r /\ rule_name s = rule_name r.
Proof.
  destruct r, s; cbn [rule_with]; try contradiction; cbn [rule_ok rule_symbols rule_tokens rule_name].
  - intros (L & <- & _). destruct (like_same _ _ L) as (-> & -> & _ & _ & -> & _). auto.
  - intros (<- & _ & L & <- & _). destruct (like_ops_all _ _ L) as [-> ->]. auto.
Qed.
Lemma like_lexer e l s s' : WriteFileSpec.l_with whatever s s' -> forall a n, lmeans e l s = Some (a, n) -> exists a', lmeans e l s' = Some (a', n).
Proof.
  destruct s, s'; cbn [WriteFileSpec.l_with]; try contradiction; intros W ev m; cbn [lmeans]; repeat match goal with H : _ /\ _ |- _ => destruct H end; subst;
    repeat match goal with |- context [rmeans ?n ?x] => destruct (rmeans n x) end; cbn [option_map]; intro E; try discriminate E; injection E as _ <-; eexists; reflexivity.
Qed.
Lemma like_lexers e s s' : Forall2 (WriteFileSpec.l_with whatever) s s' -> forall l a n, lmeans_all e l s = Some (a, n) -> exists a', lmeans_all e l s' = Some (a', n).
Proof.
  induction 1 as [| x y s s' H F IH]; intros l a n; cbn [lmeans_all]; [intro E; injection E as _ <-; eauto |].
  destruct (lmeans e l x) as [[b m] |] eqn:E1; [| discriminate]. destruct (like_lexer _ _ _ _ H _ _ E1) as (b' & ->).
  destruct (lmeans_all e m s) as [[d o] |] eqn:E2; [| discriminate]. destruct (IH _ _ _ E2) as (d' & ->). intro E. injection E as _ <-. eauto.
Qed.
Lemma like_decl d d' : d_with whatever d d' -> dtokens d' = dtokens d /\ GramSpec.dtype d' = GramSpec.dtype d /\ is_lexer d' = is_lexer d /\ is_type d' = is_type d /\
  forall l a n, dmeans l d = Some (a, n) -> exists a', dmeans l d' = Some (a', n).
Proof.
  destruct d, d'; cbn [d_with]; try contradiction; intro W; repeat match goal with H : _ /\ _ |- _ => destruct H end;
    try match goal with H : @eq dsrc _ _ |- _ => rewrite H end; (split; [reflexivity |]); (split; [reflexivity |]); (split; [reflexivity |]); (split; [reflexivity |]); eauto;
    intros l1 a n; cbn [dmeans]; try (intro E; injection E as _ <-; eauto; fail).
  subst. match goal with |- context [lmeans_all ?e ?l ?s] => destruct (lmeans_all e l s) as [[b m] |] eqn:E1; [| discriminate] end.
  match goal with H : Forall2 _ _ _ |- _ => destruct (like_lexers _ _ _ H _ _ _ E1) as (b' & ->) end. intro E. injection E as _ <-. eauto.
Qed.
Lemma like_decls l m : Forall2 (d_with whatever) l m -> flat_map dtokens m = flat_map dtokens l /\ flat_map GramSpec.dtype m = flat_map GramSpec.dtype l /\
  forallb (fun d => negb (is_type d)) m = forallb (fun d => negb (is_type d)) l /\ types_first m = types_first l /\
  forall n a o, dmeans_all n l = Some (a, o) -> exists a', dmeans_all n m = Some (a', o).
Proof.
  induction 1 as [| d d' l m H F (I1 & I2 & I3 & I4 & I5)]; cbn [flat_map forallb types_first].
  - repeat split. eauto.
  - destruct (like_decl _ _ H) as (-> & -> & -> & -> & M). rewrite I1, I2, I3, I4. repeat split. intros n a o. cbn [dmeans_all].
    destruct (dmeans n d) as [[b p] |] eqn:E1; [| discriminate]. destruct (M _ _ _ E1) as (b' & ->).
    destruct (dmeans_all p l) as [[e q] |] eqn:E2; [| discriminate]. destruct (I5 _ _ _ E2) as (e' & ->). intro E. injection E as _ <-. eauto.
Qed.
Theorem alike_readable ast f g : alike f g -> readable ast f -> readable ast g.
Proof.
  intros (_ & D & R & _) (A & B & C & E). destruct (like_decls _ _ D) as (_ & T & _ & TF & M). unfold readable. rewrite T, TF.
  split; [destruct A as ([a n] & A); destruct (M _ _ _ A) as (a' & ->); eauto |]. split; [exact B |]. split; [exact C |].
  rewrite <- E. clear - R. induction R as [| r s l m H F IH]; [reflexivity |]. cbn [forallb]. rewrite IH, (proj1 (like_rule ast _ _ H)). reflexivity.
Qed.
Lemma alike_tokens f g : alike f g -> file_tokens g = file_tokens f.
Proof. intros (_ & D & _). exact (proj1 (like_decls _ _ D)). Qed.
Lemma alike_symbols f g : alike f g -> flat_map rule_symbols (rules_ g) = flat_map rule_symbols (rules_ f).
Proof. intros (_ & _ & R & _). induction R as [| r s l m H F IH]; [reflexivity |]. cbn [flat_map]. rewrite IH. destruct (like_rule true _ _ H) as (_ & -> & _). reflexivity. Qed.

Lemma alike_lexer f g : alike f g -> existsb is_lexer (all_decls g) = existsb is_lexer (all_decls f).
Proof. intros (_ & D & _). induction D as [| d d' l m H F IH]; [reflexivity |]. cbn [existsb]. rewrite IH. destruct (like_decl _ _ H) as (_ & _ & -> & _). reflexivity. Qed.
Lemma alike_base f g x : alike f g -> file_base g x = file_base f x.
Proof.
  intros (_ & D & R & _). unfold file_base.
  assert (E1 : flat_map dbase (all_decls g) = flat_map dbase (all_decls f)).
  { induction D as [| d d' l m H F IH]; [reflexivity |]. cbn [flat_map]. rewrite IH. f_equal. destruct d, d'; cbn [d_with] in H; try contradiction; try reflexivity. rewrite H. reflexivity. }
  assert (E2 : flat_map operator_base (rules_ g) = flat_map operator_base (rules_ f)).
  { clear D E1. induction R as [| r s l m H F IH]; [reflexivity |]. cbn [flat_map]. rewrite IH. f_equal. destruct r, s; cbn [rule_with] in H; try contradiction; try reflexivity.
    destruct H as (-> & _ & _ & -> & _). reflexivity. }
  rewrite E1, E2. reflexivity.
Qed.

(** ** Language *)
Lemma parts_like i j : like i j -> Forall2 like (parts i) (parts j).
Proof. induction 1; cbn [parts]; constructor; try (constructor; assumption); auto using Forall2_app; constructor. Qed.

Section L.
Variables f g : file.
Hypothesis A : alike f g.
Lemma rule_there r : In r (rules_ f) -> exists s, In s (rules_ g) /\ rule_with whatever r s.
Proof. destruct A as (_ & _ & R & _). exact (forall2_in_l _ _ _ _ R). Qed.
Lemma plain_rule i x ft : In (RRule i x ft) (rules_ f) -> exists j ft', In (RRule j x ft') (rules_ g) /\ like i j.
Proof. intro J. destruct (rule_there _ J) as ([j y ft' | ] & S & W); cbn [rule_with] in W; [| contradiction]. destruct W as (L & <- & _). eauto. Qed.
Lemma operator_rule b u l x ft : In (ROperators b u l x ft) (rules_ f) -> exists u' l' ft', In (ROperators b u' l' x ft') (rules_ g) /\ Forall2 (ops_with whatever) l l'.
Proof. intro J. destruct (rule_there _ J) as ([| b' u' l' y ft'] & S & W); cbn [rule_with] in W; [contradiction |]. destruct W as (<- & _ & L & <- & _). eauto. Qed.
Lemma op_there l m o : Forall2 (ops_with whatever) l m -> In o l -> exists p, In p m /\ ops_with whatever o p.
Proof. exact (forall2_in_l _ _ _ _). Qed.

Ltac like_inv := match goal with H : i_with _ _ ?j |- _ => inversion H; subst; clear H end.
Lemma says_alike : (forall i w, says f i w -> forall j, like i j -> says g j w) /\ (forall x w, sentence f x w -> sentence g x w) /\
  (forall b l w, expression f b l w -> forall m, Forall2 (ops_with whatever) l m -> expression g b m w).
Proof.
  apply (says_all f (fun i w => forall j, like i j -> says g j w) (fun x w => sentence g x w) (fun b l w => forall m, Forall2 (ops_with whatever) l m -> expression g b m w)).
  - intros j L. like_inv. constructor.
  - intros x j L. like_inv. match goal with H : atom_with _ _ ?b |- _ => destruct b; cbn [atom_with] in H; [subst | contradiction] end. constructor.
  - intros x args w _ IH j L. like_inv. match goal with H : atom_with _ _ ?b |- _ => destruct b; cbn [atom_with] in H; [contradiction | destruct H as [<- _]] end. constructor. exact IH.
  - intros x w _ IH j L. like_inv. constructor. exact IH.
  - intros s m x a w _ IH j L. like_inv. constructor. apply IH. constructor. assumption.
  - intros i w _ IH j L. like_inv. constructor. auto.
  - intros i w _ IH j L. like_inv. constructor. auto.
  - intros i i' w _ IH j L. like_inv. apply y_try. auto.
  - intros i i' w _ IH j L. like_inv. apply y_catch. auto.
  - intros i w _ IH j L. like_inv. apply y_many1. auto.
  - intros i u w _ IH1 _ IH2 j L. pose proof (IH2 _ L). like_inv. apply y_many; auto.
  - intros i j L. like_inv. apply y_any0.
  - intros i u w _ IH1 _ IH2 j L. pose proof (IH2 _ L). like_inv. apply y_any; auto.
  - intros i j L. like_inv. apply y_maybe0.
  - intros i w _ IH j L. like_inv. apply y_maybe. auto.
  - intros i i' w _ IH j L. like_inv. apply y_list1. auto.
  - intros i i' u v w _ IH1 _ IH2 _ IH3 j L. pose proof (IH3 _ L). like_inv. apply y_list; auto.
  - intros i x w _ IH j L. like_inv. apply y_with. auto.
  - intros x j L. like_inv. apply y_only.
  - intros i i' u w _ IH1 _ IH2 j L. like_inv. apply y_then; auto.
  - intros x i w _ IH j L. like_inv. apply y_when. auto.
  - intros i i' w _ IH j L. like_inv. apply y_left. auto.
  - intros i i' w _ IH j L. like_inv. apply y_right. auto.
  - intros i x ft w J _ IH. destruct (plain_rule _ _ _ J) as (j & ft' & J' & L). exact (y_rule g _ _ _ _ J' (IH _ L)).
  - intros b u l x ft w J _ IH. destruct (operator_rule _ _ _ _ _ J) as (u' & l' & ft' & J' & L). exact (y_expr g _ _ _ _ _ _ J' (IH _ L)).
  - intros b l w _ IH m _. apply y_base. exact IH.
  - intros b l o p w J _ IH m L. destruct (op_there _ _ _ L J) as (q & J' & Q). destruct q; cbn [ops_with] in Q; try contradiction. destruct Q as ((_ & -> & _) & _). eapply y_pre; eauto.
  - intros b l o p a w J _ IH m L. destruct (op_there _ _ _ L J) as (q & J' & Q). destruct q; cbn [ops_with] in Q; try contradiction. destruct Q as ((_ & -> & _) & _). eapply y_post; eauto.
  - intros b l o p a u w J _ IH1 _ IH2 m L. destruct (op_there _ _ _ L J) as (q & J' & Q). destruct q; cbn [ops_with] in Q; try contradiction. destruct Q as ((_ & -> & _) & _). eapply y_bin; eauto.
  - intros b l o q0 p a u v w J _ IH1 _ IH2 _ IH3 m L. destruct (op_there _ _ _ L J) as (q & J' & Q). destruct q; cbn [ops_with] in Q; try contradiction. destruct Q as ((_ & -> & _) & (_ & -> & _) & _). eapply y_tern; eauto.
  - intros b l o q0 w J _ IH m L. destruct (op_there _ _ _ L J) as (q & J' & Q). destruct q; cbn [ops_with] in Q; try contradiction. destruct Q as ((_ & -> & _) & (_ & -> & _)). eapply y_paren; eauto.
Qed.
Definition sentence_alike := proj1 (proj2 says_alike).

Lemma in_file_there i : in_file f i -> exists j, in_file g j /\ like i j.
Proof.
  intros (r & x & ft & J & P). destruct (plain_rule _ _ _ J) as (s & ft' & J' & L). destruct (forall2_in_l _ _ _ _ (parts_like _ _ L) P) as (j & Q & M).
  exists j. split; [exists s, x, ft'; auto | exact M].
Qed.

Scheme skippable_min := Minimality for skippable Sort Prop
with sym_skippable_min := Minimality for sym_skippable Sort Prop.
Combined Scheme skippable_all from skippable_min, sym_skippable_min.
Lemma skippable_alike : (forall i, skippable f i -> forall j, like i j -> skippable g j) /\ (forall x, sym_skippable f x -> sym_skippable g x).
Proof.
  apply (skippable_all f (fun i => forall j, like i j -> skippable g j) (fun x => sym_skippable g x)); try (intros; like_inv; constructor; auto; fail).
  - intros x args _ IH j L. like_inv. match goal with H : atom_with _ _ ?b |- _ => destruct b; cbn [atom_with] in H; [contradiction | destruct H as [<- _]] end. constructor. exact IH.
  - intros s m x a _ IH j L. like_inv. constructor. apply IH. constructor. assumption.
  - intros i x ft J _ IH. destruct (plain_rule _ _ _ J) as (j & ft' & J' & L). exact (k_rule g _ _ _ J' (IH _ L)).
  - intros b u l x ft J _ IH. destruct (operator_rule _ _ _ _ _ J) as (u' & l' & ft' & J' & L). exact (k_expr g _ _ _ _ _ J' IH).
Qed.
Lemma leads_alike i y : leads f i y -> forall j, like i j -> leads g j y.
Proof.
  induction 1; intros j' L'; like_inv; try (constructor; auto; fail).
  - match goal with H : atom_with _ _ ?b |- _ => destruct b; cbn [atom_with] in H; [contradiction | destruct H as [<- _]] end. constructor.
  - constructor. match goal with IH : forall j, _ -> _ |- _ => apply IH end. constructor. assumption.
  - apply l_list2; [eapply (proj1 skippable_alike); eauto | auto].
  - apply l_then2; [eapply (proj1 skippable_alike); eauto | auto].
Qed.
Lemma left_alike x y : left_symbol f x y -> left_symbol g x y.
Proof.
  destruct 1 as [i x ft y J L | b u l x ft J].
  - destruct (plain_rule _ _ _ J) as (j & ft' & J' & W). exact (ls_rule g _ _ _ _ J' (leads_alike _ _ L _ W)).
  - destruct (operator_rule _ _ _ _ _ J) as (u' & l' & ft' & J' & _). exact (ls_expr g _ _ _ _ _ J').
Qed.
Lemma left_chain x y : clos_trans text (left_symbol f) x y -> clos_trans text (left_symbol g) x y.
Proof. induction 1 as [x y H | x y z _ I1 _ I2]; [apply t_step, left_alike, H | eapply t_trans; eassumption]. Qed.
Lemma names_alike x : (exists r, In r (rules_ f) /\ rule_name r = x) -> exists r, In r (rules_ g) /\ rule_name r = x.
Proof. intros (r & J & E). destruct (rule_there _ J) as (s & J' & W). exists s. split; [exact J' |]. destruct (like_rule true _ _ W) as (_ & _ & _ & ->). exact E. Qed.
End L.

(** A rule with operators is the only one of its symbol, and is written once. *)
Definition operators_once (f : file) : Prop :=
  forall l1 b u l x ft l2 r, rules_ f = l1 ++ ROperators b u l x ft :: l2 -> In r (l1 ++ l2) -> rule_name r <> x.
Lemma once_only f : operators_once f -> operators_only f.
Proof.
  intros O r b u l x ft J I E. destruct (in_split _ _ J) as (l1 & l2 & S). rewrite S in I.
  apply in_app_or in I. destruct I as [I | [I | I]]; [| congruence |]; exfalso; apply (O _ _ _ _ _ _ _ r S); auto; apply in_or_app; auto.
Qed.

Section M.
Variables f g : file.
Hypothesis A : alike f g.
Let B : alike g f := file_sym _ _ A.
Lemma sentence_same x w : sentence f x w <-> sentence g x w.
Proof. split; [exact (sentence_alike f g A x w) | exact (sentence_alike g f B x w)]. Qed.
Lemma recovers_alike : nothing_recovers f -> nothing_recovers g.
Proof. intros N j I. destruct (in_file_there g f B _ I) as (i & I' & L). inversion L; subst. exact (N _ I'). Qed.
Lemma optional_alike : inlined_optional f -> inlined_optional g.
Proof. intros N x I. destruct (in_file_there g f B _ I) as (i & I' & L). inversion L; subst. apply (sentence_same x []). exact (N _ I'). Qed.
Lemma not_inlined_alike : operators_not_inlined f -> operators_not_inlined g.
Proof. intros N b u l x ft J I. destruct (operator_rule g f B _ _ _ _ _ J) as (u' & l' & ft' & J' & _). destruct (in_file_there g f B _ I) as (i & I' & L). inversion L; subst. exact (N _ _ _ _ _ J' I'). Qed.
Lemma once_alike : operators_once f -> operators_once g.
Proof.
  intros O l1 b u l x ft l2 r S I E. destruct B as (_ & _ & R & _). rewrite S in R. apply Forall2_app_inv_l in R. destruct R as (m1 & m2 & R1 & R2 & S').
  inversion R2 as [| q q' lx ly Q R3]; subst q lx m2. destruct q' as [| b' u' l' y ft']; cbn [rule_with] in Q; [contradiction |]. destruct Q as (_ & _ & _ & Exy & _).
  assert (X : exists s, In s (m1 ++ ly) /\ rule_with whatever r s).
  { apply in_app_or in I. destruct I as [I | I]; [destruct (forall2_in_l _ _ _ _ R1 I) as (s & Js & Ws) | destruct (forall2_in_l _ _ _ _ R3 I) as (s & Js & Ws)]; exists s; (split; [apply in_or_app; auto | exact Ws]). }
  destruct X as (s & Js & Ws). apply (O _ _ _ _ _ _ _ s S' Js). destruct (like_rule true _ _ Ws) as (_ & _ & _ & N). congruence.
Qed.
Lemma end_alike : end_kept f -> end_kept g.
Proof. unfold end_kept. rewrite (alike_tokens _ _ A). auto. Qed.
Lemma accompanied_alike : code_accompanied f -> code_accompanied g.
Proof.
  intros (N1 & N2 & N3). split; [| split].
  - intros i x ft J. destruct (plain_rule g f B _ _ _ J) as (j & ft' & J' & L). rewrite <- (N1 _ _ _ J'). symmetry. apply like_only. exact L.
  - intros i j [I | I]; destruct (in_file_there g f B _ I) as (q & I' & L); inversion L; subst.
    + destruct (N2 _ _ (or_introl I')) as [E1 E2]. split; [rewrite <- E1 | rewrite <- E2]; symmetry; apply like_only; assumption.
    + destruct (N2 _ _ (or_intror I')) as [E1 E2]. split; [rewrite <- E1 | rewrite <- E2]; symmetry; apply like_only; assumption.
  - intros i I. destruct (in_file_there g f B _ I) as (q & I' & L); inversion L; subst. rewrite <- (N3 _ I'). symmetry; apply like_only; assumption.
Qed.
Lemma recursion_alike : not_left_recursive f -> not_left_recursive g.
Proof.
  intros (N1 & N2 & N3). split; [| split].
  - intros x C. exact (N1 x (left_chain g f B x x C)).
  - intros i [I | I] S; destruct (in_file_there g f B _ I) as (q & I' & L); inversion L as [| | | | | | | i0 j0 Lj | i0 j0 Lj | | | | | | |]; subst.
    + exact (N2 _ (or_introl I') (proj1 (skippable_alike g f B) _ S _ Lj)).
    + exact (N2 _ (or_intror I') (proj1 (skippable_alike g f B) _ S _ Lj)).
  - intros i j I [S1 S2]. destruct (in_file_there g f B _ I) as (q & I' & L); inversion L as [| | | | | | | | | | i0 j0 i1 j1 L0 L1 | | | | |]; subst.
    exact (N3 _ _ I' (conj (proj1 (skippable_alike g f B) _ S1 _ L0) (proj1 (skippable_alike g f B) _ S2 _ L1))).
Qed.
Lemma begins_alike x : begins f x -> begins g x.
Proof. intros [C N]. split; [rewrite (alike_symbols _ _ A); exact C | exact (names_alike f g A x N)]. Qed.
Lemma infix_alike : operators_infix f -> operators_infix g.
Proof.
  intros N b u l x ft J. destruct (operator_rule g f B _ _ _ _ _ J) as (u' & l' & ft' & J' & L). destruct (N _ _ _ _ _ J') as [(o & Jo & Co) T]. split.
  - destruct (forall2_in_r _ _ _ _ L Jo) as (p & Jp & W). exists p. split; [exact Jp |]. destruct o, p; cbn [ops_with comes_after] in *; auto; contradiction.
  - clear o Jo Co. intros o Jo To. destruct (forall2_in_l _ _ _ _ L Jo) as (p & Jp & W). apply (T p Jp). destruct o, p; cbn [ops_with ternary] in *; auto; contradiction.
Qed.
End M.
