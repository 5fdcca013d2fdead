(** C108: what cannot be written down. *)
From Coq Require Import List Ascii String Bool PeanoNat Lia.
From Verif Require Import FlexModel ScanModel ScanSpec GramSpec WriteSpec WriteFileSpec WriteProps UnicodeNameProofs WriteEndProofs.
Import ListNotations.
Open Scope list_scope.

Lemma declaration_first d : exists x v l, dshow d = (x, v) :: l /\ declares x = true.
Proof.
  destruct d as [b m v|b v|x l|[[|]|] v|x|s v|v|v|x v|e l]; cbn [dshow]; unfold class_show, k; try destruct b; try destruct s; cbn [set_show app]; eexists _, _, _; split; reflexivity.
Qed.
Lemma stored_same cfg ts us : Forall2 (stored cfg) ts us -> map fst us = map fst ts.
Proof. induction 1 as [|x y ts us H _ IH]; [reflexivity|]. cbn [map]. rewrite IH. destruct H as (-> & _). reflexivity. Qed.
Lemma map_split {A B} (f : A -> B) l : forall a b, map f l = a ++ b -> exists u v, l = u ++ v /\ map f u = a /\ map f v = b.
Proof.
  induction l as [|x l IH]; intros a b H.
  - destruct a; [|discriminate H]. exists [], []. split; [reflexivity|]. split; [reflexivity|]. exact H.
  - destruct a as [|y a]; [exists [], (x :: l); auto|]. cbn in H. injection H as <- H. destruct (IH a b H) as (u & v & -> & <- & <-). exists (x :: u), v. auto.
Qed.
Lemma map_cons_split {A B} (f : A -> B) l y b : map f l = y :: b -> exists x v, l = x :: v /\ f x = y /\ map f v = b.
Proof. destruct l as [|x l]; [discriminate|]. cbn. intros H. injection H as <- <-. eauto. Qed.

(** A section of lexer rules is left by a semicolon behind the semicolon of its last rule.  So one
    without rules, or with %fail, %enter or %leave at its end, is never left, and no declaration can
    follow. *)
Theorem C108_end_refuted : forall f pre e l d post, all_decls f = pre ++ DLexer e l :: d :: post ->
  (l = [] \/ exists l' x, l = l' ++ [x] /\ ~ has_semicolon x) ->
  forall cfg bytes toks st, scan_file cfg bytes = Scanned toks st -> ~ Forall2 (stored cfg) (file_show f) (tokens_of_scan toks).
Proof.
  intros f pre e l d post D E cfg bytes toks st SC F. apply stored_same in F. unfold tokens_of_scan in F. rewrite map_map in F. cbn [fst] in F.
  assert (T : tokens_of (scan_file cfg bytes) = toks) by (rewrite SC; reflexivity). unfold scan_file in T.
  assert (SN : sane start) by (intros H; discriminate H).
  destruct (declaration_first d) as (z & zv & zl & Z & DZ).
  unfold file_show in F. rewrite D, !flat_map_app in F. cbn [flat_map] in F. rewrite Z in F. cbn [dshow] in F.
  destruct E as [-> | (l' & x & -> & NS)].
  - cbn [flat_map app] in F. unfold k at 1 2, c at 1 in F. rewrite <- !app_assoc in F. cbn [app] in F. rewrite !map_app in F. cbn [map fst] in F. rewrite !map_app in F. cbn [map fst] in F. rewrite app_assoc in F.
    destruct (map_split _ _ _ _ F) as (a & v1 & -> & _ & F1). apply map_cons_split in F1. destruct F1 as (w & v2 & -> & W & F1).
    destruct (map_split _ _ _ _ F1) as (b & v3 & -> & B & F2). apply map_cons_split in F2. destruct F2 as (x & v4 & -> & X & F2). apply map_cons_split in F2. destruct F2 as (y & v5 & -> & Y & F2). apply map_cons_split in F2. destruct F2 as (z' & v6 & -> & Z' & _).
    assert (Bb : b = [] \/ exists v, b = [v] /\ ltok v = Tok "T_STRING").
    { destruct e as [e|]; cbn [opt t map fst] in B.
      - right. apply map_cons_split in B. destruct B as (v & bb & -> & V & N). destruct bb; [|discriminate N]. eauto.
      - left. destruct b; [reflexivity|discriminate B]. }
    assert (Q := no_empty_section _ _ _ _ _ _ _ _ _ _ _ SN T W Bb X Y). congruence.
  - assert (LX : exists o v, lshow x = [(o, []); (Tok "T_CODE", v)] /\ opens_code o).
    { unfold opens_code. destruct x as [x n|x o a|x y o a|x y o a|v|v|v]; cbn [has_semicolon] in NS; try (destruct (NS I)); cbn [lshow]; unfold k, code, t; cbn [app]; eexists _, _; (split; [reflexivity|auto]). }
    destruct LX as (o & v & LX & O).
    set (A := opt code (head_ f) ++ flat_map dshow pre ++ k "T_LEXER" ++ opt (t "T_STRING") e ++ k "T_ARROW" ++ flat_map lshow l').
    set (R := zl ++ flat_map dshow post ++ flat_map rule_show (rules_ f) ++ opt code (tail_ f)).
    match type of F with _ = map fst ?x => assert (FS : x = A ++ [(o, []); (Tok "T_CODE", v); (Chr ";", [])] ++ (z, zv) :: R) end.
    { subst A R. rewrite flat_map_app. cbn [flat_map]. rewrite LX. unfold c. rewrite <- !app_assoc. cbn [app]. rewrite <- ?app_assoc. reflexivity. }
    rewrite FS in F. clear FS. clearbody A R.
    rewrite map_app in F. destruct (map_split _ _ _ _ F) as (a & v1 & -> & _ & F1). cbn [map app fst] in F1.
    apply map_cons_split in F1. destruct F1 as (w & v2 & -> & W & F1). apply map_cons_split in F1. destruct F1 as (x1 & v4 & -> & X & F2). apply map_cons_split in F2. destruct F2 as (y & v5 & -> & Y & F2). apply map_cons_split in F2. destruct F2 as (z' & v6 & -> & Z' & _).
    rewrite <- W in O. assert (Q := no_section _ _ _ _ _ _ _ _ _ _ SN T O X Y). congruence.
Qed.
Print Assumptions C108_end_refuted.

(** A file with such a section: all its parts can be written, and it has a meaning. *)
Definition failing : file := File None (DLexer None [LFail (chars "return false;")]) [DTokens (chars "A", None) []] [RRule (IAtom (ATok (chars "A"))) (chars "start") (FootCode None)] None.
Example C108_end_case : l_legible (LFail (chars "return false;")) /\ Forall d_legible (decls_ failing) /\ Forall rule_legible (rules_ failing) /\ file_events failing <> None /\
  forall cfg bytes toks st, scan_file cfg bytes = Scanned toks st -> ~ Forall2 (stored cfg) (file_show failing) (tokens_of_scan toks).
Proof.
  split; [|split; [|split; [|split]]].
  - cbn [l_legible]. split; [apply no_colon_body, not_in_text; reflexivity | split; apply not_in_text; reflexivity].
  - constructor; [|constructor]. constructor; [|constructor]. split; [term_ | exact Logic.I].
  - constructor; [|constructor]. split; [|split; [name_ | exact Logic.I]]. term_.
  - vm_compute. discriminate.
  - apply (C108_end_refuted failing [] None [LFail (chars "return false;")] (DTokens (chars "A", None) []) []); [reflexivity|]. right. exists [], (LFail (chars "return false;")). split; [reflexivity|]. exact (fun H => H).
Qed.
