(** Proofs for C125. *)
From Coq Require Import List NArith ZArith Ascii String Bool Lia.
From Verif Require Import FlexModel GuardModel GuardSpec.
Import ListNotations.
Open Scope string_scope.
Open Scope list_scope.

Definition inb (a : ascii) (x : text) : bool := existsb (Ascii.eqb a) x.

Lemma inb_in a x : inb a x = true <-> In a x.
Proof.
  unfold inb. rewrite existsb_exists. split.
  - intros (b & H & E). apply Ascii.eqb_eq in E. subst. exact H.
  - intro H. exists a. split; [exact H | apply Ascii.eqb_refl].
Qed.

Definition up (a : ascii) : ascii :=
  let n := N_of_ascii a in if N.leb 97 n && N.leb n 122 then ascii_of_N (n - 32) else a.
Definition pl (a : ascii) : ascii :=
  if Z.ltb (code a) 48 || (Z.ltb 57 (code a) && Z.ltb (code a) 65) || Z.ltb 90 (code a) then "_"%char else a.

Lemma upper_map x : upper x = map up x. Proof. reflexivity. Qed.
Lemma plain_map x : plain x = map pl x. Proof. reflexivity. Qed.

Definition okb a := inb a letters || inb a digits.

Lemma up_ok a : okb (up a) = okb a.
Proof. destruct a as [[] [] [] [] [] [] [] []]; vm_compute; reflexivity. Qed.
Lemma up_letter a : inb (up a) letters = inb a letters.
Proof. destruct a as [[] [] [] [] [] [] [] []]; vm_compute; reflexivity. Qed.
Lemma pl_ok a : okb (pl (up a)) = true.
Proof. destruct a as [[] [] [] [] [] [] [] []]; vm_compute; reflexivity. Qed.
Lemma pl_letter a : inb (pl (up a)) letters = negb (inb a digits).
Proof. destruct a as [[] [] [] [] [] [] [] []]; vm_compute; reflexivity. Qed.
Lemma letter_digit a : inb a letters = true -> inb a digits = false.
Proof. destruct a as [[] [] [] [] [] [] [] []]; vm_compute; congruence. Qed.

Lemma okb_ok a : okb a = true <-> In a letters \/ In a digits.
Proof. unfold okb. rewrite orb_true_iff, !inb_in. reflexivity. Qed.

Lemma part_forallb x : part x <-> forallb okb x = true.
Proof.
  unfold part. rewrite forallb_forall. split; intros H b I; apply okb_ok; auto.
Qed.

Definition identb (x : text) : bool :=
  match x with [] => false | a :: y => inb a letters && forallb okb y end.

Lemma identb_ok x : identifier x <-> identb x = true.
Proof.
  unfold identifier. split.
  - intros (a & y & -> & I & H). unfold identb. apply andb_true_iff. split.
    + apply inb_in, I.
    + apply part_forallb. exact H.
  - destruct x as [|a y]; [discriminate|]. unfold identb. intro H. apply andb_true_iff in H as (I & H).
    exists a, y. split; [reflexivity|]. split; [apply inb_in, I | apply part_forallb, H].
Qed.

Definition firstb (x : text) : bool := match x with [] => true | a :: _ => negb (inb a digits) end.

Lemma firstb_ok x : (forall a y, x = a :: y -> ~ In a digits) <-> firstb x = true.
Proof.
  destruct x as [|a y]; unfold firstb.
  - split; [reflexivity | discriminate].
  - rewrite negb_true_iff. split.
    + intro H. specialize (H a y eq_refl). rewrite <- inb_in in H. destruct (inb a digits); congruence.
    + intros H b z E I. injection E as <- <-. apply inb_in in I. congruence.
Qed.

Lemma all_up x : forallb okb (map up x) = forallb okb x.
Proof. induction x as [|a x IH]; [reflexivity|]. cbn [map forallb]. rewrite up_ok, IH. reflexivity. Qed.

Lemma all_pl x : forallb okb (map pl (map up x)) = true.
Proof. induction x as [|a x IH]; [reflexivity|]. cbn [map forallb]. rewrite pl_ok, IH. reflexivity. Qed.

Lemma plain_ident l s : identb (chars "_" ++ s) = true ->
  identb (plain (upper l) ++ chars "_" ++ s) = firstb l.
Proof.
  intro H. rewrite plain_map, upper_map. destruct l as [|a l].
  - exact H.
  - cbn [map app identb firstb]. rewrite pl_letter, forallb_app, all_pl.
    cbn [chars app] in H |- *. cbn [identb] in H. apply andb_true_iff in H as (_ & H).
    cbn [forallb]. rewrite H.
    replace (okb "_"%char) with true by reflexivity. rewrite !andb_true_r. reflexivity.
Qed.

Lemma plain_ident_bad l s : forallb okb s = false ->
  identb (plain (upper l) ++ chars "_" ++ s) = false.
Proof.
  intro H. rewrite plain_map, upper_map. destruct l as [|a l].
  - cbn [map app chars identb]. rewrite H. apply andb_false_r.
  - cbn [map app identb]. rewrite forallb_app. cbn [chars app forallb]. rewrite H.
    rewrite !andb_false_r. reflexivity.
Qed.

Lemma lexer_ident l : identb (upper l ++ chars "_LEXER_H_INCLUDED") = firstb l && forallb okb l.
Proof.
  rewrite upper_map. destruct l as [|a l]; [reflexivity|].
  cbn [map app identb firstb forallb]. rewrite up_letter, forallb_app, all_up.
  replace (forallb okb (chars "_LEXER_H_INCLUDED")) with true by reflexivity.
  rewrite andb_true_r. unfold okb at 2.
  pose proof (letter_digit a) as D.
  destruct (inb a letters); destruct (inb a digits); try reflexivity.
  specialize (D eq_refl). discriminate.
Qed.

Lemma guard_identifier language h :
  identifier (guard language h) <->
  (forall a y, language = a :: y -> ~ In a digits) /\
  (h = Lexer -> part language) /\ (forall n, h = New n -> part n).
Proof.
  rewrite identb_ok, firstb_ok.
  assert (C : forall s, h <> Lexer -> (forall n, h <> New n) -> guard language h = plain (upper language) ++ chars "_" ++ s ->
     identb (chars "_" ++ s) = true ->
     (identb (guard language h) = true <-> firstb language = true /\ (h = Lexer -> part language) /\ (forall n, h = New n -> part n))).
  { intros s L N E I. rewrite E, (plain_ident _ _ I). split; [|tauto].
    intro F. split; [exact F|]. split; [congruence|]. intros n Hn. destruct (N n Hn). }
  destruct h.
  - apply (C (chars "AST_H_INCLUDED")); (reflexivity || congruence).
  - apply (C (chars "AST_FWD_INCLUDED")); (reflexivity || congruence).
  - apply (C (chars "TOKEN_TYPE_H_INCLUDED")); (reflexivity || congruence).
  - apply (C (chars "H_INCLUDED")); (reflexivity || congruence).
  - apply (C (chars "VISITOR_H_INCLUDED")); (reflexivity || congruence).
  - apply (C (chars "DEFAULT_VISITOR_H_INCLUDED")); (reflexivity || congruence).
  - apply (C (chars "SERIALIZATION_H_INCLUDED")); (reflexivity || congruence).
  - apply (C (chars "DEBUG_VISITOR_H_INCLUDED")); (reflexivity || congruence).
  - apply (C (chars "TOKEN_TEXT_H_INCLUDED")); (reflexivity || congruence).
  - clear C. unfold guard. rewrite lexer_ident, andb_true_iff, <- part_forallb. split.
    + intros (F & P). split; [exact F|]. split; [auto | congruence].
    + intros (F & P & _). auto.
  - clear C. unfold guard.
    assert (B : forallb okb (upper name ++ chars "_H") = forallb okb name).
    { rewrite upper_map, forallb_app, all_up. replace (forallb okb (chars "_H")) with true by reflexivity. apply andb_true_r. }
    destruct (forallb okb name) eqn:E.
    + rewrite plain_ident.
      * split; [|tauto]. intro F. split; [exact F|]. split; [congruence|].
        intros n Hn. injection Hn as <-. apply part_forallb, E.
      * cbn [chars app identb]. cbn [chars] in B. rewrite B. reflexivity.
    + rewrite (plain_ident_bad _ _ B). split; [discriminate|].
      intros (_ & _ & P). specialize (P name eq_refl). apply part_forallb in P. congruence.
Qed.

Lemma app_tail : forall (a b s t : text), List.length a = List.length b -> a ++ s = b ++ t -> s = t.
Proof.
  induction a as [|x a IH]; intros [|y b] s t L E; cbn [List.length] in L; try discriminate.
  - exact E.
  - injection E as _ E. apply (IH b); [congruence | exact E].
Qed.

(** What stands after the language. *)
Definition tail (h : header) : text :=
  match h with
  | Ast => chars "_AST_H_INCLUDED" | AstFwd => chars "_AST_FWD_INCLUDED"
  | TokenType => chars "_TOKEN_TYPE_H_INCLUDED" | Parser => chars "_H_INCLUDED"
  | Visitor => chars "_VISITOR_H_INCLUDED" | DefaultVisitor => chars "_DEFAULT_VISITOR_H_INCLUDED"
  | Serialization => chars "_SERIALIZATION_H_INCLUDED" | DebugVisitor => chars "_DEBUG_VISITOR_H_INCLUDED"
  | TokenText => chars "_TOKEN_TEXT_H_INCLUDED" | Lexer => chars "_LEXER_H_INCLUDED"
  | New n => chars "_" ++ upper n ++ chars "_H"
  end.

Lemma guard_tail l h : exists p, guard l h = p ++ tail h /\ List.length p = List.length l.
Proof.
  destruct h; (exists (plain (upper l)) + exists (upper l)); (split; [reflexivity|]);
    rewrite ?plain_map, ?upper_map, ?map_length; reflexivity.
Qed.

Lemma new_last n h : (forall m, h <> New m) -> tail (New n) <> tail h.
Proof.
  intros H E. apply (f_equal (@rev ascii)) in E. unfold tail at 1 in E.
  rewrite !rev_app_distr in E.
  destruct h; try (vm_compute in E; discriminate E). exact (H _ eq_refl).
Qed.

Definition caseb (a b : ascii) : bool :=
  Ascii.eqb a b || existsb (fun p => Ascii.eqb a (fst p) && Ascii.eqb b (snd p)) cases
  || existsb (fun p => Ascii.eqb b (fst p) && Ascii.eqb a (snd p)) cases.

Definition bytes := map ascii_of_nat (List.seq 0 256).
Lemma bytes_all a : In a bytes.
Proof.
  apply in_map_iff. exists (nat_of_ascii a). split; [apply ascii_nat_embedding|].
  apply in_seq. pose proof (nat_ascii_bounded a). lia.
Qed.

Lemma up_table : forallb (fun a => forallb (fun b => implb (Ascii.eqb (up a) (up b)) (caseb a b)) bytes) bytes = true.
Proof. vm_compute. reflexivity. Qed.

Lemma pairs_in a b : existsb (fun p => Ascii.eqb a (fst p) && Ascii.eqb b (snd p)) cases = true -> In (a, b) cases.
Proof.
  intro H. apply existsb_exists in H as ((x, y) & I & E). cbn [fst snd] in E.
  apply andb_true_iff in E as (E & F). apply Ascii.eqb_eq in E, F. subst. exact I.
Qed.

Lemma up_same a b : up a = up b -> a = b \/ In (a, b) cases \/ In (b, a) cases.
Proof.
  intro E. pose proof up_table as T. rewrite forallb_forall in T. specialize (T a (bytes_all a)).
  cbv beta in T. rewrite forallb_forall in T. specialize (T b (bytes_all b)). cbv beta in T.
  rewrite E, Ascii.eqb_refl in T. cbn [implb] in T. unfold caseb in T.
  apply orb_true_iff in T as [T | T]; [apply orb_true_iff in T as [T | T]|].
  - left. apply Ascii.eqb_eq, T.
  - right. left. apply pairs_in, T.
  - right. right. apply pairs_in, T.
Qed.

Lemma upper_same : forall x y, upper x = upper y -> same_but_case x y.
Proof.
  intros x y. rewrite !upper_map. revert y. induction x as [|a x IH]; intros [|b y] E; try discriminate.
  - constructor.
  - cbn [map] in E. injection E as E F. constructor; [apply up_same, E | apply IH, F].
Qed.

Lemma guard_distinct l h k : guard l h = guard l k ->
  h = k \/ exists n m, h = New n /\ k = New m /\ same_but_case n m.
Proof.
  destruct (guard_tail l h) as (p & -> & Lp), (guard_tail l k) as (q & -> & Lq).
  intro E. apply app_tail in E; [|congruence].
  destruct h as [ | | | | | | | | | |n], k as [ | | | | | | | | | |m]; try (left; reflexivity);
    try (exfalso; vm_compute in E; discriminate E);
    try (exfalso; apply (new_last n) in E; [exact E | congruence]);
    try (exfalso; symmetry in E; apply (new_last m) in E; [exact E | congruence]).
  right. exists n, m. split; [reflexivity|]. split; [reflexivity|].
  unfold tail in E. injection E as E. apply app_inv_tail in E. apply upper_same, E.
Qed.
