(** Regular expressions, items, rules and declarations are read as they are written. *)
From Coq Require Import List NArith Ascii String Bool PeanoNat Lia.
From Verif Require Import YaccModel YaccSpec YaccProofs YaccReadProofs FlexModel ScanModel DeclModel GramModel GramTableProofs GramSpec GramFineProofs.
Import ListNotations.
Open Scope string_scope.
Open Scope list_scope.

Definition inp (u : tokens_) : list (N * val) := map (fun x => (tok_of (token_name (fst x)), VText (snd x))) u.
Definition R (x : string) (u : tokens_) (b : list val) (w : world) (v : val) (w' : world) : Prop :=
  reads fine_productions val world sem (csymbol x) (inp u) b w v w'.
Definition RA (xs : list string) (u : tokens_) (b : list val) (w : world) (vs : list val) (w' : world) : Prop :=
  reads_all fine_productions val world sem (map csymbol xs) (inp u) b w vs w'.

Lemma fine_eq : fine_productions =
  map (fun p => CProd (class_of (fst p)) (number (fst p) (snd p) (map fst written) 0) (map csymbol (words (snd p)))) fine_grammar.
Proof. vm_compute. reflexivity. Qed.
Definition has_production (l r : string) : bool := existsb (fun p => String.eqb (fst p) l && String.eqb (snd p) r) fine_grammar.
Lemma has_in l r : has_production l r = true -> In (l, r) fine_grammar.
Proof.
  unfold has_production. rewrite existsb_exists. intros ([l' r'] & I & E). cbn in E. apply andb_true_iff in E as [A B].
  apply String.eqb_eq in A. apply String.eqb_eq in B. subst. exact I.
Qed.
Lemma R_by l r n ws u b w vs w1 v w2 :
  has_production l r = true -> is_one l classes = true -> number l r (map fst written) 0 = n -> words r = ws ->
  RA ws u b w vs w1 -> sem n vs b w1 = Some (v, w2) -> R l u b w v w2.
Proof.
  intros H K <- <- A S. unfold R, csymbol. rewrite K.
  apply (rd_cls fine_productions val world sem (CProd (class_of l) (number l r (map fst written) 0) (map csymbol (words r)))) with (vs := vs) (w1 := w1).
  - rewrite fine_eq. apply (in_map (fun p => CProd (class_of (fst p)) (number (fst p) (snd p) (map fst written) 0) (map csymbol (words (snd p)))) _ (l, r)), has_in, H.
  - exact A.
  - exact S.
Qed.
Lemma RA_nil b w : RA [] [] b w [] w.
Proof. apply ra_nil. Qed.
Lemma RA_cons x xs u1 u2 b w v w1 vs w2 : R x u1 b w v w1 -> RA xs u2 (v :: b) w1 vs w2 -> RA (x :: xs) (u1 ++ u2) b w (v :: vs) w2.
Proof. intros A B. unfold RA, inp. rewrite map_app. cbn [map]. eapply ra_cons; [exact A | exact B]. Qed.
Lemma RA_skip x xs u b w v w1 vs w2 : R x [] b w v w1 -> RA xs u (v :: b) w1 vs w2 -> RA (x :: xs) u b w (v :: vs) w2.
Proof. apply (RA_cons x xs [] u). Qed.
Lemma RA_one x u b w v w1 : R x u b w v w1 -> RA [x] u b w [v] w1.
Proof. intro A. rewrite <- (app_nil_r u). eapply RA_cons; [exact A | apply RA_nil]. Qed.
Lemma R_tok x tk v b w : is_one x classes = false -> token_name tk = x -> R x [(tk, v)] b w (VText v) w.
Proof. intros H <-. unfold R, csymbol. rewrite H. apply rd_tok. Qed.

Ltac tok := apply R_tok; [vm_compute; reflexivity | reflexivity].
(** Apply a production. *)
Ltac by_ l r := eapply (R_by l r); [vm_compute; reflexivity | vm_compute; reflexivity | vm_compute; reflexivity | vm_compute; reflexivity | | ].
(** Its parts, given the lemmas for the classes in between. *)
Ltac a_tok := eapply RA_cons; [tok |].
Ltac z_tok := eapply RA_one; tok.

(** ** Regular expressions *)
Definition rclass (n : nat) : string :=
  match n with 0 => "regexp" | 1 => "regexp1" | 2 => "regexp2" | 3 => "regexp3" | 4 => "regexp4" | 5 => "regexp5" | 6 => "regexp6" | _ => "regexp7" end.
Definition aclass (n : nat) : string :=
  match n with 0 => "aregexp" | 1 => "aregexp1" | 2 => "aregexp2" | 3 => "aregexp3" | 4 => "aregexp4" | 5 => "aregexp5" | 6 => "aregexp6" | _ => "aregexp7" end.
Lemma r_up n u b w v w' : n < 7 -> R (rclass (S n)) u b w v w' -> R (rclass n) u b w v w'.
Proof.
  intros L H. do 7 (destruct n as [| n]; [match goal with |- R (rclass ?k) _ _ _ _ _ => eapply (R_by (rclass k) (rclass (S k))); [vm_compute; reflexivity | vm_compute; reflexivity | vm_compute; reflexivity | vm_compute; reflexivity | apply RA_one; exact H | reflexivity] end |]). lia.
Qed.
Lemma a_up n u b w v w' : n < 7 -> R (aclass (S n)) u b w v w' -> R (aclass n) u b w v w'.
Proof.
  intros L H. do 7 (destruct n as [| n]; [match goal with |- R (aclass ?k) _ _ _ _ _ => eapply (R_by (aclass k) (aclass (S k))); [vm_compute; reflexivity | vm_compute; reflexivity | vm_compute; reflexivity | vm_compute; reflexivity | apply RA_one; exact H | reflexivity] end |]). lia.
Qed.
Lemma r_to n m u b w v w' : n <= m -> m <= 7 -> R (rclass m) u b w v w' -> R (rclass n) u b w v w'.
Proof. intros L M H. induction L as [| m L IH]; [exact H |]. apply IH; [lia |]. apply r_up; [lia | exact H]. Qed.
Lemma a_to n m u b w v w' : n <= m -> m <= 7 -> R (aclass m) u b w v w' -> R (aclass n) u b w v w'.
Proof. intros L M H. induction L as [| m L IH]; [exact H |]. apply IH; [lia |]. apply a_up; [lia | exact H]. Qed.
Lemma r_empty b w : R "regexp!e" [] b w (VRex XEps) w /\ R "regexp1!e" [] b w (VRex XEps) w.
Proof.
  assert (A : R "regexp7!e" [] b w (VRex XEps) w) by (by_ "regexp7!e" ""; [apply RA_nil | reflexivity]).
  assert (B : R "regexp6!e" [] b w (VRex XEps) w) by (by_ "regexp6!e" "regexp7!e"; [apply RA_one; exact A | reflexivity]). clear A.
  assert (A : R "regexp5!e" [] b w (VRex XEps) w) by (by_ "regexp5!e" "regexp6!e"; [apply RA_one; exact B | reflexivity]). clear B.
  assert (B : R "regexp4!e" [] b w (VRex XEps) w) by (by_ "regexp4!e" "regexp5!e"; [apply RA_one; exact A | reflexivity]). clear A.
  assert (A : R "regexp3!e" [] b w (VRex XEps) w) by (by_ "regexp3!e" "regexp4!e"; [apply RA_one; exact B | reflexivity]). clear B.
  assert (B : R "regexp2!e" [] b w (VRex XEps) w) by (by_ "regexp2!e" "regexp3!e"; [apply RA_one; exact A | reflexivity]). clear A.
  assert (A : R "regexp1!e" [] b w (VRex XEps) w) by (by_ "regexp1!e" "regexp2!e"; [apply RA_one; exact B | reflexivity]). clear B.
  split; [| exact A]. by_ "regexp!e" "regexp1!e"; [apply RA_one; exact A | reflexivity].
Qed.

Scheme rsrc_mind := Induction for rsrc Sort Prop with asrc_mind := Induction for asrc Sort Prop.
Combined Scheme src_both from rsrc_mind, asrc_mind.
Definition known (w : world) (x : text) : option rex := lookup x (regexps w).
Definition r_ok (x : rsrc) : Prop := forall b w m, rmeans (known w) x = Some m -> R (rclass (rlevel x)) (rshow x) b w (VRex m) w.
Definition a_ok (x : asrc) : Prop := forall b w m, ameans (known w) x = Some m -> R (aclass (alevel x)) (ashow x) b w (VRex m) w.
Lemma rlevel_le x : rlevel x <= 7. Proof. destruct x; cbn; lia. Qed.
Lemma alevel_le x : alevel x <= 7. Proof. destruct x; cbn; lia. Qed.
Lemma r_at x n b w m : n <= 7 -> r_ok x -> rmeans (known w) x = Some m -> R (rclass n) (inside "(" ")" n (rlevel x) (rshow x)) b w (VRex m) w.
Proof.
  intros L H E. unfold inside. destruct (Nat.ltb (rlevel x) n) eqn:C.
  - apply r_to with 7; [exact L | lia |]. by_ "regexp7" "'(' regexp ')'"; [a_tok; eapply RA_cons; [| z_tok] | reflexivity].
    apply (r_to 0 (rlevel x)); [lia | apply rlevel_le |]. apply H, E.
  - apply Nat.ltb_ge in C. apply r_to with (rlevel x); [exact C | apply rlevel_le | apply H, E].
Qed.
Lemma a_at x n b w m : n <= 7 -> a_ok x -> ameans (known w) x = Some m -> R (aclass n) (inside "[" "]" n (alevel x) (ashow x)) b w (VRex m) w.
Proof.
  intros L H E. unfold inside. destruct (Nat.ltb (alevel x) n) eqn:C.
  - apply a_to with 7; [exact L | lia |]. by_ "aregexp7" "'[' aregexp ']'"; [a_tok; eapply RA_cons; [| z_tok] | reflexivity].
    apply (a_to 0 (alevel x)); [lia | apply alevel_le |]. apply H, E.
  - apply Nat.ltb_ge in C. apply a_to with (alevel x); [exact C | apply alevel_le | apply H, E].
Qed.
Lemma lift1_some f x m : lift1 f x = Some m -> exists y, x = Some y /\ m = f y.
Proof. destruct x; cbn; [| discriminate]. intro H. injection H as <-. eauto. Qed.
Lemma lift2_some f x y m : lift2 f x y = Some m -> exists a b, x = Some a /\ y = Some b /\ m = f a b.
Proof. destruct x, y; cbn; try discriminate. intro H. injection H as <-. eauto. Qed.

Theorem expressions_read : (forall x, r_ok x) /\ (forall x, a_ok x).
Proof.
  apply src_both.
  - intros x b w m E. injection E as <-. by_ "regexp7" "T_STRING"; [z_tok | reflexivity].
  - intros x b w m E. injection E as <-. by_ "regexp7" "T_UNQUOTED_STRING"; [z_tok | reflexivity].
  - intros x b w m E. apply lift1_some in E as (y & E & ->). by_ "regexp7" "T_NAMED_REGEXP"; [z_tok |].
    change (match lookup x (regexps w) with Some r => Some (VRex (XNamed r), w) | None => None end = Some (VRex (XNamed y), w)).
    unfold known in E. rewrite E. reflexivity.
  - intros b w m E. injection E as <-. by_ "regexp7" "'.'"; [z_tok | reflexivity].
  - intros b w m E. injection E as <-. by_ "regexp7" "'(' regexp!e ')'"; [a_tok; eapply RA_skip; [apply r_empty | z_tok] | reflexivity].
  - intros x IH b w m E. by_ "regexp7" "'(' regexp ')'"; [a_tok; eapply RA_cons; [apply (r_to 0 (rlevel x)); [lia | apply rlevel_le | apply IH, E] | z_tok] | reflexivity].
  - intros x IH b w m E. by_ "regexp7" "'[' aregexp ']'"; [a_tok; eapply RA_cons; [apply (a_to 0 (alevel x)); [lia | apply alevel_le | apply IH, E] | z_tok] | reflexivity].
  - intros x IHx y IHy b w m E. apply lift2_some in E as (p & q & Ep & Eq & ->).
    by_ "regexp" "regexp '|' regexp1"; [eapply RA_cons; [apply (r_at x 0); [lia | exact IHx | exact Ep] | a_tok; apply RA_one, (r_at y 1); [lia | exact IHy | exact Eq]] | reflexivity].
  - intros x IHx b w m E. apply lift1_some in E as (p & Ep & ->).
    by_ "regexp" "regexp '|' regexp1!e"; [eapply RA_cons; [apply (r_at x 0); [lia | exact IHx | exact Ep] |
      change (c "|") with (c "|" ++ []); a_tok; apply RA_one, r_empty] | reflexivity].
  - intros x IHx b w m E. apply lift1_some in E as (p & Ep & ->).
    by_ "regexp" "regexp!e '|' regexp1"; [eapply RA_skip; [apply r_empty | a_tok; apply RA_one, (r_at x 1); [lia | exact IHx | exact Ep]] | reflexivity].
  - intros x IHx y IHy b w m E. apply lift2_some in E as (p & q & Ep & Eq & ->).
    by_ "regexp1" "regexp1 '&' regexp2"; [eapply RA_cons; [apply (r_at x 1); [lia | exact IHx | exact Ep] | a_tok; apply RA_one, (r_at y 2); [lia | exact IHy | exact Eq]] | reflexivity].
  - intros x IHx y IHy b w m E. apply lift2_some in E as (p & q & Ep & Eq & ->).
    by_ "regexp2" "regexp3 '^' regexp2"; [eapply RA_cons; [apply (r_at x 3); [lia | exact IHx | exact Ep] | a_tok; apply RA_one, (r_at y 2); [lia | exact IHy | exact Eq]] | reflexivity].
  - intros x IHx b w m E. apply lift1_some in E as (p & Ep & ->).
    by_ "regexp3" "'~' regexp3"; [a_tok; apply RA_one, (r_at x 3); [lia | exact IHx | exact Ep] | reflexivity].
  - intros x IHx b w m E. apply lift1_some in E as (p & Ep & ->).
    by_ "regexp3" "'?' regexp3"; [a_tok; apply RA_one, (r_at x 3); [lia | exact IHx | exact Ep] | reflexivity].
  - intros x IHx y IHy b w m E. apply lift2_some in E as (p & q & Ep & Eq & ->).
    by_ "regexp4" "regexp4 regexp5"; [eapply RA_cons; [apply (r_at x 4); [lia | exact IHx | exact Ep] | apply RA_one, (r_at y 5); [lia | exact IHy | exact Eq]] | reflexivity].
  - intros x IHx y IHy b w m E. apply lift2_some in E as (p & q & Ep & Eq & ->).
    by_ "regexp5" "regexp5 '@' regexp6"; [eapply RA_cons; [apply (r_at x 5); [lia | exact IHx | exact Ep] | a_tok; apply RA_one, (r_at y 6); [lia | exact IHy | exact Eq]] | reflexivity].
  - intros x IHx b w m E. apply lift1_some in E as (p & Ep & ->).
    by_ "regexp6" "regexp6 '*'"; [eapply RA_cons; [apply (r_at x 6); [lia | exact IHx | exact Ep] | z_tok] | reflexivity].
  - intros x IHx b w m E. apply lift1_some in E as (p & Ep & ->).
    by_ "regexp6" "regexp6 '+'"; [eapply RA_cons; [apply (r_at x 6); [lia | exact IHx | exact Ep] | z_tok] | reflexivity].
  - intros x b w m E. injection E as <-. by_ "aregexp7" "T_STRING"; [z_tok | reflexivity].
  - intros x b w m E. injection E as <-. by_ "aregexp7" "T_RANGE"; [z_tok | reflexivity].
  - intros x b w m E. injection E as <-. by_ "aregexp7" "T_UNQUOTED_STRING"; [z_tok | reflexivity].
  - intros x b w m E. apply lift1_some in E as (y & E & ->). by_ "aregexp7" "T_NAMED_REGEXP"; [z_tok |].
    change (match lookup x (regexps w) with Some r => Some (VRex (XNamed r), w) | None => None end = Some (VRex (XNamed y), w)).
    unfold known in E. rewrite E. reflexivity.
  - intros b w m E. injection E as <-. by_ "aregexp7" "'.'"; [z_tok | reflexivity].
  - intros b w m E. injection E as <-. by_ "aregexp7" "'(' regexp!e ')'"; [a_tok; eapply RA_skip; [apply r_empty | z_tok] | reflexivity].
  - intros x IH b w m E. by_ "aregexp7" "'(' regexp ')'"; [a_tok; eapply RA_cons; [apply (r_to 0 (rlevel x)); [lia | apply rlevel_le | apply IH, E] | z_tok] | reflexivity].
  - intros x IH b w m E. by_ "aregexp7" "'[' aregexp ']'"; [a_tok; eapply RA_cons; [apply (a_to 0 (alevel x)); [lia | apply alevel_le | apply IH, E] | z_tok] | reflexivity].
  - intros x IHx y IHy b w m E. apply lift2_some in E as (p & q & Ep & Eq & ->).
    by_ "aregexp" "aregexp '|' aregexp1"; [eapply RA_cons; [apply (a_at x 0); [lia | exact IHx | exact Ep] | a_tok; apply RA_one, (a_at y 1); [lia | exact IHy | exact Eq]] | reflexivity].
  - intros x IHx y IHy b w m E. apply lift2_some in E as (p & q & Ep & Eq & ->).
    by_ "aregexp1" "aregexp1 '&' aregexp2"; [eapply RA_cons; [apply (a_at x 1); [lia | exact IHx | exact Ep] | a_tok; apply RA_one, (a_at y 2); [lia | exact IHy | exact Eq]] | reflexivity].
  - intros x IHx y IHy b w m E. apply lift2_some in E as (p & q & Ep & Eq & ->).
    by_ "aregexp2" "aregexp3 '^' aregexp2"; [eapply RA_cons; [apply (a_at x 3); [lia | exact IHx | exact Ep] | a_tok; apply RA_one, (a_at y 2); [lia | exact IHy | exact Eq]] | reflexivity].
  - intros x IHx b w m E. apply lift1_some in E as (p & Ep & ->).
    by_ "aregexp3" "'~' aregexp3"; [a_tok; apply RA_one, (a_at x 3); [lia | exact IHx | exact Ep] | reflexivity].
  - intros x IHx b w m E. apply lift1_some in E as (p & Ep & ->).
    by_ "aregexp3" "'?' aregexp3"; [a_tok; apply RA_one, (a_at x 3); [lia | exact IHx | exact Ep] | reflexivity].
  - intros x IHx y IHy b w m E. apply lift2_some in E as (p & q & Ep & Eq & ->).
    by_ "aregexp4" "aregexp4 aregexp5"; [eapply RA_cons; [apply (a_at x 4); [lia | exact IHx | exact Ep] | apply RA_one, (a_at y 5); [lia | exact IHy | exact Eq]] | reflexivity].
  - intros x IHx y IHy b w m E. apply lift2_some in E as (p & q & Ep & Eq & ->).
    by_ "aregexp5" "aregexp5 '@' aregexp6"; [eapply RA_cons; [apply (a_at x 5); [lia | exact IHx | exact Ep] | a_tok; apply RA_one, (a_at y 6); [lia | exact IHy | exact Eq]] | reflexivity].
  - intros x IHx b w m E. apply lift1_some in E as (p & Ep & ->).
    by_ "aregexp6" "aregexp6 '*'"; [eapply RA_cons; [apply (a_at x 6); [lia | exact IHx | exact Ep] | z_tok] | reflexivity].
  - intros x IHx b w m E. apply lift1_some in E as (p & Ep & ->).
    by_ "aregexp6" "aregexp6 '+'"; [eapply RA_cons; [apply (a_at x 6); [lia | exact IHx | exact Ep] | z_tok] | reflexivity].
Qed.
Lemma r_read x b w m : rmeans (known w) x = Some m -> R "regexp" (rshow x) b w (VRex m) w.
Proof. intro E. apply (r_to 0 (rlevel x)); [lia | apply rlevel_le |]. apply expressions_read, E. Qed.
