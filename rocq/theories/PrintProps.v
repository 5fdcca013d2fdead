(** What the generator prints of rules, in kdev-pg-rules and in the reports of conflicts:
    property C110. *)
From Coq Require Import List NArith Ascii String Bool PeanoNat.
From Verif Require Import Base FlexModel ScanModel ScanSpec GramModel GramSpec WriteSpec WriteFileSpec WriteFileProofs WriteProps PrintModel PrintSpec PrintProofs PrintFileProofs LangSpec.
Import ListNotations.
Open Scope list_scope.

(** A rule is printed, and the text (with the semicolons that end a rule) is that of a rule
    for the same symbol with the same ways through it: the same tokens and symbols in the
    same variables, attempts in the same places.  Code, conditions, arguments and the marks of
    inlining are left out. *)
Theorem C110_rule_partial : forall d i x ft, i_legible i -> identifier x -> silent i = false -> spoken i = true ->
  exists s j, print (rule_means d (RRule i x ft)) = Some s /\ file_text (rule_show (RRule j x (FootCode None))) (s ++ chars ";;") /\ same_walks i j.
Proof.
  intros d i x ft L I N P. destruct (item_shown d (isz i) i (Nat.le_refl _) (conj L P)) as (s0 & js & X).
  destruct (rule_shown d (RRule i x (FootCode None)) (conj L (conj I Logic.I)) (conj N P)) as (s & r' & A & (i0 & j & x0 & ft0 & E & -> & S0 & _) & C & W).
  injection E as <- <- <-. exists s, j. split; [exact A |]. split; [| exact S0].
  specialize (W [] [] outer Logic.I). rewrite !app_nil_r in W. split; [apply W, wr_end, empty_gap |]. apply clean_app; [exact C | clean_text].
Qed.
Print Assumptions C110_rule_partial.
(** The same ways: the same texts. *)
Theorem C110_ways : forall f i j, same_walks i j -> forall w, says f i w <-> says f j w.
Proof. exact walks_say. Qed.
Print Assumptions C110_ways.

(** The rules printed, behind the declarations, are a file that is read if the original one
    is, and describes the same language. *)
Theorem C110_dump_partial : forall ast f, legible f -> Forall spoken_rule (rules_ f) -> readable ast f ->
  exists ss s0 g,
    Forall2 (fun r s => print (rule_means (describe f) r) = Some s) (rules_ f) ss /\
    written outer (flat_map dshow (all_decls f)) s0 outer /\
    file_text (file_show g) (s0 ++ flat_map (fun s => s ++ chars ";;" ++ [LF]) ss) /\
    readable ast g /\ all_decls g = all_decls f /\ (forall x w, sentence f x w <-> sentence g x w).
Proof.
  intros ast f L S0 R. destruct (dump_shown f L S0) as (ss & s0 & g & A & B & C & D & _ & _ & F). exists ss, s0, g.
  split; [exact A |]. split; [exact B |]. split; [exact C |]. split; [exact (dump_readable ast f g D F R) |]. split; [exact D |].
  intros x w. split; [apply (sentence_there f g F) | apply (sentence_back f g F)].
Qed.
Print Assumptions C110_dump_partial.

(** Not so for a rule with operators, and for a rule with nothing but code: only the arrow and
    the symbol are printed, which is no rule. *)
Theorem C110_refuted : forall d r x, identifier x ->
  (exists b args l ft, r = ROperators b args l x ft) \/ (exists u ft, r = RRule (IOnlyCode u) x ft) ->
  print (rule_means d r) = Some (chars " -> " ++ x) /\
  forall r', ~ file_text (rule_show r') ((chars " -> " ++ x) ++ chars ";;").
Proof.
  intros d r x I H. split.
  - destruct H as [(b & args & l & ft & ->) | (u & ft & ->)]; reflexivity.
  - intros r' F. rewrite <- app_assoc in F. pose proof (C107_unambiguous _ _ _ F (bare_arrow x I)) as E.
    destruct (rule_first r') as (y & l & E' & N). rewrite E' in E. injection E as -> _. apply N. reflexivity.
Qed.
Print Assumptions C110_refuted.
(** Branches of code alone disappear as well, and what is left is no rule. *)
Definition tok_a : isrc := IAtom (ATok (chars "A")).
Theorem C110_branch_refuted : forall u x, identifier x ->
  print (rule_means (fun x => x) (RRule (IPar (IOr tok_a (IOnlyCode u))) x (FootCode None))) = Some (chars "(A | ) -> " ++ x) /\
  forall r', ~ file_text (rule_show r') ((chars "(A | ) -> " ++ x) ++ chars ";;").
Proof.
  intros u x I. split; [reflexivity |]. intros r' F.
  assert (T : file_text ([(Chr "(", []); (Tok "T_TERMINAL", chars "A"); (Chr "|", []); (Chr ")", [])] ++ [(Tok "T_ARROW", []); (Tok "T_IDENTIFIER", x); (Chr ";", [])]) ((chars "(A | ) -> " ++ x) ++ chars ";;")).
  { destruct (bare_arrow x I) as [B Cl]. split; [| rewrite <- app_assoc; apply (clean_app (chars "(A | )")); [clean_text | exact Cl]]. rewrite <- app_assoc.
    change (chars "(A | ) -> " ++ x ++ chars ";;") with ("("%char :: chars "A" ++ chars " " ++ "|"%char :: chars " " ++ ")"%char :: chars " -> " ++ x ++ chars ";;").
    apply put_char; [in_list |]. apply put_terminal; [split; [discriminate | intros e [<- | []]; in_list] | left; reflexivity |].
    apply put_space. apply put_char; [in_list |]. apply put_space. apply put_char; [in_list |]. exact B. }
  pose proof (C107_unambiguous _ _ _ F T) as E. destruct r' as [i y ft | b args l y ft]; [| discriminate E].
  pose proof (fine_rule i y ft) as Q. rewrite E in Q. discriminate Q.
Qed.
Print Assumptions C110_branch_refuted.

(** A rule with about everything: #x=A b ( [: code :] ?[: c :] C | 0 | ?D )+ @ E try/rollback(F) catch(0). *)
Definition rich : isrc :=
  IThen (IThen (IBind true true (chars "x") (ATok (chars "A"))) (IWithCode (IAtom (ASym (chars "b") (Some (chars "1")))) (chars " go(); ")))
    (IThen (IListOf (IMany (IOr (IWhen (chars " c ") (IThen (IOnlyCode (chars " f(); ")) (IAtom (ATok (chars "C"))))) (IPar (IOr IEmpty (IMaybe (IAtom (ATok (chars "D")))))))) (IAtom (ATok (chars "E"))))
       (IRollback (IAtom (ATok (chars "F"))) IEmpty)).
Example C110_case : i_legible rich /\ silent rich = false /\ spoken rich = true /\
  print (rule_means (fun x => x) (RRule rich (chars "s") (FootCode None))) =
    Some (chars "#x=A b (( C | 0 | D | 0))+ (E (( C | 0 | D | 0))+)* try/rollback(F) catch(0) -> s").
Proof.
  split; [| split; [reflexivity | split; vm_compute; reflexivity]].
  assert (Cd : forall w, existsb (Ascii.eqb ":") w = false -> cleanb w = true -> code_text w).
  { intros w A B. split; [apply no_colon_body, not_in_text, A | apply clean_b, B]. }
  cbn [rich i_legible atom_legible if_any]. repeat match goal with |- _ /\ _ => split end; try exact Logic.I; try discriminate;
    try (apply Cd; reflexivity); try (apply all_there; vm_compute; reflexivity); try (apply word_there; vm_compute; reflexivity); try (apply not_all_there; vm_compute; reflexivity).
  all: match goal with |- terminal _ => term_ | |- identifier _ => name_ | _ => idtac end.
  split; [| split; [discriminate | clean_text]]. apply (pa_char "1"%char []); [| apply pa_nil]. apply not_in_text. reflexivity.
Qed.
