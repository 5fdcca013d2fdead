(** Proofs: printed rules, and the file they make. *)
From Coq Require Import List Ascii String Bool PeanoNat Lia.
From Verif Require Import Base FlexModel ScanModel ScanSpec GramModel GramSpec WriteSpec WriteFileSpec WriteFileProofs PrintModel PrintSpec PrintProofs LangSpec LangProofs.
Import ListNotations.

(** ** Ways and sentences *)
Section F.
Variable f : file.
Fixpoint spells (p : list mark) (w : list text) : Prop :=
  match p with
  | [] => w = []
  | Met _ true x :: p => exists v, w = x :: v /\ spells p v
  | Met _ false x :: p => exists u v, w = u ++ v /\ sentence f x u /\ spells p v
  | _ :: p => spells p w
  end.
Lemma spells_app p q w : spells (p ++ q) w <-> exists u v, w = u ++ v /\ spells p u /\ spells q v.
Proof.
  revert w. induction p as [| m p IH]; intro w; cbn [app spells].
  - split; [intro H; exists [], w; auto | intros (u & v & -> & -> & H); exact H].
  - destruct m as [s [|] x | | | |]; try apply IH.
    + split.
      * intros (v & -> & H). apply IH in H. destruct H as (u & r & -> & U & R). exists (x :: u), r. split; [reflexivity |]. split; [exists u; auto | exact R].
      * intros (u & v & -> & (r & -> & R) & V). exists (r ++ v). split; [reflexivity |]. apply IH. exists r, v. auto.
    + split.
      * intros (a & v & -> & A & H). apply IH in H. destruct H as (u & r & -> & U & R). exists (a ++ u), r. rewrite <- app_assoc. split; [reflexivity |]. split; [exists a, u; auto | exact R].
      * intros (u & v & -> & (a & r & -> & A & R) & V). exists a, (r ++ v). rewrite <- app_assoc. split; [reflexivity |]. split; [exact A |]. apply IH. exists r, v. auto.
Qed.
Lemma spells_done m p w : m = Recovering \/ m = Trying \/ m = Catching -> spells (m :: p ++ [Done]) w <-> spells p w.
Proof.
  intro M. assert (E : spells (m :: p ++ [Done]) w <-> spells (p ++ [Done]) w) by (destruct M as [-> | [-> | ->]]; reflexivity). rewrite E, spells_app. split.
  - intros (u & v & -> & U & V). cbn [spells] in V. subst v. rewrite app_nil_r. exact U.
  - intro H. exists w, []. rewrite app_nil_r. repeat split. exact H.
Qed.
Lemma says_atom v a w : says f (IAtom a) w <-> spells [met v a] w.
Proof.
  destruct a as [x | x args]; cbn [met spells]; split.
  - inversion 1; subst. exists []. auto.
  - intros (u & -> & ->). apply y_tok.
  - inversion 1; subst. exists w, []. rewrite app_nil_r. auto.
  - intros (u & r & -> & U & ->). rewrite app_nil_r. apply y_sym. exact U.
Qed.
Lemma says_walks i w : says f i w <-> exists p, walks i p /\ spells p w.
Proof.
  split.
  - intro H. induction H;
      repeat match goal with X : exists p, walks _ p /\ spells p _ |- _ => let q := fresh "q" in destruct X as (q & ? & ?) end.
    + exists []. split; [constructor | reflexivity].
    + exists [met None (ATok x)]. split; [apply wk_atom | apply says_atom, y_tok].
    + exists [met None (ASym x args)]. split; [apply wk_atom | apply says_atom, y_sym; assumption].
    + exists [Met None false x]. split; [apply wk_inlined | exists w, []; rewrite app_nil_r; repeat split; assumption].
    + exists [met (Some (s, m, x)) a]. split; [apply wk_bind | apply says_atom; assumption].
    + eexists. split; [apply wk_par; eassumption | assumption].
    + eexists. split; [apply wk_recover; eassumption | apply spells_done; auto].
    + eexists. split; [apply wk_try; eassumption | apply spells_done; auto].
    + eexists. split; [apply wk_catch; eassumption | apply spells_done; auto].
    + eexists. split; [apply wk_many1; eassumption | assumption].
    + eexists. split; [eapply wk_many; eassumption | apply spells_app; eauto 6].
    + exists []. split; [constructor | reflexivity].
    + eexists. split; [eapply wk_any; eassumption | apply spells_app; eauto 6].
    + exists []. split; [constructor | reflexivity].
    + eexists. split; [apply wk_maybe; eassumption | assumption].
    + eexists. split; [apply wk_list1; eassumption | assumption].
    + eexists. split; [eapply wk_list; eassumption |]. apply spells_app. eexists _, _. split; [reflexivity |]. split; [assumption |]. apply spells_app. eauto 6.
    + eexists. split; [apply wk_with; eassumption | assumption].
    + exists []. split; [constructor | reflexivity].
    + eexists. split; [eapply wk_then; eassumption | apply spells_app; eauto 6].
    + eexists. split; [apply wk_when; eassumption | assumption].
    + eexists. split; [apply wk_left; eassumption | assumption].
    + eexists. split; [apply wk_right; eassumption | assumption].
  - intros (p & W & H). revert w H. induction W; intros w H;
      try (match type of H with spells (_ ++ _) _ => apply spells_app in H; destruct H as (u & v & -> & U & V) end).
    + cbn [spells] in H. subst w. apply y_empty.
    + apply says_atom in H. exact H.
    + cbn [spells] in H. destruct H as (u & v & -> & U & ->). rewrite app_nil_r. apply y_inlined. exact U.
    + apply y_bind. apply says_atom in H. exact H.
    + apply y_par. auto.
    + apply spells_done in H; [| auto]. apply y_recover. auto.
    + apply spells_done in H; [| auto]. apply y_try. auto.
    + apply spells_done in H; [| auto]. apply y_catch. auto.
    + apply y_many1. auto.
    + apply y_many; auto.
    + cbn [spells] in H. subst w. apply y_any0.
    + apply y_any; auto.
    + cbn [spells] in H. subst w. apply y_maybe0.
    + apply y_maybe. auto.
    + apply y_list1. auto.
    + apply spells_app in V. destruct V as (a & b & -> & A & B). apply y_list; auto.
    + apply y_with. auto.
    + cbn [spells] in H. subst w. apply y_only.
    + apply y_then; auto.
    + apply y_when. auto.
    + apply y_left. auto.
    + apply y_right. auto.
Qed.
End F.
Theorem walks_say f i j : same_walks i j -> forall w, says f i w <-> says f j w.
Proof. intros H w. rewrite !says_walks. split; intros (p & W & K); exists p; (split; [apply H; exact W | exact K]). Qed.

(** ** A rule *)
Definition shown_rule (r r' : rule_src) : Prop :=
  exists i j x ft, r = RRule i x ft /\ r' = RRule j x (FootCode None) /\ same_walks i j /\ lists_plain j = true.
Lemma rule_shown d r : rule_legible r -> spoken_rule r ->
  exists s r', print (rule_means d r) = Some s /\ shown_rule r r' /\ clean s /\
    forall ts s' q, over (chars ";") s' -> written outer ts s' q -> written outer (rule_show r' ++ ts) (s ++ chars ";;" ++ s') q.
Proof.
  destruct r as [i x ft | b args l x ft]; [| intros _ []]. intros (L & I & _) [N P].
  destruct (item_shown d (isz i) i (Nat.le_refl _) (conj L P)) as (s & js & X). destruct (alone_ok d i s js X N) as (j & A0 & _ & A1 & A2 & A3 & A4).
  exists (s ++ chars " -> " ++ x), (RRule j x (FootCode None)). split.
  { unfold print. cbn [rule_means item_nodes]. remember (S (item_nodes (imeans d i))) as n eqn:En. cbn [print_]. rewrite A0 by lia. reflexivity. }
  split; [exists i, j, x, ft; auto |]. split; [apply clean_app; [exact A4 |]; apply clean_app; [clean_text | apply word_clean, I] |].
  intros ts s' q O R. cbn [rule_show foot_show opt app]. rewrite <- !app_assoc. apply A3; [left; reflexivity |].
  change (chars " -> " ++ x ++ chars ";;" ++ s') with (chars " " ++ chars "->" ++ chars " " ++ x ++ chars ";;" ++ s'). apply put_space.
  match goal with |- written _ _ (?a ++ ?b) _ => change (a ++ b) with ([] ++ a ++ b) end.
  eapply wr_token; [apply empty_gap | apply w_arrow; discriminate | exact Logic.I |].
  replace (t "T_IDENTIFIER" x ++ c ";" ++ ts) with (word_token x :: (Chr ";", []) :: ts)
    by (unfold word_token; destruct I as (_ & U & C); destruct (forallb _ x) eqn:E; [exfalso; apply U, upper_forallb, E |]; destruct (text_dec x (chars "catch")); [contradiction | reflexivity]).
  eapply wr_token; [apply g_blank; [left; reflexivity | apply g_nil] | apply w_word, I | |].
  - split; [cbn [over chars app]; intro J; vm_compute in J; repeat (destruct J as [J | J]; [discriminate J |]); exact J | intros (_ & u & [E | E]); discriminate E].
  - match goal with |- written _ _ (?a ++ ?b) _ => change (a ++ b) with ([] ++ a ++ b) end.
    eapply wr_token; [apply empty_gap | apply (w_semicolon RuleFooter 1) | exact O | exact R].
Qed.

(** ** The dump *)
Definition dumped (ss : list text) : text := flat_map (fun s => s ++ chars ";;" ++ [LF]) ss.
Lemma written_line ts s q : written outer ts s q -> written outer ts (LF :: s) q.
Proof.
  intro W. remember outer as o eqn:E. destruct W as [q0 g G | q0 g x w follow q1 ts s q' G W1 Fo D]; subst q0.
  - apply wr_end. apply g_lf. exact G.
  - change (LF :: g ++ w ++ s) with ((LF :: g) ++ w ++ s). eapply wr_token; [apply g_lf; exact G | eassumption | assumption | assumption].
Qed.
Lemma rules_shown d rs : Forall rule_legible rs -> Forall spoken_rule rs ->
  exists ss rs', Forall2 (fun r s => print (rule_means d r) = Some s) rs ss /\ Forall2 shown_rule rs rs' /\ clean (dumped ss) /\
    written outer (flat_map rule_show rs') (dumped ss) outer.
Proof.
  intros L. induction L as [| r rs R L IH]; intro S0.
  - exists [], []. split; [constructor |]. split; [constructor |]. split; [clean_text |]. apply wr_end. apply g_nil.
  - inversion S0; subst. destruct IH as (ss & rs' & A & B & C & D); [assumption |].
    destruct (rule_shown d r) as (s & r' & P & Q & K & W); [assumption | assumption |]. exists (s :: ss), (r' :: rs').
    split; [constructor; assumption |]. split; [constructor; assumption |]. unfold dumped in *. cbn [flat_map]. split.
    + apply clean_app; [| exact C]. apply clean_app; [exact K | clean_text].
    + rewrite <- !app_assoc. apply W; [cbn [over app]; intro J; vm_compute in J; repeat (destruct J as [J | J]; [discriminate J |]); exact J |].
      apply written_line. exact D.
Qed.

(** ** The language *)
Section L.
Variables f g : file.
Hypothesis FG : Forall2 shown_rule (rules_ f) (rules_ g).
Lemma shown_there i x ft : In (RRule i x ft) (rules_ f) -> exists j ft', In (RRule j x ft') (rules_ g) /\ same_walks i j.
Proof.
  induction FG as [| r r' l l' R F IH]; [intros [] |]. intros [-> | J].
  - destruct R as (i0 & j & x0 & ft0 & E & -> & S0 & _). injection E as <- <- <-. exists j, (FootCode None). split; [left; reflexivity | exact S0].
  - destruct (IH F J) as (j & ft' & A & B). exists j, ft'. split; [right; exact A | exact B].
Qed.
Lemma shown_back j x ft : In (RRule j x ft) (rules_ g) -> exists i ft', In (RRule i x ft') (rules_ f) /\ same_walks i j.
Proof.
  induction FG as [| r r' l l' R F IH]; [intros [] |]. intros [-> | J].
  - destruct R as (i & j0 & x0 & ft0 & -> & E & S0 & _). injection E as <- <- _. exists i, ft0. split; [left; reflexivity | exact S0].
  - destruct (IH F J) as (i & ft' & A & B). exists i, ft'. split; [right; exact A | exact B].
Qed.
Lemma no_operators b args l x ft : ~ In (ROperators b args l x ft) (rules_ f) /\ ~ In (ROperators b args l x ft) (rules_ g).
Proof.
  induction FG as [| r r' u u' R F IH]; [split; intros [] |]. destruct R as (i & j & x0 & ft0 & -> & -> & _). destruct (IH F) as [A B].
  split; intros [E | J]; try discriminate E; auto.
Qed.
End L.
Lemma sentence_there f g : Forall2 shown_rule (rules_ f) (rules_ g) -> forall x w, sentence f x w -> sentence g x w.
Proof.
  intro FG.
  assert (X : (forall i w, says f i w -> says g i w) /\ (forall x w, sentence f x w -> sentence g x w) /\ (forall b l w, expression f b l w -> True));
    [| exact (proj1 (proj2 X))].
  apply says_all; intros; try exact Logic.I; try (econstructor; eassumption).
  - destruct (shown_there f g FG _ _ _ H) as (j & ft' & J & S0). apply (y_rule g j x ft'); [exact J |]. apply (walks_say g i j S0). exact H1.
  - destruct (no_operators f g FG b args l x ft) as [N _]. contradiction.
Qed.
Lemma sentence_back f g : Forall2 shown_rule (rules_ f) (rules_ g) -> forall x w, sentence g x w -> sentence f x w.
Proof.
  intro FG.
  assert (X : (forall i w, says g i w -> says f i w) /\ (forall x w, sentence g x w -> sentence f x w) /\ (forall b l w, expression g b l w -> True));
    [| exact (proj1 (proj2 X))].
  apply says_all; intros; try exact Logic.I; try (econstructor; eassumption).
  - destruct (shown_back f g FG _ _ _ H) as (j & ft' & J & S0). apply (y_rule f j x ft'); [exact J |]. apply (walks_say f j i S0). exact H1.
  - destruct (no_operators f g FG b args l x ft) as [_ N]. contradiction.
Qed.

Theorem dump_shown f : legible f -> Forall spoken_rule (rules_ f) ->
  exists ss s0 g,
    Forall2 (fun r s => print (rule_means (describe f) r) = Some s) (rules_ f) ss /\
    written outer (flat_map dshow (all_decls f)) s0 outer /\ file_text (file_show g) (s0 ++ dumped ss) /\
    all_decls g = all_decls f /\ head_ g = None /\ tail_ g = None /\ Forall2 shown_rule (rules_ f) (rules_ g).
Proof.
  intros (_ & D & R & _) S0. destruct (rules_shown (describe f) _ R S0) as (ss & rs & A & B & C & W).
  assert (SG : seg outer (flat_map dshow (all_decls f)) outer) by (apply seg_flat; apply (Forall_impl _ seg_decl D)).
  destruct SG as (s0 & C0 & W0). exists ss, s0, (File None (first_decl f) (decls_ f) rs None). split; [exact A |]. split.
  { specialize (W0 [] [] outer). rewrite !app_nil_r in W0. apply W0. apply wr_end. apply empty_gap. }
  split; [| repeat split; exact B]. split; [| apply clean_app; assumption].
  unfold file_show. cbn [head_ tail_ rules_ opt app]. rewrite app_nil_r. exact (W0 _ _ _ W).
Qed.
Lemma dump_readable ast f g : all_decls g = all_decls f -> Forall2 shown_rule (rules_ f) (rules_ g) -> readable ast f -> readable ast g.
Proof.
  intros E F (A & B & C & _). unfold readable. rewrite E. split; [exact A |]. split; [exact B |]. split; [exact C |].
  clear - F. induction F as [| r r' l l' (i & j & x & ft & _ & -> & _ & P) F IH]; [reflexivity |]. cbn [forallb rule_ok]. rewrite P. exact IH.
Qed.

(** ** What cannot be shown *)
Lemma ishow_first i : exists x l, ishow i = x :: l /\ fst x <> Tok "T_ARROW".
Proof.
  assert (In_ : forall n i, (exists x l, ishow i = x :: l /\ fst x <> Tok "T_ARROW") -> forall rest, exists x l, inside "(" ")" n (ilevel i) (ishow i) ++ rest = x :: l /\ fst x <> Tok "T_ARROW").
  { intros n i0 (x & l & E & N) rest. unfold inside. rewrite E. destruct (Nat.ltb (ilevel i0) n); [eexists _, _; split; [reflexivity | discriminate] | exists x, (l ++ rest); auto]. }
  induction i; cbn [ishow]; try (eexists _, _; split; [reflexivity | discriminate]); try (apply In_; assumption).
  - destruct a; eexists _, _; split; try reflexivity; discriminate.
  - destruct seq; eexists _, _; split; try reflexivity; discriminate.
Qed.
Lemma rule_first r : exists x l, rule_show r = x :: l /\ fst x <> Tok "T_ARROW".
Proof.
  destruct r as [i x ft | b args l x ft]; cbn [rule_show]; [| eexists _, _; split; [reflexivity | discriminate]].
  destruct (ishow_first i) as (y & l & E & N). rewrite E. exists y, (l ++ k "T_ARROW" ++ t "T_IDENTIFIER" x ++ foot_show ft ++ c ";"). auto.
Qed.
Lemma bare_arrow x : identifier x -> file_text [(Tok "T_ARROW", []); (Tok "T_IDENTIFIER", x); (Chr ";", [])] (chars " -> " ++ x ++ chars ";;").
Proof.
  intro I. split; [| apply clean_app; [clean_text |]; apply clean_app; [apply word_clean, I | clean_text]].
  change (chars " -> " ++ x ++ chars ";;") with (chars " " ++ chars "->" ++ chars " " ++ x ++ chars ";;"). apply put_space.
  match goal with |- written _ _ (?a ++ ?b) _ => change (a ++ b) with ([] ++ a ++ b) end.
  eapply wr_token; [apply empty_gap | apply w_arrow; discriminate | exact Logic.I |].
  replace [(Tok "T_IDENTIFIER", x); (Chr ";", [])] with (word_token x :: [(Chr ";", [])])
    by (unfold word_token; destruct I as (_ & U & C); destruct (forallb _ x) eqn:E; [exfalso; apply U, upper_forallb, E |]; destruct (text_dec x (chars "catch")); [contradiction | reflexivity]).
  eapply wr_token; [apply g_blank; [left; reflexivity | apply g_nil] | apply w_word, I | |].
  - split; [cbn [over chars app]; intro J; vm_compute in J; repeat (destruct J as [J | J]; [discriminate J |]); exact J | intros (_ & u & [E | E]); discriminate E].
  - change (chars ";;") with ([] ++ repeat ";"%char 2 ++ []).
    eapply wr_token; [apply empty_gap | apply (w_semicolon RuleFooter 1) | exact Logic.I | apply wr_end, g_nil].
Qed.

(** Nothing is written between a bar and a closing parenthesis. *)
Fixpoint fine (bar : bool) (l : tokens_) : bool :=
  match l with
  | [] => true
  | (Chr x, _) :: l => if Ascii.eqb x ")" then negb bar && fine false l else fine (Ascii.eqb x "|") l
  | (Tok _, _) :: l => fine false l
  end.
Lemma fine_char b x rest : x <> ")"%char -> x <> "|"%char -> fine b (c x ++ rest) = fine false rest.
Proof. intros A B. cbn [c app fine]. destruct (Ascii.eqb_spec x ")"); [contradiction |]. destruct (Ascii.eqb_spec x "|"); [contradiction | reflexivity]. Qed.
Lemma fine_close rest : fine false (c ")" ++ rest) = fine false rest.
Proof. reflexivity. Qed.
Lemma fine_tok b x v rest : fine b (t x v ++ rest) = fine false rest.
Proof. reflexivity. Qed.
Lemma fine_atom b a rest : fine b (ashow_atom a ++ rest) = fine false rest.
Proof. destruct a as [x | x [v |]]; reflexivity. Qed.
Lemma fine_inside n m ts : (forall b rest, fine b (ts ++ rest) = fine false rest) -> forall b rest, fine b (inside "(" ")" n m ts ++ rest) = fine false rest.
Proof.
  intros H b rest. unfold inside. destruct (Nat.ltb m n); [| apply H]. rewrite <- !app_assoc. rewrite fine_char by discriminate. rewrite H. apply fine_close.
Qed.
Lemma fine_item i : forall b rest, fine b (ishow i ++ rest) = fine false rest.
Proof.
  induction i; intros b rest; cbn [ishow]; rewrite <- ?app_assoc; rewrite ?fine_inside by assumption; try reflexivity;
    try (rewrite ?fine_char by discriminate; rewrite ?fine_inside by assumption; rewrite ?fine_char by discriminate; reflexivity).
  - apply fine_atom.
  - destruct seq, member; cbn [app]; rewrite <- ?app_assoc; cbn [c t app fine Ascii.eqb Bool.eqb]; rewrite ?fine_char by discriminate; cbn; apply fine_atom.
  - rewrite fine_char by discriminate. rewrite IHi. reflexivity.
  - unfold k. cbn [app fine]. rewrite fine_char by discriminate. rewrite IHi. reflexivity.
  - unfold k. cbn [app fine]. rewrite fine_char by discriminate. rewrite IHi1. cbn [app fine c negb andb Ascii.eqb Bool.eqb]. rewrite IHi2. reflexivity.
  - destruct (code_first i2); [| apply fine_inside; assumption]. rewrite <- !app_assoc. rewrite fine_char by discriminate. rewrite IHi2. reflexivity.
  - rewrite fine_char by discriminate. unfold code. rewrite fine_tok. apply fine_inside. assumption.
  - change (fine true (inside "(" ")" 1 (ilevel i2) (ishow i2) ++ rest) = fine false rest). apply fine_inside. assumption.
Qed.
Lemma fine_vars l : forall rest, fine false (flat_map vshow l ++ rest) = fine false rest.
Proof.
  induction l as [| v l IH]; intro rest; [reflexivity |]. cbn [flat_map]. rewrite <- app_assoc. unfold vshow.
  destruct v as [[|] [|] [|] n [[[|] y] |]]; cbn [varg vmem vseq vname vtyp k c t app fine Ascii.eqb Bool.eqb]; apply IH.
Qed.
Lemma fine_rule i x ft : fine false (rule_show (RRule i x ft)) = true.
Proof.
  cbn [rule_show]. rewrite fine_item. cbn [k t app fine].
  destruct ft as [[v |] | d l [v |] | v d l]; cbn [foot_show opt code t app fine]; try reflexivity;
    unfold vars_show; rewrite <- ?app_assoc; rewrite fine_char by discriminate; rewrite fine_vars; reflexivity.
Qed.
