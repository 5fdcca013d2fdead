(** Right sides of rules, and rules. *)
From Coq Require Import List NArith Ascii String Bool PeanoNat Lia.
From Verif Require Import YaccModel YaccSpec YaccProofs YaccReadProofs FlexModel ScanModel DeclModel GramModel GramTableProofs GramSpec GramFineProofs GramReadProofs.
Import ListNotations.
Open Scope string_scope.
Open Scope list_scope.

Definition desc (w : world) (x : text) : text := match lookup x (terminals w) with Some d => d | None => x end.
Lemma terminal_desc x w : terminal x w = ITerminal x (desc w x).
Proof. unfold terminal, desc. destruct (lookup x (terminals w)); reflexivity. Qed.
(** Symbols mentioned, and whether there was a try. *)
Definition seen (s : list text) (try : bool) (w : world) : world :=
  World (generateAst w) (hasLexer w) (automaton w) (env w) (action_end w) (regexps w) (terminals w) (bases w) (ops w)
    (needStateManagement w || try) (needOperatorStack w) (undefined w) (rev (map PushSymbol s) ++ events w).
Lemma seen_nil w : seen [] false w = w.
Proof. destruct w. unfold seen. cbn. rewrite orb_false_r. reflexivity. Qed.
Lemma seen_seen s p q r w : seen q r (seen s p w) = seen (s ++ q) (p || r) w.
Proof. unfold seen. cbn. rewrite map_app, rev_app_distr, <- app_assoc, orb_assoc. reflexivity. Qed.
Lemma seen_push x s p w : seen s p w <+ PushSymbol x = seen (s ++ [x]) p w.
Proof. unfold seen, log. cbn. rewrite map_app, rev_app_distr. reflexivity. Qed.
Lemma need_seen s p w : need_state (seen s p w) = seen s true w.
Proof. unfold need_state, seen. cbn. rewrite orb_true_r. reflexivity. Qed.
Lemma desc_seen s p w : desc (seen s p w) = desc w.
Proof. reflexivity. Qed.

(** ** Items *)
Definition iclass (n : nat) : string :=
  match n with 0 => "option_item" | 1 => "conditional_item" | 2 => "item_sequence" | 3 => "postfix_item" | 4 => "unary_item" | _ => "primary_item" end.
Lemma i_up n u b w v w' : n < 5 -> R (iclass (S n)) u b w v w' -> R (iclass n) u b w v w'.
Proof.
  intros L H. do 5 (destruct n as [| n]; [match goal with |- R (iclass ?k) _ _ _ _ _ => eapply (R_by (iclass k) (iclass (S k)));
    [vm_compute; reflexivity | vm_compute; reflexivity | vm_compute; reflexivity | vm_compute; reflexivity | apply RA_one; exact H | reflexivity] end |]). lia.
Qed.
Lemma i_to n m u b w v w' : n <= m -> m <= 5 -> R (iclass m) u b w v w' -> R (iclass n) u b w v w'.
Proof. intros L M H. induction L as [| m L IH]; [exact H |]. apply IH; [lia |]. apply i_up; [lia | exact H]. Qed.
Lemma ilevel_le i : ilevel i <= 5. Proof. destruct i; cbn; lia. Qed.

Definition after_item (i : isrc) (w : world) : world := seen (symbols_of i) (has_try i) w.
Definition item_read (i : isrc) (b : list val) (w : world) (x : string) : Prop :=
  R x (ishow i) b w (VItem (imeans (desc w) i)) (after_item i w).
Definition i_ok (i : isrc) : Prop := forall b w, lists_plain i = true ->
  item_read i b w (iclass (ilevel i)) /\ (3 <= ilevel i -> code_first i = false -> item_read i b w "postfix_item!n").

Lemma unary_n u b w v w' : R "unary_item" u b w v w' -> R "postfix_item!n" u b w v w'.
Proof. intro H. by_ "postfix_item!n" "unary_item"; [apply RA_one, H | reflexivity]. Qed.
Lemma i_at i n b w : n <= 5 -> i_ok i -> lists_plain i = true ->
  R (iclass n) (inside "(" ")" n (ilevel i) (ishow i)) b w (VItem (imeans (desc w) i)) (after_item i w).
Proof.
  intros L H P. unfold inside. destruct (Nat.ltb (ilevel i) n) eqn:C.
  - apply i_to with 5; [exact L | lia |]. by_ "primary_item" "'(' option_item ')'"; [a_tok; eapply RA_cons; [| z_tok] | reflexivity].
    apply (i_to 0 (ilevel i)); [lia | apply ilevel_le |]. apply H, P.
  - apply Nat.ltb_ge in C. apply i_to with (ilevel i); [exact C | apply ilevel_le | apply H, P].
Qed.
Lemma i_par i b w x : i_ok i -> lists_plain i = true -> In x ["primary_item"; "unary_item"; "postfix_item"; "postfix_item!n"] ->
  R x (c "(" ++ ishow i ++ c ")") b w (VItem (imeans (desc w) i)) (after_item i w).
Proof.
  intros H P I. assert (A : R "primary_item" (c "(" ++ ishow i ++ c ")") b w (VItem (imeans (desc w) i)) (after_item i w)).
  { by_ "primary_item" "'(' option_item ')'"; [a_tok; eapply RA_cons; [apply (i_to 0 (ilevel i)); [lia | apply ilevel_le | apply H, P] | z_tok] | reflexivity]. }
  destruct I as [<- | [<- | [<- | [<- | []]]]]; [exact A | apply (i_up 4); [lia | exact A] | apply (i_to 3 5); [lia | lia | exact A] |].
  apply unary_n, (i_up 4); [lia | exact A].
Qed.
(** One that stands first in a postfix_item!n. *)
Lemma i_at_n i b w : i_ok i -> lists_plain i = true -> Nat.leb 3 (ilevel i) && code_first i = false ->
  R "postfix_item!n" (inside "(" ")" 3 (ilevel i) (ishow i)) b w (VItem (imeans (desc w) i)) (after_item i w).
Proof.
  intros H P C. unfold inside. destruct (Nat.ltb (ilevel i) 3) eqn:L.
  - apply i_par; [exact H | exact P | cbn; tauto].
  - apply Nat.ltb_ge in L. apply H; [exact P | exact L |]. apply Nat.leb_le in L. rewrite L in C. exact C.
Qed.
Lemma atom_read a b w : R "primary_atom" (ashow_atom a) b w (VItem (atom_means (desc w) a)) (seen (atom_symbols a) false w).
Proof.
  destruct a as [x | x args]; cbn [ashow_atom atom_means atom_symbols].
  - rewrite seen_nil. by_ "primary_atom" "T_TERMINAL"; [z_tok |]. cbv [arg nth pred txt]. change (sem _ _ _ _) with (Some (VItem (terminal x w), w)).
    rewrite terminal_desc. reflexivity.
  - replace (seen [x] false w) with (w <+ PushSymbol x) by (rewrite <- (seen_nil w) at 1; apply seen_push).
    destruct args as [args |]; cbn [opt or_empty].
    + by_ "primary_atom" "T_IDENTIFIER rule_arguments_opt"; [a_tok; apply RA_one; by_ "rule_arguments_opt" "T_RULE_ARGUMENTS"; [z_tok | reflexivity] | reflexivity].
    + by_ "primary_atom" "T_IDENTIFIER rule_arguments_opt"; [a_tok; apply RA_one; by_ "rule_arguments_opt" ""; [apply RA_nil | reflexivity] | reflexivity].
Qed.
Lemma plain_visit d i : plain i = true -> forall st, visit (imeans d i) st = Some (imeans d i :: st).
Proof.
  induction i as [| a | x | s m x a | i IH | i IH | i IHi j IHj | i IH | i IH | i IH | i IHi j IHj | i IH x | x | i IHi j IHj | x i IH | i IHi j IHj];
    cbn [plain imeans]; intros P st; try discriminate P;
    repeat match goal with H : _ && _ = true |- _ => apply andb_true_iff in H as [? ?] end;
    repeat match goal with H : ?p = true -> _, J : ?p = true |- _ => specialize (H J) end;
    cbn [visit]; try (destruct a; reflexivity);
    rewrite ?IH, ?IHi; cbv beta iota; rewrite ?IHj; cbv beta iota; rewrite ?IHi; cbv beta iota; reflexivity.
Qed.
Lemma plain_clone d i : plain i = true -> clone (imeans d i) = Some (imeans d i).
Proof. intro P. unfold clone. rewrite plain_visit by exact P. reflexivity. Qed.
Lemma list_of_plain d i j w : plain i = true -> plain j = true ->
  list_of (imeans d i) (imeans d j) w = (VItem (imeans d (IListOf i j)), w).
Proof. intros A B. unfold list_of. rewrite !plain_clone by assumption. reflexivity. Qed.
Lemma scope_read (m : bool) b w : R "scope" (c (if m then "="%char else ":"%char)) b w (VStorage m) w.
Proof. destruct m; [by_ "scope" "'='" | by_ "scope" "':'"]; try z_tok; reflexivity. Qed.
Lemma name_read x b w : R "name" (t "T_IDENTIFIER" x) b w (VText x) w.
Proof. by_ "name" "T_IDENTIFIER"; [z_tok | reflexivity]. Qed.

Ltac after_eq := unfold after_item; cbn [symbols_of has_try]; rewrite ?seen_seen, ?need_seen, ?orb_true_r, ?orb_false_r; reflexivity.
Theorem items_read : forall i, i_ok i.
Proof.
  assert (Prim : forall i, 5 <= ilevel i -> (forall b w, lists_plain i = true -> item_read i b w "primary_item") -> i_ok i).
  { intros i L H b w P. assert (E : iclass (ilevel i) = "primary_item") by (pose proof (ilevel_le i); replace (ilevel i) with 5 by lia; reflexivity).
    rewrite E. split; [apply H, P |]. intros _ _. apply unary_n, (i_up 4); [lia | apply H, P]. }
  assert (Unary : forall i, ilevel i = 4 -> (forall b w, lists_plain i = true -> item_read i b w "unary_item") -> i_ok i).
  { intros i L H b w P. rewrite L. split; [apply H, P |]. intros _ _. apply unary_n, H, P. }
  induction i as [| a | x | s m x a | i IH | i IH | i IHi j IHj | i IH | i IH | i IH | i IHi j IHj | i IH x | x | i IHi j IHj | x i IH | i IHi j IHj].
  - apply Prim; [cbn; lia |]. intros b w _. unfold item_read, after_item. cbn [symbols_of has_try]. rewrite seen_nil.
    by_ "primary_item" "'0'"; [z_tok | reflexivity].
  - apply Prim; [cbn; lia |]. intros b w _. unfold item_read. by_ "primary_item" "primary_atom"; [apply RA_one, atom_read | reflexivity].
  - apply Prim; [cbn; lia |]. intros b w _. unfold item_read. by_ "primary_item" "T_INLINE T_IDENTIFIER"; [a_tok; z_tok |].
    unfold after_item. cbn [symbols_of has_try]. rewrite <- (app_nil_l [x]), <- seen_push, seen_nil. reflexivity.
  - apply Prim; [cbn; lia |]. intros b w _. unfold item_read. cbn [ishow]. destruct s; cbn [app].
    + by_ "primary_item" "'#' name scope primary_atom"; [a_tok; eapply RA_cons; [apply name_read | eapply RA_cons; [apply scope_read | apply RA_one, atom_read]] | reflexivity].
    + by_ "primary_item" "name scope primary_atom"; [eapply RA_cons; [apply name_read | eapply RA_cons; [apply scope_read | apply RA_one, atom_read]] | reflexivity].
  - apply Prim; [cbn; lia |]. intros b w P. apply (i_par i b w); [exact IH | exact P | cbn; tauto].
  - apply Prim; [cbn; lia |]. intros b w P. unfold item_read. cbn [ishow]. by_ "primary_item" "try_item"; [apply RA_one | reflexivity].
    by_ "try_item" "T_TRY_RECOVER '(' option_item ')'";
      [a_tok; a_tok; eapply RA_cons; [apply (i_to 0 (ilevel i)); [lia | apply ilevel_le | apply IH, P] | z_tok] |].
    match goal with |- sem _ _ _ ?w1 = _ => change (sem _ _ _ _) with (Some (VItem (imeans (desc w) (IRecover i)), need_state w1)) end.
    do 2 f_equal. after_eq.
  - apply Prim; [cbn; lia |]. intros b w P. cbn [lists_plain] in P. apply andb_true_iff in P as [Pi Pj]. unfold item_read. cbn [ishow].
    by_ "primary_item" "try_item"; [apply RA_one | reflexivity].
    by_ "try_item" "T_TRY_ROLLBACK '(' option_item ')' T_CATCH '(' option_item ')'";
      [a_tok; a_tok; eapply RA_cons; [apply (i_to 0 (ilevel i)); [lia | apply ilevel_le | apply IHi, Pi] |
        a_tok; a_tok; a_tok; eapply RA_cons; [apply (i_to 0 (ilevel j)); [lia | apply ilevel_le | apply IHj, Pj] | z_tok]] |].
    match goal with |- sem _ _ _ ?w1 = _ => change (sem _ _ _ _) with (Some (VItem (imeans (desc w) (IRollback i j)), need_state w1)) end.
    do 2 f_equal. after_eq.
  - apply Unary; [reflexivity |]. intros b w P. unfold item_read. cbn [ishow]. by_ "unary_item" "primary_item '+'";
      [eapply RA_cons; [apply (i_at i 5); [lia | exact IH | exact P] | z_tok] | reflexivity].
  - apply Unary; [reflexivity |]. intros b w P. unfold item_read. cbn [ishow]. by_ "unary_item" "primary_item '*'";
      [eapply RA_cons; [apply (i_at i 5); [lia | exact IH | exact P] | z_tok] | reflexivity].
  - apply Unary; [reflexivity |]. intros b w P. unfold item_read. cbn [ishow]. by_ "unary_item" "'?' primary_item";
      [a_tok; apply RA_one, (i_at i 5); [lia | exact IH | exact P] | reflexivity].
  - intros b w P. cbn [lists_plain] in P. rewrite !andb_true_iff in P. destruct P as [[[Pi Pj] Li] Lj].
    assert (F : forall b0, R "primary_item" (inside "(" ")" 5 (ilevel j) (ishow j)) b0 (after_item i w) (VItem (imeans (desc w) j)) (after_item j (after_item i w)))
      by (intro b0; exact (i_at j 5 b0 (after_item i w) (Nat.le_refl 5) IHj Lj)).
    assert (E : Some (list_of (imeans (desc w) i) (imeans (desc w) j) (after_item j (after_item i w))) = Some (VItem (imeans (desc w) (IListOf i j)), after_item (IListOf i j) w)).
    { rewrite list_of_plain by assumption. do 2 f_equal. after_eq. }
    split; [| intros _ C]; unfold item_read; cbn [ishow].
    + by_ "postfix_item" "postfix_item '@' primary_item"; [eapply RA_cons; [apply (i_at i 3); [lia | exact IHi | exact Li] | a_tok; apply RA_one, F] | exact E].
    + by_ "postfix_item!n" "postfix_item!n '@' primary_item"; [eapply RA_cons; [apply (i_at_n i); [exact IHi | exact Li | exact C] | a_tok; apply RA_one, F] | exact E].
  - intros b w P. split; [| intros _ C]; unfold item_read; cbn [ishow].
    + by_ "postfix_item" "postfix_item T_CODE"; [eapply RA_cons; [apply (i_at i 3); [lia | exact IH | exact P] | z_tok] | reflexivity].
    + by_ "postfix_item!n" "postfix_item!n T_CODE"; [eapply RA_cons; [apply (i_at_n i); [exact IH | exact P | exact C] | z_tok] | reflexivity].
  - intros b w P. split; [| intros _ C; discriminate C]. unfold item_read, after_item. cbn [symbols_of has_try]. rewrite seen_nil.
    by_ "postfix_item" "T_CODE"; [z_tok | reflexivity].
  - intros b w P. cbn [lists_plain] in P. apply andb_true_iff in P as [Pi Pj]. split; [| cbn [ilevel]; lia]. unfold item_read. cbn [ishow].
    by_ "item_sequence" "item_sequence postfix_item!n"; [eapply RA_cons; [apply (i_at i 2); [lia | exact IHi | exact Pi] | apply RA_one] |].
    + assert (F : R "postfix_item!n" (if code_first j then c "(" ++ ishow j ++ c ")" else inside "(" ")" 3 (ilevel j) (ishow j))
        (VItem (imeans (desc w) i) :: b) (after_item i w) (VItem (imeans (desc (after_item i w)) j)) (after_item j (after_item i w))).
      { destruct (code_first j) eqn:C; [apply i_par; [exact IHj | exact Pj | cbn; tauto] |].
        apply i_at_n; [exact IHj | exact Pj | rewrite C; apply andb_false_r]. }
      exact F.
    + match goal with |- sem _ _ _ ?w1 = _ => change (sem _ _ _ _) with (Some (VItem (imeans (desc w) (IThen i j)), w1)) end. do 2 f_equal. after_eq.
  - intros b w P. split; [| cbn [ilevel]; lia]. unfold item_read. cbn [ishow].
    by_ "conditional_item" "'?' T_CODE item_sequence"; [a_tok; a_tok; apply RA_one, (i_at i 2); [lia | exact IH | exact P] | reflexivity].
  - intros b w P. cbn [lists_plain] in P. apply andb_true_iff in P as [Pi Pj]. split; [| cbn [ilevel]; lia]. unfold item_read. cbn [ishow].
    by_ "option_item" "option_item '|' conditional_item"; [eapply RA_cons; [apply (i_at i 0); [lia | exact IHi | exact Pi] | a_tok; apply RA_one, (i_at j 1); [lia | exact IHj | exact Pj]] |].
    match goal with |- sem _ _ _ ?w1 = _ => change (sem _ _ _ _) with (Some (VItem (imeans (desc w) (IOr i j)), w1)) end. do 2 f_equal. after_eq.
Qed.
Lemma item_read_ i b w : lists_plain i = true -> R "option_item" (ishow i) b w (VItem (imeans (desc w) i)) (after_item i w).
Proof. intro P. apply (i_to 0 (ilevel i)); [lia | apply ilevel_le | apply items_read, P]. Qed.

(** ** Rules *)
Lemma code_opt_read o b w : R "code_opt" (opt code o) b w (VText (or_empty o)) w.
Proof. destruct o as [x |]; [by_ "code_opt" "T_CODE"; [z_tok | reflexivity] | by_ "code_opt" ""; [apply RA_nil | reflexivity]]. Qed.

Lemma var_read d b w : R "variableDeclaration" (vshow d) b w (VDecls [vmeans d]) w.
Proof.
  destruct d as [a m s x ty]. unfold vshow, vmeans. cbn [varg vmem vseq vname vtyp].
  assert (A : forall b, R "declarationType_opt" (if a then k "T_ARGUMENT" else []) b w (VArgument a) w)
    by (intro b0; destruct a; [by_ "declarationType_opt" "T_ARGUMENT"; [z_tok | reflexivity] | by_ "declarationType_opt" ""; [apply RA_nil | reflexivity]]).
  assert (M : forall b, R "storageType" (k (if m then "T_MEMBER" else "T_TEMPORARY")) b w (VStorage m) w)
    by (intro b0; destruct m; [by_ "storageType" "T_MEMBER"; [z_tok | reflexivity] | by_ "storageType" "T_TEMPORARY"; [z_tok | reflexivity]]).
  destruct ty as [[nd ty] |].
  - assert (K : forall b, R "variableType" (k (if nd then "T_NODE" else "T_VARIABLE")) b w (VKind (if nd then TypeNode else TypeVariable)) w)
      by (intro b0; destruct nd; [by_ "variableType" "T_NODE"; [z_tok | reflexivity] | by_ "variableType" "T_VARIABLE"; [z_tok | reflexivity]]).
    destruct s; cbn [app].
    + by_ "variableDeclaration" "declarationType_opt storageType variableType '#' T_IDENTIFIER ':' T_IDENTIFIER";
        [eapply RA_cons; [apply A | eapply RA_cons; [apply M | eapply RA_cons; [apply K | a_tok; a_tok; a_tok; z_tok]]] | reflexivity].
    + by_ "variableDeclaration" "declarationType_opt storageType variableType T_IDENTIFIER ':' T_IDENTIFIER";
        [eapply RA_cons; [apply A | eapply RA_cons; [apply M | eapply RA_cons; [apply K | a_tok; a_tok; z_tok]]] | reflexivity].
  - destruct s; cbn [app].
    + by_ "variableDeclaration" "declarationType_opt storageType T_TOKEN '#' T_IDENTIFIER ';'";
        [eapply RA_cons; [apply A | eapply RA_cons; [apply M | a_tok; a_tok; a_tok; z_tok]] | reflexivity].
    + by_ "variableDeclaration" "declarationType_opt storageType T_TOKEN T_IDENTIFIER ';'";
        [eapply RA_cons; [apply A | eapply RA_cons; [apply M | a_tok; a_tok; z_tok]] | reflexivity].
Qed.
Lemma vars_more l : forall u ds b w, R "variableDeclarations" u b w (VDecls ds) w ->
  R "variableDeclarations" (u ++ flat_map vshow l) b w (VDecls (ds ++ map vmeans l)) w.
Proof.
  induction l as [| d l IH]; intros u ds b w H; cbn [flat_map map].
  - rewrite !app_nil_r. exact H.
  - replace (u ++ vshow d ++ flat_map vshow l) with ((u ++ vshow d) ++ flat_map vshow l) by (rewrite app_assoc; reflexivity).
    replace (ds ++ vmeans d :: map vmeans l) with ((ds ++ [vmeans d]) ++ map vmeans l) by (rewrite <- app_assoc; reflexivity).
    apply IH. by_ "variableDeclarations" "variableDeclarations variableDeclaration"; [eapply RA_cons; [exact H | apply RA_one, var_read] | reflexivity].
Qed.
Lemma vars_read d l b w : R "variableDeclarations" (flat_map vshow (d :: l)) b w (VDecls (map vmeans (d :: l))) w.
Proof.
  cbn [flat_map map]. apply (vars_more l (vshow d) [vmeans d]). by_ "variableDeclarations" "variableDeclaration"; [apply RA_one, var_read | reflexivity].
Qed.

Lemma op_read o b w : R "operator" (oshow o) b w (VOper (omeans (desc w) o)) w.
Proof.
  destruct o as [[cd |] tk [cod |]]; unfold oshow, omeans; cbn [ocond otok ocode opt or_empty app]; rewrite <- ?app_assoc, <- terminal_desc.
  - by_ "operator" "'?' T_CODE T_TERMINAL T_CODE"; [a_tok; a_tok; a_tok; z_tok | reflexivity].
  - rewrite ?app_nil_r. by_ "operator" "'?' T_CODE T_TERMINAL"; [a_tok; a_tok; z_tok | reflexivity].
  - by_ "operator" "T_TERMINAL T_CODE"; [a_tok; z_tok | reflexivity].
  - rewrite ?app_nil_r. by_ "operator" "T_TERMINAL"; [z_tok | reflexivity].
Qed.
Definition pval (p : priority) : val := match p with PZero => VLiteral (pmeans p) | _ => VText (pmeans p) end.
Lemma prio_read p b w : R "priority" (pshow p) b w (pval p) w.
Proof.
  destruct p; [by_ "priority" "'0'"; [z_tok | reflexivity] | by_ "priority" "T_NUMBER"; [z_tok | reflexivity] |
    by_ "priority" "T_PRIORITY T_CODE"; [a_tok; z_tok | reflexivity]].
Qed.
Definition sval (a : assoc) : val := match a with Left | Right => VLiteral (smeans a) | _ => VText (smeans a) end.
Lemma assoc_read a b w : R "assoc" (sshow a) b w (sval a) w.
Proof.
  destruct a; [by_ "assoc" "T_LEFT_ASSOC"; [z_tok | reflexivity] | by_ "assoc" "T_RIGHT_ASSOC"; [z_tok | reflexivity] |
    by_ "assoc" "T_IS_LEFT_ASSOC T_CODE"; [a_tok; z_tok | reflexivity] | by_ "assoc" "T_IS_RIGHT_ASSOC T_CODE"; [a_tok; z_tok | reflexivity]].
Qed.
Lemma ptxt p : txt (pval p) = pmeans p. Proof. destruct p; reflexivity. Qed.
Lemma stxt a : txt (sval a) = smeans a. Proof. destruct a; reflexivity. Qed.
Lemma ops_one o b w : ops_ok o = true -> R "operatorDeclaration" (ops_show o) b w VNone (push_operator (ops_means (desc w) o) w).
Proof.
  intro K. destruct o as [o p a | o q p a | o p | o p [a |] | o q]; cbn [ops_show ops_means opt].
  - by_ "operatorDeclaration" "T_BIN operator priority assoc";
      [a_tok; eapply RA_cons; [apply op_read | eapply RA_cons; [apply prio_read | apply RA_one, assoc_read]] |].
    rewrite <- ptxt, <- stxt. reflexivity.
  - by_ "operatorDeclaration" "T_TERN operator operator priority assoc";
      [a_tok; eapply RA_cons; [apply op_read | eapply RA_cons; [apply op_read | eapply RA_cons; [apply prio_read | apply RA_one, assoc_read]]] |].
    rewrite <- ptxt, <- stxt. reflexivity.
  - by_ "operatorDeclaration" "T_PRE operator priority"; [a_tok; eapply RA_cons; [apply op_read | apply RA_one, prio_read] |].
    rewrite <- ptxt. reflexivity.
  - by_ "operatorDeclaration" "T_POST operator priority assoc";
      [a_tok; eapply RA_cons; [apply op_read | eapply RA_cons; [apply prio_read | apply RA_one, assoc_read]] |].
    rewrite <- ptxt, <- stxt. reflexivity.
  - rewrite app_nil_r. by_ "operatorDeclaration" "T_POST operator priority"; [a_tok; eapply RA_cons; [apply op_read | apply RA_one, prio_read] |].
    destruct p; [discriminate K | reflexivity | reflexivity].
  - by_ "operatorDeclaration" "T_PAREN operator operator"; [a_tok; eapply RA_cons; [apply op_read | apply RA_one, op_read] | reflexivity].
Qed.
Lemma ops_read l : forall b w, forallb ops_ok l = true ->
  exists v, R "operatorDeclarations" (flat_map ops_show l) b w v (set_ops (ops w ++ map (ops_means (desc w)) l) w).
Proof.
  induction l as [| o l IH]; intros b w K; cbn [flat_map map forallb] in *.
  - exists VNone. replace (set_ops (ops w ++ []) w) with w by (rewrite app_nil_r; destruct w; reflexivity).
    by_ "operatorDeclarations" ""; [apply RA_nil | reflexivity].
  - apply andb_true_iff in K as [Ko Kl].
    destruct (IH (VNone :: b) (push_operator (ops_means (desc w) o) w) Kl) as [v H].
    exists VNone. by_ "operatorDeclarations" "operatorDeclaration operatorDeclarations"; [eapply RA_cons; [apply ops_one, Ko | apply RA_one, H] |].
    match goal with |- sem _ _ _ ?w1 = _ => change (sem _ _ _ _) with (Some (VNone, w1)) end. do 2 f_equal.
    unfold push_operator, set_ops. cbn. rewrite <- app_assoc. reflexivity.
Qed.

(** The world after a rule. *)
Definition new_base (b x : text) (w : world) : world :=
  match lookup b (bases w) with Some _ => w | None => set_base b (capitalized x ++ chars "Ast") w end.
Definition after_rule (r : rule_src) (w : world) : world :=
  match r with
  | RRule i x f => seen (symbols_of i ++ [x]) (has_try i) w
  | ROperators b args l x f =>
    need_operators (seen [x] false (new_base b x (set_ops (map (ops_means (desc w)) l) (seen [b] false w))))
  end <+ PushRule (rule_means (desc w) r).

Lemma push_seen x w : w <+ PushSymbol x = seen [x] false w.
Proof. rewrite <- (seen_nil w) at 1. apply seen_push. Qed.
Lemma rule_read r w : rule_ok (generateAst w) r = true -> exists w1, (forall b, R "item" (match r with
    | RRule i x f => ishow i ++ k "T_ARROW" ++ t "T_IDENTIFIER" x ++ foot_show f
    | ROperators b args l x f => k "T_LOPR" ++ ashow_atom (ASym b args) ++ flat_map ops_show l ++ k "T_ROPR" ++ t "T_IDENTIFIER" x ++ foot_show f end)
    b w (VItem (rule_means (desc w) r)) w1) /\ after_rule r w = w1 <+ PushRule (rule_means (desc w) r).
Proof.
  intro K. eexists. split; [| reflexivity]. intro b. destruct r as [i x f | bs args l x f]; cbn [rule_ok] in K.
  - rewrite <- seen_push. fold (after_item i w). cbn [rule_means]. destruct f as [o | d l o | o d l]; cbn [foot_show foot_vars foot_code].
    + by_ "item" "option_item T_ARROW T_IDENTIFIER code_opt"; [eapply RA_cons; [apply item_read_, K | a_tok; a_tok; apply RA_one, code_opt_read] | reflexivity].
    + unfold vars_show. rewrite <- !app_assoc. by_ "item" "option_item T_ARROW T_IDENTIFIER '[' variableDeclarations ']' code_opt";
        [eapply RA_cons; [apply item_read_, K | a_tok; a_tok; a_tok; eapply RA_cons; [apply vars_read | a_tok; apply RA_one, code_opt_read]] | reflexivity].
    + unfold vars_show. by_ "item" "option_item T_ARROW T_IDENTIFIER T_CODE '[' variableDeclarations ']'";
        [eapply RA_cons; [apply item_read_, K | a_tok; a_tok; a_tok; a_tok; eapply RA_cons; [apply vars_read | z_tok]] | reflexivity].
  - apply andb_true_iff in K as [Ko Ka]. set (w0 := no_operators w).
    destruct (ops_read l [VItem (INonTerminal bs (or_empty args)); VText []; VNone] (seen [bs] false w0) Ko) as [vo _].
    assert (E : forall ds cd, Some (operator_rule (INonTerminal bs (or_empty args)) x ds cd (set_ops (map (ops_means (desc w)) l) (seen [bs] false w0))) =
       Some (VItem (IEvolve (IOperator x bs (map (ops_means (desc w)) l)) x ds cd),
         seen [x] false (new_base bs x (set_ops (map (ops_means (desc w)) l) (seen [bs] false w))))).
    { intros ds cd. unfold operator_rule, new_base. rewrite <- !push_seen.
      change (bases (set_ops _ (w0 <+ _))) with (bases w). change (bases (set_ops _ (w <+ _))) with (bases w). destruct (lookup bs (bases w)); reflexivity. }
    by_ "item" "@11 operatorRule".
    + eapply RA_skip.
      * by_ "@11" ""; [apply RA_nil |]. transitivity (if generateAst w then Some (nothing, w0) else None); [reflexivity | rewrite Ka; reflexivity].
      * apply RA_one. instantiate (2 := VItem (rule_means (desc w) (ROperators bs args l x f))). cbn [rule_means].
        destruct f as [o | d ds o | o d ds]; cbn [foot_show foot_vars foot_code].
        -- destruct (ops_read l (VItem (INonTerminal bs (or_empty args)) :: VText [] :: nothing :: b) (seen [bs] false w0) Ko) as [v H].
           by_ "operatorRule" "T_LOPR primary_atom operatorDeclarations T_ROPR T_IDENTIFIER code_opt";
             [a_tok; eapply RA_cons; [apply (atom_read (ASym bs args)) | eapply RA_cons; [exact H | a_tok; a_tok; apply RA_one, code_opt_read]] | exact (E _ _)].
        -- destruct (ops_read l (VItem (INonTerminal bs (or_empty args)) :: VText [] :: nothing :: b) (seen [bs] false w0) Ko) as [v H].
           unfold vars_show. rewrite <- !app_assoc.
           by_ "operatorRule" "T_LOPR primary_atom operatorDeclarations T_ROPR T_IDENTIFIER '[' variableDeclarations ']' code_opt";
             [a_tok; eapply RA_cons; [apply (atom_read (ASym bs args)) | eapply RA_cons; [exact H | a_tok; a_tok; a_tok; eapply RA_cons; [apply vars_read | a_tok; apply RA_one, code_opt_read]]] | exact (E _ _)].
        -- destruct (ops_read l (VItem (INonTerminal bs (or_empty args)) :: VText [] :: nothing :: b) (seen [bs] false w0) Ko) as [v H].
           unfold vars_show.
           by_ "operatorRule" "T_LOPR primary_atom operatorDeclarations T_ROPR T_IDENTIFIER T_CODE '[' variableDeclarations ']'";
             [a_tok; eapply RA_cons; [apply (atom_read (ASym bs args)) | eapply RA_cons; [exact H | a_tok; a_tok; a_tok; a_tok; eapply RA_cons; [apply vars_read | z_tok]]] | exact (E _ _)].
    + reflexivity.
Qed.
Lemma ast_rule r w : generateAst (after_rule r w) = generateAst w.
Proof.
  destruct r as [i x f | b args l x f]; [reflexivity |].
  change (generateAst (new_base b x (set_ops (map (ops_means (desc w)) l) (seen [b] false w))) = generateAst w).
  unfold new_base. destruct (lookup b (bases (set_ops (map (ops_means (desc w)) l) (seen [b] false w)))); reflexivity.
Qed.
Lemma rules_more l : forall u b w0 w v, R "rules" u b w0 v w -> forallb (rule_ok (generateAst w)) l = true ->
  exists v', R "rules" (u ++ flat_map rule_show l) b w0 v' (fold_left (fun w r => after_rule r w) l w).
Proof.
  induction l as [| r l IH]; intros u b w0 w v H K; cbn [flat_map fold_left forallb] in *.
  - rewrite app_nil_r. eauto.
  - apply andb_true_iff in K as [Kr Kl]. destruct (rule_read r w Kr) as (w1 & H1 & E).
    rewrite app_assoc. apply (IH (u ++ rule_show r) b w0 (after_rule r w) VNone).
    + by_ "rules" "rules item ';'"; [eapply RA_cons; [exact H |] |].
      * instantiate (1 := w1). instantiate (1 := [VItem (rule_means (desc w) r); VText []]).
        replace (rule_show r) with (match r with
          | RRule i x f => ishow i ++ k "T_ARROW" ++ t "T_IDENTIFIER" x ++ foot_show f
          | ROperators b args l x f => k "T_LOPR" ++ ashow_atom (ASym b args) ++ flat_map ops_show l ++ k "T_ROPR" ++ t "T_IDENTIFIER" x ++ foot_show f end ++ c ";").
        -- eapply RA_cons; [apply H1 | z_tok].
        -- destruct r; cbn [rule_show]; rewrite <- !app_assoc; reflexivity.
      * rewrite E. reflexivity.
    + replace (generateAst (after_rule r w)) with (generateAst w); [exact Kl |].
      symmetry. apply ast_rule.
Qed.

(** What the rules leave behind. *)
Lemma lookup_eq x (l : list (text * text)) : lookup x l = first_of l x.
Proof. reflexivity. Qed.
Definition same_text (x y : text) : bool := if list_eq_dec ascii_dec x y then true else false.
Lemma first_of_cons y (d : text) l x : first_of ((y, d) :: l) x = if same_text y x then Some d else first_of l x.
Proof. unfold first_of, same_text. cbn [find fst]. destruct (list_eq_dec ascii_dec y x); reflexivity. Qed.
Lemma first_of_app a b x : first_of (a ++ b) x = match first_of a x with Some d => Some d | None => first_of b x end.
Proof.
  induction a as [| [y d] a IH]; [reflexivity |]. cbn [app]. rewrite !first_of_cons. destruct (same_text y x); [reflexivity | exact IH].
Qed.
Lemma base_step r w x : lookup x (bases (after_rule r w)) =
  match lookup x (bases w) with Some b => Some b | None => first_of (operator_base r) x end.
Proof.
  destruct r as [i y f | b args l y f]; unfold after_rule; cbn [operator_base].
  - change (bases (seen _ _ w <+ _)) with (bases w). destruct (lookup x (bases w)); reflexivity.
  - match goal with |- lookup x (bases (need_operators (seen [y] false ?z) <+ ?e)) = _ => change (bases (need_operators (seen [y] false z) <+ e)) with (bases z) end.
    unfold new_base.
    change (bases (set_ops _ (seen _ _ w))) with (bases w).
    rewrite !lookup_eq. destruct (first_of (bases w) b) as [d |] eqn:E.
    + change (bases (set_ops _ (seen _ _ w))) with (bases w). rewrite first_of_cons. destruct (same_text b x) eqn:S.
      * unfold same_text in S. destruct (list_eq_dec ascii_dec b x); [subst | discriminate]. rewrite E. reflexivity.
      * destruct (first_of (bases w) x); reflexivity.
    + change (bases (set_base _ _ _)) with ((b, capitalized y ++ chars "Ast") :: bases w). rewrite !first_of_cons. destruct (same_text b x) eqn:S.
      * unfold same_text in S. destruct (list_eq_dec ascii_dec b x); [subst | discriminate]. rewrite E. reflexivity.
      * destruct (first_of (bases w) x); reflexivity.
Qed.
Lemma new_base_fields b x w :
  let w' := new_base b x w in
  terminals w' = terminals w /\ needStateManagement w' = needStateManagement w /\ undefined w' = undefined w /\
  events w' = events w /\ automaton w' = automaton w /\ hasLexer w' = hasLexer w.
Proof. unfold new_base. destruct (lookup b (bases w)); repeat split. Qed.
Lemma rule_fields r w :
  let w' := after_rule r w in
  terminals w' = terminals w /\ needStateManagement w' = needStateManagement w || rule_try r /\
  needOperatorStack w' = needOperatorStack w || rule_operators r /\ undefined w' = undefined w /\
  events w' = rev (rule_events (desc w) r) ++ events w /\ automaton w' = automaton w /\ hasLexer w' = hasLexer w.
Proof.
  destruct r as [i x f | b args l x f]; unfold after_rule; cbn [rule_try rule_operators].
  - unfold rule_events. cbn [rule_symbols]. rewrite rev_app_distr. cbn [rev app]. repeat split. cbn. rewrite orb_false_r. reflexivity.
  - pose proof (new_base_fields b x (set_ops (map (ops_means (desc w)) l) (seen [b] false w))) as (A & B & C & D & E & F).
    cbv zeta. set (w2 := new_base b x (set_ops (map (ops_means (desc w)) l) (seen [b] false w))) in *. clearbody w2.
    cbn in A, B, C, D, E, F. cbn. rewrite A, B, C, D, E, F, !orb_false_r, orb_true_r. repeat split.
Qed.
Lemma rules_fields l : forall w,
  let w' := fold_left (fun w r => after_rule r w) l w in
  terminals w' = terminals w /\ needStateManagement w' = needStateManagement w || existsb rule_try l /\
  needOperatorStack w' = needOperatorStack w || existsb rule_operators l /\ undefined w' = undefined w /\
  events w' = rev (flat_map (rule_events (desc w)) l) ++ events w /\ automaton w' = automaton w /\ hasLexer w' = hasLexer w /\
  forall x, lookup x (bases w') = match lookup x (bases w) with Some b => Some b | None => first_of (flat_map operator_base l) x end.
Proof.
  induction l as [| r l IH]; intro w; cbn [fold_left existsb flat_map].
  - rewrite !orb_false_r. repeat split. intro x. destruct (lookup x (bases w)); reflexivity.
  - destruct (rule_fields r w) as (A & B & C & D & E & F & G). destruct (IH (after_rule r w)) as (A' & B' & C' & D' & E' & F' & G' & H').
    rewrite A', B', C', D', E', F', G', A, B, C, D, E, F, G. rewrite !orb_assoc. repeat split.
    + rewrite rev_app_distr, <- app_assoc. f_equal. f_equal. unfold desc. rewrite A. reflexivity.
    + intro x. rewrite H', base_step, first_of_app. destruct (lookup x (bases w)); reflexivity.
Qed.
