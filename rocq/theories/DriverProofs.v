(** About the options of the driver. *)
From Coq Require Import List NArith Ascii String Bool PeanoNat Lia.
From Verif Require Import FlexModel GraphModel DriverModel DriverSpec.
Import ListNotations.
Open Scope string_scope.
Open Scope list_scope.

Lemma is_spec x y : is x y = true <-> x = chars y.
Proof. unfold is, same. destruct (list_eq_dec ascii_dec x (chars y)); split; congruence. Qed.
Lemma after_spec p : forall x v, after p x = Some v <-> x = p ++ v.
Proof.
  induction p as [| a p IH]; intros x v; cbn [after app]; [split; congruence |]. destruct x as [| b x]; [split; discriminate |].
  destruct (Ascii.eqb_spec a b) as [-> | N]; [rewrite IH; split; congruence |]. split; [discriminate | congruence].
Qed.
Lemma after_none p x : after p x = None -> forall v, x <> p ++ v.
Proof. intros H v E. apply after_spec in E. congruence. Qed.
Lemma is_not x y : is x y = false -> x <> chars y.
Proof. intros H E. apply is_spec in E. congruence. Qed.

(** What one argument does to a member, and what all of them do. *)
Section F.
Variable opens : text -> bool.
Variables (A : Type) (fld : options -> A) (t : table A).
Definition obeys : Prop := forall x o o', argument opens x o = Some o' -> (forall v, t x v -> fld o' = v) /\ ((forall v, ~ t x v) -> fld o' = fld o) /\ ((exists v, t x v) \/ forall v, ~ t x v).
Lemma obeyed : obeys -> forall args o o', arguments opens args o = Some o' -> decided t (fld o) args (fld o').
Proof.
  intros Ob. induction args as [| x args IH]; intros o o' E; cbn [arguments] in E.
  - injection E as <-. right. split; [intros y u [] | reflexivity].
  - destruct (argument opens x o) as [o1|] eqn:Ex; [| discriminate]. destruct (Ob _ _ _ Ex) as (Yes & No & Dec). destruct (IH _ _ E) as [(l & y & r & -> & Ty & Nr) | (N & Eq)].
    + left. exists (x :: l), y, r. split; [reflexivity | auto].
    + destruct Dec as [(v & Tv) | Nx].
      * left. exists [], x, args. rewrite Eq, (Yes v Tv). split; [reflexivity |]. split; [exact Tv | intros y u I; apply N; exact I].
      * right. split; [intros y u [<- | I]; [apply Nx | apply N; exact I] |]. rewrite Eq. apply No. exact Nx.
Qed.
End F.

(** One argument, case by case. *)
Section E.
Variable opens : text -> bool.
Inductive effect (x : text) (o : options) : options -> Prop :=
| e_output v : x = chars "--output=" ++ v -> effect x o (set_output true (set_language v o))
| e_namespace v : x = chars "--namespace=" ++ v -> effect x o (set_ns v o)
| e_no_output : x = chars "--no-output" -> effect x o (set_output false o)
| e_no_ast : x = chars "--no-ast" -> effect x o (set_ast false o)
| e_with_ast : x = chars "--with-ast" -> effect x o (set_ast true o)
| e_serialize_visitor : x = chars "--serialize-visitor" -> effect x o (set_serialize true o)
| e_ignore_conflicts : x = chars "--ignore-conflicts" -> effect x o (set_conflicts Ignore o)
| e_strict_conflicts : x = chars "--strict-conflicts" -> effect x o (set_conflicts Strict o)
| e_permissive_conflicts : x = chars "--permissive-conflicts" -> effect x o (set_conflicts Permissive o)
| e_debug_visitor : x = chars "--debug-visitor" -> effect x o (set_debug true o)
| e_token_text : x = chars "--token-text" -> effect x o (set_token_text true o)
| e_no_parser : x = chars "--no-parser" -> effect x o (set_parser_said true (set_parser false o))
| e_with_parser : x = chars "--with-parser" -> effect x o (set_parser_said true (set_parser true o))
| e_no_lexer : x = chars "--no-lexer" -> effect x o (set_lexer_said true (set_lexer false o))
| e_with_lexer : x = chars "--with-lexer" -> effect x o (set_lexer_said true (set_lexer true o))
| e_beautiful_code : x = chars "--beautiful-code" -> effect x o (set_line_numbers BeautifulCode o)
| e_error_aware_code : x = chars "--error-aware-code" -> effect x o (set_line_numbers FullLineNumbers o)
| e_compatible_error_aware_code : x = chars "--compatible-error-aware-code" -> effect x o (set_line_numbers CompatibilityLineNumbers o)
| e_visitor_table : x = chars "--visitor-table" -> effect x o (set_table true o)
| e_visitor_switch : x = chars "--visitor-switch" -> effect x o (set_table false o)
| e_new_visitor v : x = chars "--new-visitor=" ++ v -> effect x o (set_output false (set_conflicts Ignore (set_new_visitor v o)))
| e_inherit_default_visitor : x = chars "--inherit-default-visitor" -> effect x o (set_inherit true o)
| e_inherit_abstract_visitor : x = chars "--inherit-abstract-visitor" -> effect x o (set_inherit false o)
| e_terminals : x = chars "--terminals" -> effect x o (set_dump_terminals true o)
| e_symbols : x = chars "--symbols" -> effect x o (set_dump_symbols true o)
| e_rules : x = chars "--rules" -> effect x o (set_dump_rules true o)
| e_automata : x = chars "--automata" -> effect x o (set_dump_automata true o)
| e_file : ~ option_word x -> x <> [] -> opens x = true -> file o = [] -> effect x o (set_file x o)
| e_ignored : ~ option_word x -> file o <> [] \/ x = [] \/ opens x = false -> effect x o o.
Lemma argument_effect x o :
  match argument opens x o with Some o' => effect x o o' /\ ~ information x | None => information x end.
Proof.
  unfold argument.
  destruct (after (chars "--output=") x) eqn:K1; [apply after_spec in K1; split; [econstructor; exact K1 | unfold information; rewrite K1; intuition discriminate] | pose proof (after_none _ _ K1) as N1; clear K1].
  destruct (after (chars "--namespace=") x) eqn:K2; [apply after_spec in K2; split; [econstructor; exact K2 | unfold information; rewrite K2; intuition discriminate] | pose proof (after_none _ _ K2) as N2; clear K2].
  repeat (match goal with |- match (if is x ?y then _ else _) with _ => _ end => let K := fresh "K" in
    destruct (is x y) eqn:K; [apply is_spec in K; split; [constructor; exact K | unfold information; rewrite K; intuition discriminate] | apply is_not in K] end).
  destruct (after (chars "--new-visitor=") x) eqn:KV; [apply after_spec in KV; split; [econstructor; exact KV | unfold information; rewrite KV; intuition discriminate] | pose proof (after_none _ _ KV) as N3; clear KV].
  repeat (match goal with |- match (if is x ?y then _ else _) with _ => _ end => let K := fresh "K" in
    destruct (is x y) eqn:K; [apply is_spec in K; split; [constructor; exact K | unfold information; rewrite K; intuition discriminate] | apply is_not in K] end).
  destruct (is x "--help" || is x "--version" || is x "--author" || is x "--usage") eqn:KI.
  { rewrite !orb_true_iff, !is_spec in KI. unfold information. tauto. }
  rewrite !orb_false_iff in KI. destruct KI as (((I1 & I2) & I3) & I4). apply is_not in I1, I2, I3, I4.
  repeat (match goal with |- match (if is x ?y then _ else _) with _ => _ end => let K := fresh "K" in
    destruct (is x y) eqn:K; [apply is_spec in K; split; [constructor; exact K | unfold information; rewrite K; intuition discriminate] | apply is_not in K] end).
  assert (O : ~ option_word x).
  { intros (f & I & F). unfold all_forms in I. cbn [In] in I. repeat (destruct I as [<- | I]; [cbn [fits] in F; solve [contradiction | destruct F as (u & F); solve [exact (N1 u F) | exact (N2 u F) | exact (N3 u F)]] |]). exact I. }
  assert (J : ~ information x) by (unfold information; tauto).
  destruct (file o) eqn:Fo; [| split; [apply e_ignored; [exact O | left; congruence] | exact J]].
  destruct x as [| a x]; [split; [apply e_ignored; auto | exact J] |]. destruct (opens (a :: x)) eqn:Op; (split; [| exact J]); [apply e_file; [exact O | discriminate | exact Op | exact Fo] | apply e_ignored; auto].
Qed.
End E.

(** The options one by one. *)
Definition fitsb (f : form) (x : text) : bool := match f with Word w => is x w | With w => match after (chars w) x with Some _ => true | None => false end end.
Lemma fitsb_spec f x : fitsb f x = true <-> fits f x.
Proof.
  destruct f as [w | w]; cbn [fits fitsb]; [apply is_spec |]. destruct (after (chars w) x) as [v|] eqn:E; split; try discriminate.
  - intros _. exists v. apply after_spec. exact E.
  - reflexivity.
  - intros (v & ->). pose proof (proj2 (after_spec (chars w) (chars w ++ v) v) eq_refl). congruence.
Qed.
Fixpoint choose {A} (l : list (form * A)) (x : text) : option A := match l with [] => None | (f, v) :: l => if fitsb f x then Some v else choose l x end.
Lemma choose_some A (l : list (form * A)) x v : choose l x = Some v -> switch l x v.
Proof.
  induction l as [| [f u] l IH]; cbn [choose]; [discriminate |]. destruct (fitsb f x) eqn:F.
  - intros E. injection E as <-. exists f. split; [left; reflexivity | apply fitsb_spec; exact F].
  - intros E. destruct (IH E) as (g & I & G). exists g. split; [right; exact I | exact G].
Qed.
Lemma choose_none A (l : list (form * A)) x : choose l x = None -> forall v, ~ switch l x v.
Proof.
  induction l as [| [f u] l IH]; cbn [choose]; intros E v (g & I & G); [destruct I |]. destruct (fitsb f x) eqn:F; [discriminate |]. destruct I as [I | I].
  - injection I as -> ->. apply fitsb_spec in G. congruence.
  - apply (IH E v). exists g. auto.
Qed.
Lemma choose_other A (l : list (form * A)) x : ~ option_word x -> (forall f v, In (f, v) l -> In f all_forms) -> choose l x = None.
Proof.
  intros N H. destruct (choose l x) as [v|] eqn:E; [| reflexivity]. exfalso. apply choose_some in E. destruct E as (f & I & F). apply N. exists f. split; [exact (H _ _ I) | exact F].
Qed.
Lemma obey_switch opens A (fld : options -> A) (l : list (form * A)) :
  (forall f v, In (f, v) l -> In f all_forms) -> (forall x v u, switch l x v -> switch l x u -> v = u) ->
  (forall x o o', effect opens x o o' -> fld o' = match choose l x with Some v => v | None => fld o end) -> obeys opens A fld (switch l).
Proof.
  intros Fo Un H x o o' E. pose proof (argument_effect opens x o) as Ef. rewrite E in Ef. destruct Ef as [Ef _]. specialize (H _ _ _ Ef). destruct (choose l x) as [v|] eqn:C.
  - pose proof (choose_some _ _ _ _ C) as S1. split; [intros u T1; rewrite H; eapply Un; eassumption |]. split; [intros N; destruct (N v S1) | left; eauto].
  - pose proof (choose_none _ _ _ C) as N. split; [intros u T1; destruct (N u T1) |]. split; [intros _; exact H | right; exact N].
Qed.
Lemma obey_value opens (fld : options -> text) w :
  (forall x o o', effect opens x o o' -> fld o' = match after (chars w) x with Some v => v | None => fld o end) -> obeys opens text fld (value w).
Proof.
  intros H x o o' E. pose proof (argument_effect opens x o) as Ef. rewrite E in Ef. destruct Ef as [Ef _]. specialize (H _ _ _ Ef). destruct (after (chars w) x) as [v|] eqn:C.
  - apply after_spec in C. split; [intros u T1; unfold value in T1; rewrite H; apply (app_inv_head (chars w)); congruence |]. split; [intros N; destruct (N v C) | left; exists v; exact C].
  - pose proof (after_none _ _ C) as N. split; [intros u T1; destruct (N u T1) |]. split; [intros _; exact H | right; exact N].
Qed.
Ltac forms := let f := fresh in let v := fresh in let I := fresh in intros f v I; cbn [In] in I; unfold all_forms; cbn [In]; repeat (destruct I as [I | I]; [injection I as <- <-; tauto |]); destruct I.
Ltac unique := let f := fresh in let I := fresh in let F := fresh in let f' := fresh in let I' := fresh in let F' := fresh in
  intros ? ? ? (f & I & F) (f' & I' & F'); cbn [In] in I, I';
  repeat (destruct I as [I | I]); try (destruct I; fail); repeat (destruct I' as [I' | I']); try (destruct I'; fail);
  injection I as <- <-; injection I' as <- <-; first [reflexivity | exfalso; cbn [fits] in F, F'; try (destruct F as (? & F)); try (destruct F' as (? & F')); rewrite F in F'; discriminate F'].
Ltac effects H := let x := fresh "x" in let o := fresh "o" in let o' := fresh "o'" in intros x o o' H; destruct H; try (subst x; reflexivity).
Ltac obey := apply obey_switch; [forms | unique | let H := fresh in effects H; rewrite choose_other by (first [assumption | forms]); reflexivity].
Lemma value_other w x : ~ option_word x -> In (With w) all_forms -> after (chars w) x = None.
Proof. intros N I. destruct (after (chars w) x) as [v|] eqn:E; [| reflexivity]. exfalso. apply N. exists (With w). split; [exact I |]. exists v. apply after_spec. exact E. Qed.
Ltac obey_v := apply obey_value; let H := fresh in effects H; rewrite value_other by (first [assumption | unfold all_forms; cbn [In]; tauto]); reflexivity.

Definition parser_word (o : options) : option bool := if parser_said o then Some (parser o) else None.
Definition lexer_word (o : options) : option bool := if lexer_said o then Some (lexer o) else None.
Section O.
Variable opens : text -> bool.
Lemma o_output : obeys opens bool output output_switch.
Proof. obey. Qed.
Lemma o_language : obeys opens text language (value "--output=").
Proof. obey_v. Qed.
Lemma o_ns : obeys opens text ns (value "--namespace=").
Proof. obey_v. Qed.
Lemma o_ast : obeys opens bool ast ast_switch.
Proof. obey. Qed.
Lemma o_serialize : obeys opens bool serialize (on "--serialize-visitor").
Proof. obey. Qed.
Lemma o_debug : obeys opens bool debug (on "--debug-visitor").
Proof. obey. Qed.
Lemma o_token_text : obeys opens bool token_text (on "--token-text").
Proof. obey. Qed.
Lemma o_conflicts : obeys opens policy conflicts conflict_switch.
Proof. obey. Qed.
Lemma o_line_numbers : obeys opens lines line_numbers line_switch.
Proof. obey. Qed.
Lemma o_table : obeys opens bool DriverModel.table table_switch.
Proof. obey. Qed.
Lemma o_parser : obeys opens (option bool) parser_word parser_switch.
Proof. obey. Qed.
Lemma o_lexer : obeys opens (option bool) lexer_word lexer_switch.
Proof. obey. Qed.
Lemma o_new_visitor : obeys opens text new_visitor (value "--new-visitor=").
Proof. obey_v. Qed.
Lemma o_inherit : obeys opens bool inherit inherit_switch.
Proof. obey. Qed.
Lemma o_terminals : obeys opens bool dump_terminals (on "--terminals").
Proof. obey. Qed.
Lemma o_symbols : obeys opens bool dump_symbols (on "--symbols").
Proof. obey. Qed.
Lemma o_rules : obeys opens bool dump_rules (on "--rules").
Proof. obey. Qed.
Lemma o_automata : obeys opens bool dump_automata (on "--automata").
Proof. obey. Qed.

Lemma information_stops args o : arguments opens args o = None <-> exists x, In x args /\ information x.
Proof.
  revert o. induction args as [| x args IH]; intros o; cbn [arguments].
  - split; [discriminate | intros (x & [] & _)].
  - pose proof (argument_effect opens x o) as H. destruct (argument opens x o) as [o1|].
    + rewrite IH. destruct H as [_ H]. split; [intros (y & I & J); exists y; split; [right; exact I | exact J] | intros (y & [<- | I] & J); [contradiction | eauto]].
    + split; [intros _; exists x; split; [left; reflexivity | exact H] | reflexivity].
Qed.
Lemma file_kept x o o' : effect opens x o o' -> file o <> [] -> file o' = file o.
Proof. intros H N. destruct H; try reflexivity. contradiction. Qed.
Lemma file_set x o o' : effect opens x o o' -> file o = [] -> names_file opens x /\ file o' = x \/ ~ names_file opens x /\ file o' = [].
Proof.
  intros H N.
  assert (Y : forall f, In f all_forms -> fits f x -> ~ names_file opens x) by (intros f I F (M & _); apply M; exists f; auto).
  destruct H; cbn [file set_output set_language set_ns set_ast set_serialize set_conflicts set_debug set_token_text set_parser set_parser_said set_lexer set_lexer_said set_line_numbers set_table
    set_new_visitor set_inherit set_dump_terminals set_dump_symbols set_dump_rules set_dump_automata set_file] in *;
    try (right; split; [| exact N]; match goal with H : x = chars ?w ++ ?v |- _ => apply (Y (With w)); [unfold all_forms; cbn [In]; tauto | exists v; exact H] | H : x = chars ?w |- _ => apply (Y (Word w)); [unfold all_forms; cbn [In]; tauto | exact H] end).
  - left. split; [split; auto | reflexivity].
  - right. split; [| exact N]. intros (_ & A & B). destruct H0 as [H0 | [H0 | H0]]; congruence.
Qed.
Lemma file_stays args : forall o o', arguments opens args o = Some o' -> file o <> [] -> file o' = file o.
Proof.
  induction args as [| x args IH]; intros o o' E N; cbn [arguments] in E; [congruence |]. pose proof (argument_effect opens x o) as H. destruct (argument opens x o) as [o1|]; [| discriminate].
  destruct H as [H _]. pose proof (file_kept _ _ _ H N) as K. rewrite (IH _ _ E) by congruence. exact K.
Qed.
Lemma file_chosen args : forall o o', arguments opens args o = Some o' -> file o = [] -> chosen_file opens args (file o').
Proof.
  induction args as [| x args IH]; intros o o' E N; cbn [arguments] in E.
  - injection E as <-. right. split; [exact N | intros y []].
  - pose proof (argument_effect opens x o) as H. destruct (argument opens x o) as [o1|]; [| discriminate]. destruct H as [H _]. destruct (file_set _ _ _ H N) as [(Nf & F) | (Nf & F)].
    + left. exists [], args. rewrite (file_stays _ _ _ E) by (rewrite F; apply Nf). rewrite F. split; [reflexivity |]. split; [exact Nf | intros y []].
    + destruct (IH _ _ E F) as [(l & r & -> & A & B) | (A & B)].
      * left. exists (x :: l), r. split; [reflexivity |]. split; [exact A |]. intros y [<- | I]; auto.
      * right. split; [exact A |]. intros y [<- | I]; auto.
Qed.
End O.
