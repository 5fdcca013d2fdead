(** Names of classes as the scanner gives them are words. *)
From Coq Require Import List Ascii String Bool PeanoNat Lia ZArith.
From Verif Require Import FlexModel FlexSpec FlexProofs ScanModel ScanProofs.
Import ListNotations.

Definition name_text (v : text) : Prop := forallb (fun c => letter c || under c || digit c) v = true.

(** No text is kept when the lexer rules are scanned. *)
Definition clear (s : scanner) : Prop := smode s = RULE_LEXER -> kept s = [].
Definition leaves (P : scanner -> Prop) (o : outcome) : Prop := match o with Go s | Give _ _ s | Reject s => P s | _ => True end.
Ltac each_rule I := repeat (destruct I as [<- | I]; [| try contradiction I]); try contradiction I.
Lemma act_clear m r cfg s t : In r (rules m) -> smode s = m -> kept s = [] -> leaves clear (act r cfg s t).
Proof.
  intros I M K. destruct m; cbn [rules] in I.
  all: repeat (destruct I as [<- | I]); try contradiction I.
  all: cbv [act r0 skip nl nl_more more_of one word valued bracket start_code]; repeat match goal with |- context [if ?b then _ else _] => destruct b | |- context [match pos ?s with _ => _ end] => destruct (pos s) end;
    cbv [leaves clear begin place opens code_starts newline yymore count_newlines smode kept]; destruct s; cbn in *; try exact Logic.I; intros; congruence.
Qed.
Lemma act_name m r cfg s t v s' : In r (rules m) -> act r cfg s t = Give (Tok "T_NAMED_REGEXP") v s' ->
  m = RULE_LEXER /\ v = copy (inner t) /\ pat r = RSeq (chr "{") (RSeq (RCls (fun c => letter c || under c)) (RSeq (RStar (RCls (fun c => letter c || under c || digit c))) (chr "}"))).
Proof.
  intros I H. destruct m; cbn [rules] in I.
  all: repeat (destruct I as [<- | I]); try contradiction I.
  all: cbv [act r0 skip nl nl_more more_of one word valued bracket start_code] in H; repeat match type of H with context [if ?b then _ else _] => destruct b | context [match pos ?s with _ => _ end] => destruct (pos s) end; try discriminate H.
  injection H as <- <-. auto.
Qed.
Lemma cstr_word v : name_text v -> copy v = v.
Proof.
  unfold name_text, copy. induction v as [|c v IH]; intros H; [reflexivity|]. cbn [forallb] in H. apply andb_true_iff in H. destruct H as (H & F). cbn [cstr].
  destruct (Ascii.eqb_spec c "000") as [->|E]; [discriminate H|]. rewrite (IH F). reflexivity.
Qed.
Lemma pattern_name t : lang (RSeq (chr "{") (RSeq (RCls (fun c => letter c || under c)) (RSeq (RStar (RCls (fun c => letter c || under c || digit c))) (chr "}")))) t -> name_text (copy (inner t)).
Proof.
  intros H. apply lang_seq' in H. destruct H as (u & w & -> & U & H). apply lang_chr in U. subst u.
  apply lang_seq' in H. destruct H as (a & w' & -> & A & H). apply lang_cls in A. destruct A as (c & -> & A).
  apply lang_seq' in H. destruct H as (b & z & -> & B & Z). apply lang_chr in Z. subst z. apply lang_star_cls in B.
  assert (N : name_text (c :: b)). { unfold name_text. cbn [forallb]. rewrite B, andb_true_r. apply orb_true_iff in A. destruct A as [-> | ->]; [reflexivity|]. rewrite orb_true_r. reflexivity. }
  replace (inner (["{"%char] ++ [c] ++ b ++ ["}"%char])) with (c :: b); [rewrite cstr_word; exact N|].
  unfold inner. cbn [app tl List.length]. rewrite app_length. cbn [List.length]. replace (S (S (List.length b + 1)) - 2) with (S (List.length b)) by lia. cbn [firstn]. rewrite firstn_app, firstn_all, Nat.sub_diag. cbn [firstn]. rewrite app_nil_r. reflexivity.
Qed.

Lemma clear_step cfg st s : s <> [] -> clear st -> leaves clear (fst (step cfg st s)) /\ forall v s', fst (step cfg st s) = Give (Tok "T_NAMED_REGEXP") v s' -> name_text v.
Proof.
  intros NE CL. destruct (step_cases cfg st s NE) as [(r & n & h & _ & I & H & A & B & LG & D) | (_ & c & u & -> & E)].
  - cbv zeta in D. pose proof (act_clear _ r cfg (append_line (kept st ++ firstn h s) (unkept st)) (kept st ++ firstn h s) I eq_refl eq_refl) as F.
    destruct D as [(_ & E) | (x & c & u & Q & -> & E)]; rewrite E; cbn [fst].
    + split; [exact F|]. intros v s' G. destruct (act_name _ _ _ _ _ _ _ I G) as (M & -> & P). rewrite (CL M). cbn [app]. rewrite P in LG. apply pattern_name. exact LG.
    + split; [|discriminate]. rewrite Q in F. exact F.
  - rewrite E. cbn [fst]. split; [|discriminate]. intros _. reflexivity.
Qed.
Definition tokens_of (r : scanned) : list lexeme := match r with Scanned l _ | LexError l _ _ | LexBroken l => l | NoFuel => [] end.
Lemma scan_names fuel cfg : forall st s, clear st -> forall x, In x (tokens_of (scan fuel cfg st s)) -> ltok x = Tok "T_NAMED_REGEXP" -> name_text (lval x).
Proof.
  induction fuel as [|f IH]; intros st s CL x I T; [contradiction I|]. cbn [scan] in I.
  destruct s as [|c u]; [unfold at_end in I; destruct (smode st); contradiction I|].
  destruct (clear_step cfg st (c :: u) ltac:(discriminate) CL) as (F & G). destruct (step cfg st (c :: u)) as [[y | k v y | y | y |] rest]; cbn [fst leaves] in F, G; try contradiction I.
  - exact (IH y rest F x I T).
  - assert (J : x = Lexeme k v (yyline y) \/ In x (tokens_of (scan f cfg y rest))) by (destruct (scan f cfg y rest); cbn in I |- *; intuition congruence).
    destruct J as [-> |J]; [|exact (IH y rest F x J T)]. cbn [ltok lval] in *. apply (G v y). rewrite T. reflexivity.
Qed.
