(** Lines and columns. *)
From Coq Require Import List Ascii String Bool PeanoNat ZArith Lia.
From Verif Require Import FlexModel FlexSpec FlexProofs ScanModel ScanSpec ScanProofs.
Import ListNotations.

(** ** Line ends *)
Lemma newlines_app a b : ~ cuts a b -> newlines (a ++ b) = newlines a + newlines b.
Proof.
  induction a as [| c a IH]; [reflexivity |]. intro N.
  assert (N' : ~ cuts a b).
  { intros (a' & b' & -> & ->). apply N. exists (c :: a'), b'. auto. }
  specialize (IH N'). change ((c :: a) ++ b) with (c :: (a ++ b)).
  cbn [newlines]. rewrite IH. destruct (Ascii.eqb c LF); [lia |].
  destruct (Ascii.eqb_spec c CR) as [-> | _]; [| lia].
  destruct a as [| d a]; cbn [app]; [| lia].
  destruct b as [| d b]; [reflexivity |].
  destruct (Ascii.eqb_spec d LF) as [-> | _]; [| cbn [newlines]; lia].
  exfalso; apply N. exists [], b. auto.
Qed.

Lemma newlines_none a : ~ In CR a -> ~ In LF a -> newlines a = 0.
Proof.
  induction a as [| c a IH]; [reflexivity |]. intros A B. cbn [newlines].
  destruct (Ascii.eqb_spec c LF) as [-> | _]; [exfalso; apply B; left; reflexivity |].
  destruct (Ascii.eqb_spec c CR) as [-> | _]; [exfalso; apply A; left; reflexivity |].
  apply IH; intro; [apply A | apply B]; right; assumption.
Qed.

Lemma last_line_from_app a : forall cur b, last_line_from cur (a ++ b) = last_line_from (last_line_from cur a) b.
Proof.
  induction a as [| c a IH]; intros; [reflexivity |].
  cbn [app last_line_from]. destruct (Ascii.eqb c LF || Ascii.eqb c CR); apply IH.
Qed.

Lemma last_line_app a b : last_line (a ++ b) = last_line_from (last_line a) b.
Proof. apply last_line_from_app. Qed.

Lemma last_line_none : forall a cur, ~ In CR a -> ~ In LF a -> last_line_from cur a = cur ++ a.
Proof.
  induction a as [| c a IH]; intros cur A B; [rewrite app_nil_r; reflexivity |].
  cbn [last_line_from].
  destruct (Ascii.eqb_spec c LF) as [-> | _]; [exfalso; apply B; left; reflexivity |].
  destruct (Ascii.eqb_spec c CR) as [-> | _]; [exfalso; apply A; left; reflexivity |].
  cbn [orb]. rewrite IH.
  - rewrite <- app_assoc; reflexivity.
  - intro; apply A; right; assumption.
  - intro; apply B; right; assumption.
Qed.

(** ** What the rules do *)
Definition clean (r : rule) : bool := avoids CR (pat r) && avoids LF (pat r).

(** [s'] has the line, the line buffer and so on of [s]. *)
Definition steady (t : text) (s s' : scanner) : Prop :=
  yyline s' = yyline s /\ ended s' = ended s /\ shown s' = shown s /\ offset s' = offset s /\
  echoed s' = echoed s /\ last_len s' = last_len s /\
  ((kept s' = kept s /\ more s' = more s) \/ (kept s' = t /\ more s' = true)).

Definition turned (t : text) (s s' : scanner) : Prop :=
  yyline s' = S (yyline s) /\ ended s' = true /\ shown s' = shown s /\ offset s' = offset s /\
  echoed s' = echoed s /\ last_len s' = last_len s /\ pos s' = pos s /\ smode s' = smode s /\
  ((kept s' = kept s /\ more s' = more s) \/ (kept s' = t /\ more s' = true)).

Definition semi_rule : rule := nth 3 lexer_rules no_rule.

(** The state that goes on. *)
Definition next_state (o : outcome) : option scanner :=
  match o with Go s | Give _ _ s => Some s | _ => None end.

Definition to_lexer (r : rule) (s s' : scanner) : Prop :=
  (pos s' = RuleLexer -> pos s = RuleLexer \/ pat r = lit "%lexer") /\
  (smode s' = RULE_LEXER -> smode s = RULE_LEXER \/ pos s = RuleLexer).

Definition rule_kind (r : rule) : Prop :=
  (clean r = true /\ forall cfg s t s', next_state (act r cfg s t) = Some s' ->
     steady t s s' /\ to_lexer r s s') \/
  (pat r = dot /\ trail r = None /\ forall cfg s t, next_state (act r cfg s t) = None) \/
  (pat r = Newline /\ trail r = None /\ forall cfg s t, exists s', act r cfg s t = Go s' /\ turned t s s').

Ltac rule_case :=
  first
  [ left; split; [vm_compute; reflexivity |];
    intros cfg s t s' E; cbv [act r0 skip more_of one word valued bracket start_code next_state] in E;
    repeat match type of E with
    | context [match pos ?x with _ => _ end] => destruct (pos x) eqn:?
    | context [if ?b then _ else _] => destruct b
    end; cbv [next_state] in E;
    try discriminate E; injection E as <-;
    cbv [steady to_lexer begin place opens code_starts yymore
         smode pos open code_line code_col yyline kept shown offset ended more last_len echoed];
    repeat split; try (left; split; reflexivity); try (right; split; reflexivity); auto;
    try (intro; discriminate); try (intros; left; congruence); try (intros; right; congruence)
  | right; left; split; [reflexivity |]; split; [reflexivity |]; intros; reflexivity
  | right; right; split; [reflexivity |]; split; [reflexivity |]; intros; eexists; split; [reflexivity |];
    cbv [turned newline yymore
         smode pos open code_line code_col yyline kept shown offset ended more last_len echoed];
    repeat split; try (left; split; reflexivity); try (right; split; reflexivity) ].

Lemma rule_kinds m r : In r (rules m) -> r = semi_rule \/ rule_kind r.
Proof.
  destruct m; cbv [rules]; intro I;
  repeat (destruct I as [<- | I]; [first [left; reflexivity | right; unfold rule_kind; rule_case] |]); destruct I.
Qed.

(** ** A line end comes next *)
Lemma longest_newline c t :
  longest Newline (c :: t) =
  if Ascii.eqb c CR then match t with d :: _ => if Ascii.eqb d LF then Some 2 else Some 1 | [] => Some 1 end
  else if Ascii.eqb c LF then Some 1 else None.
Proof.
  rewrite longest_cons. unfold Newline, lit_, chr, is. cbn [deriv nullable].
  destruct (Ascii.eqb_spec c CR) as [-> | A].
  - rewrite Ascii.eqb_refl. change (Ascii.eqb LF CR) with false. cbv iota. cbn [seq alt nullable].
    destruct t as [| d t]; [reflexivity |]. rewrite longest_cons. cbn [deriv nullable].
    destruct (Ascii.eqb_spec d LF) as [-> | B].
    + rewrite Ascii.eqb_refl. cbn [alt]. rewrite longest_eps. reflexivity.
    + assert (D : Ascii.eqb LF d = false) by (apply Ascii.eqb_neq; congruence).
      rewrite D. cbn [alt]. rewrite longest_none. reflexivity.
  - assert (D : Ascii.eqb CR c = false) by (apply Ascii.eqb_neq; congruence). rewrite D.
    destruct (Ascii.eqb_spec c LF) as [-> | B].
    + rewrite Ascii.eqb_refl. cbn [seq alt nullable]. rewrite longest_eps. reflexivity.
    + assert (D' : Ascii.eqb LF c = false) by (apply Ascii.eqb_neq; congruence). rewrite D'.
      cbn [seq alt nullable]. rewrite longest_none. reflexivity.
Qed.

Lemma longest_dot c t : c <> LF -> longest dot (c :: t) = Some 1.
Proof.
  intro N. rewrite longest_cons. unfold dot, noneof. cbn [deriv among existsb].
  assert (D : Ascii.eqb c LF = false) by (apply Ascii.eqb_neq; exact N). rewrite D.
  cbn [orb negb]. rewrite longest_eps. reflexivity.
Qed.

Definition turn_length (c : ascii) (t : text) : nat :=
  if Ascii.eqb c CR then match t with d :: _ => if Ascii.eqb d LF then 2 else 1 | [] => 1 end else 1.

Lemma turn_length_pos c t : exists k, turn_length c t = S k.
Proof.
  unfold turn_length. destruct (Ascii.eqb c CR); [| eauto].
  destruct t as [| d t]; [eauto |]. destruct (Ascii.eqb d LF); eauto.
Qed.

Lemma matched_newline r c t :
  pat r = Newline -> trail r = None -> c = CR \/ c = LF ->
  matched r (c :: t) = Some (turn_length c t, turn_length c t).
Proof.
  intros P T C. unfold matched. rewrite T, P, longest_newline. unfold turn_length.
  destruct (Ascii.eqb_spec c CR) as [-> | A].
  - destruct t as [| d t]; [reflexivity |]. destruct (Ascii.eqb d LF); reflexivity.
  - destruct C as [C | ->]; [contradiction | reflexivity].
Qed.

Lemma matched_dot r c t :
  pat r = dot -> trail r = None -> matched r (c :: t) = None \/ matched r (c :: t) = Some (1, 1).
Proof.
  intros P T. unfold matched. rewrite T, P. destruct (ascii_dec c LF) as [-> | N].
  - left. rewrite longest_cons. change (deriv LF dot) with RNone. rewrite longest_none. reflexivity.
  - right. rewrite longest_dot by exact N. reflexivity.
Qed.

Definition nl_at (m : mode) : rule :=
  match m with CODE | RULE_ARGUMENTS | RULE_PARAMETERS_VARNAME => nl_more | _ => nl end.

Lemma best_newline_at m c t :
  c = CR \/ c = LF ->
  best (rules m) (c :: t) = Some (nl_at m, turn_length c t, turn_length c t).
Proof.
  intro C. rewrite best_places.
  assert (P : exists rest,
     map (fun i => nth i (rules m) no_rule) (places m c) = nl_at m :: rest /\
     (rest = [] \/ exists d, rest = [d] /\ pat d = dot /\ trail d = None)).
  { destruct C as [-> | ->]; destruct m; match goal with |- context [places ?m ?c] =>
      let v := eval vm_compute in (places m c) in
      replace (places m c) with v by (vm_compute; reflexivity) end; cbn [map];
    eexists; (split; [reflexivity |]);
    first [left; reflexivity | right; eexists; split; [reflexivity | split; reflexivity]]. }
  destruct P as (rest & E & D). rewrite E. clear E.
  assert (M : matched (nl_at m) (c :: t) = Some (turn_length c t, turn_length c t)).
  { apply matched_newline; [destruct m; reflexivity | destruct m; reflexivity | exact C]. }
  destruct (turn_length_pos c t) as [k K]. rewrite K in *. cbn [best]. rewrite M.
  destruct D as [-> | (d & -> & Pd & Td)]; [reflexivity |].
  cbn [best]. destruct (matched_dot d c t Pd Td) as [-> | ->]; [reflexivity |].
  replace (Nat.ltb (S k) 1) with false by (symmetry; apply Nat.ltb_ge; lia). reflexivity.
Qed.

Lemma best_newline m c t :
  c = CR \/ c = LF ->
  exists r, best (rules m) (c :: t) = Some (r, turn_length c t, turn_length c t) /\
    (r = nl \/ r = nl_more).
Proof.
  intro C. exists (nl_at m). split; [apply best_newline_at; exact C |]. destruct m; auto.
Qed.

(** ** The rule for `;` in lexer rules *)
Lemma star_last a (P : ascii -> Prop) :
  (forall w, lang a w -> exists u c, w = u ++ [c] /\ P c) ->
  forall w, lang (RStar a) w -> w = [] \/ exists u c, w = u ++ [c] /\ P c.
Proof.
  intros A w H; remember (RStar a) as r eqn:R; induction H; try discriminate R; [left; reflexivity |].
  injection R as ->. right. destruct (IHlang2 eq_refl) as [-> | (u & c & -> & C)].
  - rewrite app_nil_r. apply A; assumption.
  - exists (v ++ u), c. rewrite app_assoc. auto.
Qed.

Lemma plus_last a (P : ascii -> Prop) :
  (forall w, lang a w -> exists u c, w = u ++ [c] /\ P c) ->
  forall w, lang (plus a) w -> exists u c, w = u ++ [c] /\ P c.
Proof.
  intros A w H. unfold plus in H. apply lang_seq' in H. destruct H as (u & v & -> & U & V).
  destruct (star_last a P A v V) as [-> | (u' & c & -> & C)].
  - rewrite app_nil_r. apply A; exact U.
  - exists (u ++ u'), c. rewrite app_assoc. auto.
Qed.

Lemma semi_last w : lang (pat semi_rule) w -> exists u c, w = u ++ [c] /\ c <> ";"%char.
Proof.
  intro H. change (pat semi_rule) with
    (RSeq (plus (chr ";")) (plus (RAlt (RSeq comment (oneof [CR; LF])) space_nl))) in H.
  apply lang_seq' in H. destruct H as (u & v & -> & _ & V).
  apply (plus_last _ (fun c => c <> ";"%char)) in V.
  - destruct V as (x & c & -> & C). exists (u ++ x), c. rewrite app_assoc. auto.
  - intros x X. apply lang_alt' in X. destruct X as [X | X].
    + apply lang_seq' in X. destruct X as (y & z & -> & _ & Z). unfold oneof in Z. apply lang_cls in Z.
      destruct Z as (c & -> & Z). exists y, c. split; [reflexivity |]. intros ->. vm_compute in Z. discriminate.
    + unfold space_nl, oneof in X. apply lang_cls in X. destruct X as (c & -> & Z).
      exists [], c. split; [reflexivity |]. intros ->. vm_compute in Z. discriminate.
Qed.

Lemma semi_rest s n h :
  matched semi_rule s = Some (n, h) ->
  exists u, skipn h s = ";"%char :: u.
Proof.
  intro M. apply matched_spec in M. destruct M as (A & B & C & D).
  change (trail semi_rule) with (Some (plus (chr ";"))) in D. cbv iota in D.
  destruct D as ((_ & L & _) & (K1 & K2 & K3)).
  apply lang_seq' in L. destruct L as (u & v & E & U & V).
  assert (V' : v <> [] /\ forall c, In c v -> c = ";"%char).
  { unfold chr in V. apply lang_plus_cls in V. destruct V as [V1 V2]. split; [exact V1 |].
    intros c I. rewrite forallb_forall in V2. specialize (V2 c I). unfold is in V2. apply Ascii.eqb_eq in V2. auto. }
  destruct V' as [V1 V2].
  assert (Lu : List.length u <= h).
  { apply K3; rewrite E; [rewrite app_length; lia |]. rewrite firstn_app, Nat.sub_diag, firstn_all. cbn [firstn].
    rewrite app_nil_r. exact U. }
  assert (Hu : h = List.length u).
  { destruct (Nat.eq_dec h (List.length u)) as [| N]; [assumption | exfalso].
    rewrite E, firstn_app in K2. rewrite (firstn_all2 u) in K2 by lia.
    apply semi_last in K2. destruct K2 as (x & c & Q & NC).
    assert (I : In c (firstn (h - List.length u) v)).
    { destruct (firstn (h - List.length u) v) as [| d w] eqn:F.
      - exfalso. destruct v as [| e v]; [contradiction |]. replace (h - List.length u) with (S (h - List.length u - 1)) in F by lia.
        discriminate F.
      - assert (X : exists w', d :: w = w' ++ [c]).
        { destruct (exists_last (l := d :: w)) as (w' & e & W); [discriminate |]. rewrite W in Q |- *.
          rewrite app_assoc in Q. apply app_inj_tail in Q. destruct Q as [_ <-]. eauto. }
        destruct X as (w' & ->). apply in_elt. }
    apply NC, V2. rewrite <- (firstn_skipn (h - List.length u) v). apply in_or_app. left. exact I. }
  subst h. assert (S' : s = (u ++ v) ++ skipn n s) by (rewrite <- E; symmetry; apply firstn_skipn).
  rewrite S', <- app_assoc, skipn_app, Nat.sub_diag, skipn_all. cbn [app skipn].
  destruct v as [| c v]; [contradiction |]. rewrite (V2 c) by (left; reflexivity). cbn [app]. eauto.
Qed.

Lemma lf_count q s' :
  no_lone_cr (q ++ s') -> (forall u, s' <> LF :: u) -> newlines q = List.length (filter (Ascii.eqb LF) q).
Proof.
  intros N S'. induction q as [| c q IH]; [reflexivity |].
  assert (N' : no_lone_cr (q ++ s')).
  { intros a b E. apply (N (c :: a) b). cbn [app]. rewrite E. reflexivity. }
  specialize (IH N'). cbn [newlines filter].
  destruct (Ascii.eqb_spec c LF) as [-> | C].
  - rewrite Ascii.eqb_refl. cbn [List.length]. lia.
  - assert (D : Ascii.eqb LF c = false) by (apply Ascii.eqb_neq; congruence). rewrite D.
    destruct (Ascii.eqb_spec c CR) as [-> | C']; [| exact IH].
    destruct (N [] (q ++ s') eq_refl) as (b' & B).
    destruct q as [| d q]; [exfalso; exact (S' b' B) |].
    cbn [app] in B. injection B as -> _. cbn [Ascii.eqb]. exact IH.
Qed.

Lemma rejects m r cfg s t x :
  In r (rules m) -> act r cfg s t = Reject x -> x = begin INITIAL s.
Proof.
  destruct m; cbv [rules]; intro I;
  repeat (destruct I as [<- | I];
    [cbv [act r0 skip more_of one word valued bracket start_code nl nl_more];
     repeat match goal with
     | |- context [match pos ?x with _ => _ end] => destruct (pos x)
     | |- context [if ?b then _ else _] => destruct b
     end; intro E; first [discriminate E | injection E as <-; reflexivity] |]); destruct I.
Qed.

(** ** What a step reads and does *)
Inductive effect (st : scanner) (q s' : text) (st' : scanner) : Prop :=
| e_plain r : ~ In CR q -> ~ In LF q -> In r (rules (smode st)) -> lang (pat r) q ->
    steady (kept st ++ q) (append_line (kept st ++ q) (unkept st)) st' ->
    to_lexer r st st' -> effect st q s' st'
| e_echo c : q = [c] -> c <> CR -> c <> LF -> yyline st' = yyline st ->
    echoed st' = echoed st ++ [c] -> effect st q s' st'
| e_turn : (q = [LF] \/ q = [CR; LF] \/ q = [CR] /\ forall u, s' <> LF :: u) ->
    turned (kept st ++ q) (append_line (kept st ++ q) (unkept st)) st' -> effect st q s' st'
| e_semi u : smode st = RULE_LEXER -> s' = ";"%char :: u ->
    yyline st' = yyline st + List.length (filter (Ascii.eqb LF) (kept st ++ q)) ->
    echoed st' = echoed st -> kept st' = [] -> effect st q s' st'.

Lemma step_effect cfg st s o s' st' :
  s <> [] -> step cfg st s = (o, s') -> next_state o = Some st' ->
  exists q, s = q ++ s' /\ q <> [] /\ effect st q s' st'.
Proof.
  intros NE ST NX. destruct s as [| c u]; [contradiction |].
  destruct (ascii_dec c CR) as [C | C]; [| destruct (ascii_dec c LF) as [D | D]].
  1, 2: assert (CC : c = CR \/ c = LF) by auto;
    destruct (best_newline (smode st) c u CC) as (r & B & R);
    unfold step in ST; rewrite B in ST;
    set (t := kept st ++ firstn (turn_length c u) (c :: u)) in *;
    assert (A : exists x, act r cfg (append_line t (unkept st)) t = Go x /\ turned t (append_line t (unkept st)) x)
      by (destruct R; subst r; eexists; (split; [reflexivity |]);
          cbv [turned newline yymore smode pos open code_line code_col yyline kept shown offset ended more last_len echoed];
          repeat split; first [left; split; reflexivity | right; split; reflexivity]);
    destruct A as (x & A & TU); rewrite A in ST; injection ST as <- <-; cbn [next_state] in NX; injection NX as ->;
    exists (firstn (turn_length c u) (c :: u));
    (split; [symmetry; apply firstn_skipn |]); (split; [destruct (turn_length_pos c u) as [k ->]; discriminate |]);
    (apply e_turn; [| exact TU]).
  - subst c. unfold turn_length. rewrite Ascii.eqb_refl.
    destruct u as [| d u]; [right; right; split; [reflexivity | discriminate] |].
    destruct (Ascii.eqb_spec d LF) as [-> | N]; [right; left; reflexivity |].
    right; right; split; [reflexivity |]. intros v E. cbn [skipn] in E. injection E as E _. contradiction.
  - subst c. left. reflexivity.
  - destruct (step_cases cfg st (c :: u) NE) as
      [(r & n & h & B & I & H & A1 & A2 & L & K) | (_ & d & v & E & K)].
    + cbv zeta in K. destruct K as [(NR & K) | (x & d & v & RJ & E & K)].
      * rewrite K in ST. injection ST as <- <-. exists (firstn h (c :: u)).
        split; [symmetry; apply firstn_skipn |].
        split; [destruct h; [lia | discriminate] |].
        destruct (rule_kinds _ _ I) as [-> | [(CL & Q) | [(P & T & Q) | (P & T & Q)]]].
        -- assert (M : smode st = RULE_LEXER).
           { destruct (smode st); try reflexivity; exfalso; revert I; cbv [rules]; clear;
             intro I; repeat (destruct I as [I | I];
               [apply (f_equal pat) in I; apply (f_equal (fun p => deriv ";"%char p)) in I; vm_compute in I; discriminate I |]); destruct I. }
           apply best_some in B. destruct B as (_ & M' & _).
           destruct (semi_rest _ _ _ M') as (w & W).
           cbn [semi_rule nth lexer_rules act next_state] in NX. injection NX as <-.
           eapply e_semi; [exact M | exact W | reflexivity | reflexivity | reflexivity].
        -- destruct (Q _ _ _ _ NX) as (Q1 & Q2). unfold clean in CL. apply andb_true_iff in CL. destruct CL as [C1 C2].
           eapply e_plain; [eapply avoids_lang; eassumption | eapply avoids_lang; eassumption | exact I | exact L | exact Q1 |].
           destruct Q2 as [Q2 Q3]. split; assumption.
        -- rewrite Q in NX. discriminate.
        -- exfalso. rewrite P in L. unfold Newline in L.
           apply lang_alt' in L. rewrite lang_alt', lang_lit_, !lang_chr in L.
           destruct h as [| h]; [lia |]. cbn [firstn] in L.
           destruct L as [L | [L | L]]; injection L as -> _; congruence.
      * rewrite K in ST. injection ST as <- <-. cbn [next_state] in NX. injection NX as <-.
        injection E as <- <-. exists [c]. split; [reflexivity |]. split; [discriminate |].
        apply (rejects _ _ _ _ _ _ I) in RJ. subst x.
        apply e_echo with (c := c); auto.
    + rewrite K in ST. injection ST as <- <-. cbn [next_state] in NX. injection NX as <-.
      injection E as <- <-. exists [c]. split; [reflexivity |]. split; [discriminate |].
      apply e_echo with (c := c); auto.
Qed.

(** ** Lines *)
Definition step_to (cfg : config) (st : scanner) (s : text) (st' : scanner) (s' : text) : Prop :=
  s <> [] /\ exists o, step cfg st s = (o, s') /\ next_state o = Some st'.

(** In lexer mode nothing is kept. *)
Definition lexer_keeps (st : scanner) : Prop := smode st = RULE_LEXER -> kept st = [].

Lemma not_cut_in q s' : ~ In CR q -> ~ cuts q s'.
Proof. intros N (a & b & -> & _). apply N, in_elt. Qed.

Lemma step_line cfg st s st' s' :
  step_to cfg st s st' s' -> lexer_keeps st -> (smode st = RULE_LEXER -> no_lone_cr s) ->
  exists q, s = q ++ s' /\ ~ cuts q s' /\ yyline st' = yyline st + newlines q.
Proof.
  intros (NE & o & ST & NX) LK NC. destruct (step_effect _ _ _ _ _ _ NE ST NX) as (q & E & Q & F).
  exists q. split; [exact E |]. destruct F as [r N1 N2 _ _ SD _ | c -> N1 N2 Y _ | T TU | u M S' Y _ _].
  - split; [apply not_cut_in; exact N1 |]. rewrite newlines_none by assumption.
    destruct SD as (Y & _). rewrite Y. cbn [append_line unkept yyline]. lia.
  - split; [apply not_cut_in; intros [-> | []]; contradiction |]. rewrite newlines_none.
    + lia.
    + intros [-> | []]; contradiction.
    + intros [-> | []]; contradiction.
  - destruct TU as (Y & _). rewrite Y. cbn [append_line unkept yyline].
    destruct T as [-> | [-> | [-> T]]].
    + split; [| cbn; lia]. apply not_cut_in. intros [X | []]. discriminate X.
    + split; [| cbn; lia]. intros (a & b & H & _).
      change [CR; LF] with ([CR] ++ [LF]) in H. apply app_inj_tail in H. destruct H as [_ H]. discriminate H.
    + split; [| cbn; lia]. intros (a & b & _ & H). exact (T b H).
  - assert (S2 : forall w, s' <> LF :: w) by (intro w; rewrite S'; intro X; discriminate X).
    split; [intros (a & b & _ & H); exact (S2 _ H) |].
    rewrite Y, (LK M). cbn [app]. rewrite (lf_count q s'); [reflexivity | rewrite <- E; apply NC, M | exact S2].
Qed.

Lemma lexer_kept m r cfg s t s' :
  In r (rules m) -> next_state (act r cfg s t) = Some s' -> smode s = m -> kept s = [] ->
  smode s' = RULE_LEXER -> kept s' = [].
Proof.
  destruct m; cbv [rules]; intro I;
  repeat (destruct I as [<- | I];
    [cbv [act r0 skip more_of one word valued bracket start_code nl nl_more];
     repeat match goal with
     | |- context [match pos ?x with _ => _ end] => destruct (pos x)
     | |- context [if ?b then _ else _] => destruct b
     end; cbn [next_state]; intros E MD K; first [discriminate E | injection E as <-];
     cbn [begin place opens code_starts yymore newline count_newlines smode kept]; intro X;
     first [exact K | rewrite MD in X; discriminate X | discriminate X] |]); destruct I.
Qed.

Lemma lexer_keeps_step cfg st s st' s' :
  step_to cfg st s st' s' -> lexer_keeps st'.
Proof.
  intros (NE & o & ST & NX) MD.
  destruct (step_cases cfg st s NE) as
      [(r & n & h & B & I & H & A1 & A2 & L & K) | (_ & d & v & E & K)].
  - cbv zeta in K. destruct K as [(NR & K) | (x & d & v & RJ & E & K)].
    + rewrite K in ST. injection ST as <- <-.
      eapply lexer_kept; [exact I | exact NX | reflexivity | reflexivity | exact MD].
    + rewrite K in ST. injection ST as <- <-. cbn [next_state] in NX. injection NX as <-.
      apply (rejects _ _ _ _ _ _ I) in RJ. subst x. reflexivity.
  - rewrite K in ST. injection ST as <- <-. cbn [next_state] in NX. injection NX as <-. reflexivity.
Qed.

Lemma no_lone_cr_tail q s : no_lone_cr (q ++ s) -> no_lone_cr s.
Proof. intros N a b E. apply (N (q ++ a) b). rewrite E, app_assoc. reflexivity. Qed.

Lemma not_cut_app p q s : q <> [] -> ~ cuts q s -> ~ cuts (p ++ q) s.
Proof.
  intros Q N (a & b & E & ->). apply N. destruct (exists_last Q) as (q' & c & ->).
  rewrite app_assoc in E. apply app_inj_tail in E. destruct E as [_ ->]. exists q', b. auto.
Qed.

Lemma step_to_shorter cfg st s st' s' : step_to cfg st s st' s' -> exists q, q <> [] /\ s = q ++ s'.
Proof.
  intros (NE & o & ST & _). destruct (step_consumes cfg st s NE) as (q & Q & E). rewrite ST in E. eauto.
Qed.

(** Many steps. *)
Inductive steps (cfg : config) : scanner -> text -> scanner -> text -> Prop :=
| st_none st s : steps cfg st s st s
| st_more st s st1 s1 st' s' : step_to cfg st s st1 s1 -> steps cfg st1 s1 st' s' -> steps cfg st s st' s'.

Lemma reads_steps cfg st s l st' s' : reads cfg st s l st' s' -> steps cfg st s st' s'.
Proof.
  induction 1 as [| st s st1 s1 l st' s' NE ST _ IH | st s t v st1 s1 l st' s' NE ST _ IH].
  - apply st_none.
  - eapply st_more; [| exact IH]. split; [exact NE |]. eexists; split; [exact ST | reflexivity].
  - eapply st_more; [| exact IH]. split; [exact NE |]. eexists; split; [exact ST | reflexivity].
Qed.

Lemma steps_app cfg st s st1 s1 st' s' : steps cfg st s st1 s1 -> steps cfg st1 s1 st' s' -> steps cfg st s st' s'.
Proof. induction 1; intro; [assumption | eapply st_more; eauto]. Qed.

Lemma steps_lines cfg st s st' s' :
  steps cfg st s st' s' -> lexer_keeps st -> no_lone_cr s ->
  exists q, s = q ++ s' /\ (q = [] \/ ~ cuts q s') /\ yyline st' = yyline st + newlines q.
Proof.
  induction 1 as [st s | st s st1 s1 st' s' ST _ IH]; intros LK NC.
  - exists []. cbn. repeat split; auto with arith.
  - destruct (step_line _ _ _ _ _ ST LK (fun _ => NC)) as (q1 & E & C1 & Y1).
    destruct IH as (q2 & E2 & C2 & Y2).
    + eapply lexer_keeps_step; exact ST.
    + rewrite E in NC. eapply no_lone_cr_tail; exact NC.
    + subst s1. exists (q1 ++ q2). split; [rewrite <- app_assoc; exact E |].
      assert (C3 : ~ cuts q1 q2).
      { intros (a & b & -> & ->). apply C1. exists a, (b ++ s'). auto. }
      split.
      * right. destruct C2 as [-> | C2]; [rewrite app_nil_r; exact C1 |].
        destruct q2 as [| c q2]; [rewrite app_nil_r; exact C1 |]. apply not_cut_app; [discriminate | exact C2].
      * rewrite newlines_app by exact C3. lia.
Qed.

(** ** Columns *)
Definition line_of (st : scanner) : text := if ended st then [] else shown st.
Definition more_inv (st : scanner) : Prop :=
  (more st = true /\ last_len st = List.length (kept st)) \/ (more st = false /\ kept st = []).

Lemma cstr_same t : ~ In NUL t -> cstr t = t.
Proof.
  induction t as [| c t IH]; intro N; [reflexivity |]. cbn [cstr].
  destruct (Ascii.eqb_spec c "000") as [-> | _]; [exfalso; apply N; left; reflexivity |].
  f_equal. apply IH. intro; apply N; right; assumption.
Qed.

Lemma append_line_shown st q :
  more_inv st -> ~ In NUL (kept st ++ q) ->
  shown (append_line (kept st ++ q) (unkept st)) = line_of st ++ q /\
  last_len (append_line (kept st ++ q) (unkept st)) = List.length (kept st ++ q).
Proof.
  intros M N. unfold append_line. cbn [shown last_len ended unkept more]. rewrite cstr_same by exact N.
  split; [| reflexivity]. unfold line_of. f_equal.
  destruct M as [(M & L) | (M & K)]; rewrite M.
  - rewrite L, skipn_app, skipn_all, Nat.sub_diag. reflexivity.
  - rewrite K. reflexivity.
Qed.

Lemma step_column cfg st s st' s' :
  step_to cfg st s st' s' -> smode st <> RULE_LEXER -> echoed st' = echoed st ->
  more_inv st -> ~ In NUL (kept st ++ s) ->
  exists q, s = q ++ s' /\ line_of st' = last_line_from (line_of st) q /\ more_inv st' /\
    ~ In NUL (kept st' ++ s').
Proof.
  intros (NE & o & ST & NX) NL EC MI NN. destruct (step_effect _ _ _ _ _ _ NE ST NX) as (q & E & Q & F).
  exists q. split; [exact E |].
  assert (NQ : ~ In NUL (kept st ++ q)).
  { intro X. apply NN. rewrite E, app_assoc. apply in_or_app. left. exact X. }
  assert (NS : ~ In NUL s').
  { intro X. apply NN. rewrite E, app_assoc. apply in_or_app. right. exact X. }
  destruct (append_line_shown st q MI NQ) as (SH & LL).
  assert (NK : forall k : text, k = [] \/ k = kept st ++ q -> ~ In NUL (k ++ s')).
  { intros k K X. apply in_app_or in X. destruct X as [X | X]; [| exact (NS X)].
    destruct K as [-> | ->]; [destruct X | exact (NQ X)]. }
  destruct F as [r N1 N2 _ _ SD _ | c -> N1 N2 Y EC' | T TU | u M S' Y _ _].
  - destruct SD as (_ & EN & SH' & _ & _ & LL' & KM).
    split; [| split].
    + unfold line_of at 1. rewrite EN, SH', SH. cbn [append_line ended]. rewrite last_line_none by assumption. reflexivity.
    + unfold more_inv. rewrite LL', LL. destruct KM as [(-> & ->) | (-> & ->)].
      * right. split; reflexivity.
      * left. split; reflexivity.
    + apply NK. destruct KM as [(-> & _) | (-> & _)]; [left; reflexivity | right; reflexivity].
  - exfalso. rewrite EC' in EC. rewrite <- (app_nil_r (echoed st)) in EC at 2. apply app_inv_head in EC. discriminate EC.
  - destruct TU as (_ & EN & _ & _ & _ & LL' & _ & _ & KM).
    split; [| split].
    + unfold line_of at 1. rewrite EN. destruct T as [-> | [-> | [-> _]]]; reflexivity.
    + unfold more_inv. rewrite LL', LL. destruct KM as [(-> & ->) | (-> & ->)].
      * right. split; reflexivity.
      * left. split; reflexivity.
    + apply NK. destruct KM as [(-> & _) | (-> & _)]; [left; reflexivity | right; reflexivity].
  - contradiction.
Qed.

(** What is echoed stays. *)
Lemma step_echo cfg st s st' s' : step_to cfg st s st' s' -> exists e, echoed st' = echoed st ++ e.
Proof.
  intros (NE & o & ST & NX). destruct (step_effect _ _ _ _ _ _ NE ST NX) as (q & E & Q & F).
  destruct F as [r N1 N2 _ _ SD _ | c -> N1 N2 Y EC' | T TU | u M S' Y EC _].
  - destruct SD as (_ & _ & _ & _ & -> & _). exists []. rewrite app_nil_r. reflexivity.
  - eauto.
  - destruct TU as (_ & _ & _ & _ & -> & _). exists []. rewrite app_nil_r. reflexivity.
  - exists []. rewrite app_nil_r. exact EC.
Qed.

Lemma steps_echo cfg st s st' s' : steps cfg st s st' s' -> exists e, echoed st' = echoed st ++ e.
Proof.
  induction 1 as [st s | st s st1 s1 st' s' ST _ (e2 & E2)]; [exists []; rewrite app_nil_r; reflexivity |].
  destruct (step_echo _ _ _ _ _ ST) as (e1 & E1). exists (e1 ++ e2). rewrite E2, E1, app_assoc. reflexivity.
Qed.

Definition not_lexing (st : scanner) : Prop := pos st <> RuleLexer /\ smode st <> RULE_LEXER.

Lemma step_not_lexing cfg st s st' s' :
  step_to cfg st s st' s' -> echoed st' = echoed st -> no_lexer s -> not_lexing st -> not_lexing st'.
Proof.
  intros (NE & o & ST & NX) EC NL (P & M). destruct (step_effect _ _ _ _ _ _ NE ST NX) as (q & E & Q & F).
  destruct F as [r N1 N2 _ L _ TL | c -> N1 N2 Y EC' | T TU | u M' S' Y _ _].
  - destruct TL as (T1 & T2). split; intro X.
    + destruct (T1 X) as [H | H]; [contradiction |]. rewrite H in L. apply lang_lit in L.
      apply (NL [] s'). rewrite <- L. exact E.
    + destruct (T2 X); contradiction.
  - exfalso. rewrite EC' in EC. rewrite <- (app_nil_r (echoed st)) in EC at 2. apply app_inv_head in EC. discriminate EC.
  - destruct TU as (_ & _ & _ & _ & _ & _ & P' & M' & _). unfold not_lexing. rewrite P', M'. split; assumption.
  - contradiction.
Qed.

Lemma steps_columns cfg st s st' s' :
  steps cfg st s st' s' -> echoed st' = [] -> no_lexer s -> not_lexing st ->
  more_inv st -> ~ In NUL (kept st ++ s) ->
  exists q, s = q ++ s' /\ line_of st' = last_line_from (line_of st) q /\ more_inv st' /\ not_lexing st' /\
    ~ In NUL (kept st' ++ s').
Proof.
  induction 1 as [st s | st s st1 s1 st' s' ST SS IH]; intros EC NL NX MI NN.
  - exists []. repeat split; auto; apply NX.
  - assert (E1 : echoed st1 = [] /\ echoed st = []).
    { destruct (steps_echo _ _ _ _ _ SS) as (e & E). rewrite EC in E. symmetry in E. apply app_eq_nil in E. destruct E as [E _].
      split; [exact E |]. destruct (step_echo _ _ _ _ _ ST) as (e' & E'). rewrite E in E'. symmetry in E'.
      apply app_eq_nil in E'. apply E'. }
    destruct E1 as [E1 E0].
    assert (EE : echoed st1 = echoed st) by congruence.
    destruct (step_column _ _ _ _ _ ST (proj2 NX) EE MI NN) as (q1 & Q1 & L1 & M1 & N1).
    pose proof (step_not_lexing _ _ _ _ _ ST EE NL NX) as X1.
    destruct IH as (q2 & Q2 & L2 & M2 & X2 & N2); try assumption.
    + intros a b E. apply (NL (q1 ++ a) b). rewrite Q1, E, app_assoc. reflexivity.
    + exists (q1 ++ q2). split; [rewrite Q1, Q2, app_assoc; reflexivity |].
      split; [rewrite last_line_from_app, <- L1; exact L2 |]. auto.
Qed.

Lemma start_inv : lexer_keeps start /\ more_inv start /\ not_lexing start /\ line_of start = [] /\ yyline start = 1.
Proof. repeat split; try discriminate. right. split; reflexivity. Qed.
