(** Code blocks, rule arguments, strings, types of variables. *)
From Coq Require Import List Ascii String Bool PeanoNat ZArith Lia.
From Verif Require Import FlexModel FlexSpec FlexProofs ScanModel ScanSpec ScanProofs ScanPlaceProofs.
Import ListNotations.

(** ** Reading and scanning *)
Lemma reads_scan cfg st s l st' s' :
  reads cfg st s l st' s' -> scan_from cfg st s = after l (scan_from cfg st' s').
Proof.
  induction 1 as [| st s st1 s1 l st' s' NE ST _ IH | st s t v st1 s1 l st' s' NE ST _ IH].
  - reflexivity.
  - rewrite scan_from_step by exact NE. rewrite ST. exact IH.
  - rewrite scan_from_step by exact NE. rewrite ST. cbn [after]. rewrite IH. reflexivity.
Qed.

Lemma reads_app cfg st s l st1 s1 l' st' s' :
  reads cfg st s l st1 s1 -> reads cfg st1 s1 l' st' s' -> reads cfg st s (l ++ l') st' s'.
Proof.
  induction 1; intro; cbn [app]; [assumption | eapply rd_go; eauto | eapply rd_give; eauto].
Qed.

Lemma step_best cfg st s r n h :
  best (rules (smode st)) s = Some (r, n, h) ->
  step cfg st s =
  (match act r cfg (append_line (kept st ++ firstn h s) (unkept st)) (kept st ++ firstn h s) with
   | Reject x =>
     match s with c :: _ => Go (echo c (append_line (kept st ++ [c]) x)) | [] => Reject x end
   | o => o
   end,
   match act r cfg (append_line (kept st ++ firstn h s) (unkept st)) (kept st ++ firstn h s) with
   | Reject _ => tl s
   | _ => skipn h s
   end).
Proof.
  intro B. unfold step. rewrite B.
  destruct (act r cfg _ _); try reflexivity. destruct s; reflexivity.
Qed.

(** ** Longest matches *)
Definition stops (f : ascii -> bool) (s : text) : Prop :=
  match s with [] => True | c :: _ => f c = false end.

Fixpoint takew (f : ascii -> bool) (s : text) : text :=
  match s with [] => [] | c :: t => if f c then c :: takew f t else [] end.
Fixpoint dropw (f : ascii -> bool) (s : text) : text :=
  match s with [] => [] | c :: t => if f c then dropw f t else s end.

Lemma take_drop f s : s = takew f s ++ dropw f s.
Proof. induction s as [| c s IH]; [reflexivity |]. cbn. destruct (f c); [cbn; f_equal; exact IH | reflexivity]. Qed.
Lemma takew_all f s : forallb f (takew f s) = true.
Proof. induction s as [| c s IH]; [reflexivity |]. cbn. destruct (f c) eqn:E; [cbn; rewrite E; exact IH | reflexivity]. Qed.
Lemma dropw_stops f s : stops f (dropw f s).
Proof. induction s as [| c s IH]; [exact I |]. cbn. destruct (f c) eqn:E; [exact IH | exact E]. Qed.

Lemma longest_star_cls f : forall w s,
  forallb f w = true -> stops f s -> longest (RStar (RCls f)) (w ++ s) = Some (List.length w).
Proof.
  induction w as [| c w IH]; intros s W St.
  - cbn [app List.length]. destruct s as [| d s]; [reflexivity |]. rewrite longest_cons.
    cbn [deriv]. cbn [stops] in St. rewrite St. cbn [seq]. rewrite longest_none. reflexivity.
  - cbn [forallb] in W. apply andb_true_iff in W. destruct W as [C W].
    cbn [app]. rewrite longest_cons. cbn [deriv]. rewrite C. cbn [seq]. rewrite IH by assumption. reflexivity.
Qed.

Lemma longest_two f g : (forall c, f c = true -> g c = false) -> forall w v s,
  forallb f w = true -> forallb g v = true -> stops g s -> (v = [] -> stops f s) ->
  longest (RSeq (RStar (RCls f)) (RStar (RCls g))) (w ++ v ++ s) = Some (List.length w + List.length v).
Proof.
  intros D. induction w as [| c w IH]; intros v s W V Sg Sf.
  - cbn [app List.length Nat.add]. destruct v as [| c v].
    + cbn [app List.length]. specialize (Sf eq_refl). destruct s as [| d s]; [reflexivity |].
      rewrite longest_cons. cbn [deriv nullable]. cbn [stops] in Sf, Sg. rewrite Sf, Sg. cbn [seq alt].
      rewrite longest_none. reflexivity.
    + cbn [forallb] in V. apply andb_true_iff in V. destruct V as [C V].
      cbn [app]. rewrite longest_cons. cbn [deriv nullable]. rewrite C.
      assert (FC : f c = false) by (destruct (f c) eqn:E; [rewrite (D _ E) in C; discriminate | reflexivity]).
      rewrite FC. cbn [seq alt]. rewrite longest_star_cls by assumption. reflexivity.
  - cbn [forallb] in W. apply andb_true_iff in W. destruct W as [C W].
    cbn [app]. rewrite longest_cons. cbn [deriv nullable]. rewrite C, (D _ C). cbn [seq alt].
    rewrite IH by assumption. reflexivity.
Qed.

Lemma longest_lit2 a b s :
  longest (RSeq (chr a) (chr b)) (a :: b :: s) = Some 2.
Proof.
  rewrite longest_cons. unfold chr, is. cbn [deriv nullable]. rewrite Ascii.eqb_refl. cbn [seq].
  rewrite longest_cons. cbn [deriv]. rewrite Ascii.eqb_refl, longest_eps. reflexivity.
Qed.

Lemma longest_lit2_no a b c s : (forall t, c :: s <> a :: b :: t) -> longest (RSeq (chr a) (chr b)) (c :: s) = None.
Proof.
  intro N. rewrite longest_cons. unfold chr, is. cbn [deriv nullable].
  destruct (Ascii.eqb_spec a c) as [-> | _]; cbn [seq]; [| rewrite longest_none; reflexivity].
  destruct s as [| d s]; [reflexivity |]. rewrite longest_cons. cbn [deriv].
  destruct (Ascii.eqb_spec b d) as [-> | _]; [exfalso; exact (N s eq_refl) | rewrite longest_none; reflexivity].
Qed.

Lemma longest_chr c d s : longest (chr c) (d :: s) = if Ascii.eqb c d then Some 1 else None.
Proof.
  rewrite longest_cons. unfold chr, is. cbn [deriv nullable].
  destruct (Ascii.eqb c d); [rewrite longest_eps | rewrite longest_none]; reflexivity.
Qed.

(** ** Code blocks *)
Definition in_code (c : ascii) : bool := negb (among [":"%char; LF; CR] c).
Definition after_colon (c : ascii) : bool := negb (among [":"%char; "]"%char; LF; CR] c).

Definition code_text : rule := nth 1 code_rules no_rule.
Definition code_colons : rule := nth 2 code_rules no_rule.
Definition code_close : rule := nth 3 code_rules no_rule.

Lemma code_best c t : best (rules CODE) (c :: t) = best [nl_more; code_text; code_colons; code_close] (c :: t).
Proof. reflexivity. Qed.

Lemma m_nl_no c t : c <> CR -> c <> LF -> matched nl_more (c :: t) = None.
Proof.
  intros A B. unfold matched. cbn [trail nl_more r0 pat]. rewrite longest_newline.
  destruct (Ascii.eqb_spec c CR); [contradiction |]. destruct (Ascii.eqb_spec c LF); [contradiction | reflexivity].
Qed.

Lemma m_text w s : forallb in_code w = true -> stops in_code s ->
  matched code_text (w ++ s) = Some (List.length w, List.length w).
Proof.
  intros W St. unfold matched. cbn [code_text nth code_rules trail more_of r0 pat].
  unfold noneof. rewrite longest_star_cls by assumption. reflexivity.
Qed.

Lemma m_colons_no c t : c <> ":"%char -> matched code_colons (c :: t) = None.
Proof.
  intro N. unfold matched. cbn [code_colons nth code_rules trail more_of r0 pat].
  rewrite longest_cons. unfold plus, chr, is. cbn [deriv nullable].
  destruct (Ascii.eqb_spec ":" c); [congruence |]. cbn [seq andb]. rewrite longest_none. reflexivity.
Qed.

Lemma m_colons k v s : forallb after_colon v = true -> stops after_colon s ->
  (v = [] -> stops (is ":") s) ->
  matched code_colons (":"%char :: repeat ":"%char k ++ v ++ s) = Some (S (k + List.length v), S (k + List.length v)).
Proof.
  intros V Sv Sc. unfold matched. cbn [code_colons nth code_rules trail more_of r0 pat].
  rewrite longest_cons. unfold plus, chr, noneof. cbn [deriv nullable andb].
  replace (is ":" ":") with true by reflexivity. cbn [seq].
  rewrite (longest_two (is ":") (fun c => negb (among [":"%char; "]"%char; LF; CR] c))).
  - rewrite repeat_length. reflexivity.
  - intros c E. unfold is in E. apply Ascii.eqb_eq in E. subst c. reflexivity.
  - induction k; [reflexivity | exact IHk].
  - exact V.
  - exact Sv.
  - exact Sc.
Qed.

Lemma m_close s : matched code_close (CLOSE ++ s) = Some (2, 2).
Proof. unfold matched. cbn [code_close nth code_rules trail r0 pat]. cbn [lit lit_ chars].
  change (CLOSE ++ s) with (":"%char :: "]"%char :: s). rewrite longest_lit2. reflexivity. Qed.

Lemma m_close_no c s : (forall t, c :: s <> CLOSE ++ t) -> matched code_close (c :: s) = None.
Proof.
  intro N. unfold matched. cbn [code_close nth code_rules trail r0 pat]. cbn [lit lit_ chars].
  rewrite longest_lit2_no; [reflexivity |]. exact N.
Qed.

Lemma in_code_not c : in_code c = true -> c <> ":"%char /\ c <> CR /\ c <> LF.
Proof. intro H. repeat split; intros ->; discriminate H. Qed.

Lemma in_code_or c : in_code c = true \/ c = ":"%char \/ c = CR \/ c = LF.
Proof.
  unfold in_code, among. cbn [existsb].
  destruct (Ascii.eqb_spec c ":"); [auto |]. destruct (Ascii.eqb_spec c LF); [auto |].
  destruct (Ascii.eqb_spec c CR); [auto |]. left; reflexivity.
Qed.

Lemma best_text w s : w <> [] -> forallb in_code w = true -> stops in_code s ->
  best (rules CODE) (w ++ s) = Some (code_text, List.length w, List.length w).
Proof.
  intros NE W St. destruct w as [| c w]; [contradiction |].
  assert (C : in_code c = true) by (cbn [forallb] in W; apply andb_true_iff in W; apply W).
  destruct (in_code_not c C) as (N1 & N2 & N3).
  pose proof (m_text (c :: w) s W St) as M. cbn [app] in *. rewrite code_best. cbn [best].
  rewrite m_nl_no by assumption. rewrite M, m_colons_no by exact N1.
  rewrite m_close_no; [reflexivity |]. intros t E. injection E as -> _. contradiction.
Qed.

Lemma best_colons k v s :
  forallb after_colon v = true -> stops after_colon s -> (v = [] -> stops (is ":") s) ->
  (forall t, ":"%char :: repeat ":"%char k ++ v ++ s <> CLOSE ++ t) ->
  best (rules CODE) (":"%char :: repeat ":"%char k ++ v ++ s) =
    Some (code_colons, S (k + List.length v), S (k + List.length v)).
Proof.
  intros V Sv Sc N. rewrite code_best. cbn [best].
  rewrite m_nl_no by discriminate. rewrite m_colons by assumption. rewrite m_close_no by exact N.
  pose proof (m_text [] (":"%char :: repeat ":"%char k ++ v ++ s) eq_refl eq_refl) as M. cbn [app List.length] in M.
  rewrite M. reflexivity.
Qed.

Lemma best_close s : best (rules CODE) (CLOSE ++ s) = Some (code_close, 2, 2).
Proof.
  change (CLOSE ++ s) with (":"%char :: "]"%char :: s). rewrite code_best. cbn [best].
  rewrite m_nl_no by discriminate.
  pose proof (m_text [] (":"%char :: "]"%char :: s) eq_refl eq_refl) as M. cbn [app List.length] in M. rewrite M.
  pose proof (m_colons 0 [] ("]"%char :: s) eq_refl eq_refl (fun _ => eq_refl)) as MC. cbn [repeat app List.length Nat.add] in MC.
  rewrite MC. pose proof (m_close s) as MX. change (CLOSE ++ s) with (":"%char :: "]"%char :: s) in MX. rewrite MX. reflexivity.
Qed.

(** What stays the same while a block is read. *)
Definition frame (st st' : scanner) : Prop :=
  pos st' = pos st /\ open st' = open st /\ code_line st' = code_line st /\ code_col st' = code_col st /\
  echoed st' = echoed st.

Lemma frame_trans a b c : frame a b -> frame b c -> frame a c.
Proof. intros (A & B & C & D & E) (A' & B' & C' & D' & E'). repeat split; congruence. Qed.

(** A step in CODE that goes on. *)
Lemma code_more cfg st q s r :
  smode st = CODE -> best (rules CODE) (q ++ s) = Some (r, List.length q, List.length q) ->
  r = code_text \/ r = code_colons ->
  exists st', step cfg st (q ++ s) = (Go st', s) /\ smode st' = CODE /\ kept st' = kept st ++ q /\
    frame st st' /\ yyline st' = yyline st.
Proof.
  intros M B R. rewrite <- M in B. eexists. rewrite (step_best _ _ _ _ _ _ B).
  rewrite firstn_app, Nat.sub_diag, firstn_all, skipn_app, Nat.sub_diag, skipn_all.
  cbn [firstn skipn]. rewrite app_nil_r.
  destruct R as [-> | ->]; (split; [reflexivity |]); repeat split; assumption.
Qed.

Lemma turn_split c u : c = CR \/ c = LF -> exists q s', c :: u = q ++ s' /\ List.length q = turn_length c u /\
  (q = [LF] \/ q = [CR; LF] \/ q = [CR] /\ forall v, s' <> LF :: v).
Proof.
  intro C. unfold turn_length. destruct (Ascii.eqb_spec c CR) as [-> | N].
  - destruct u as [| d u].
    + exists [CR], []. repeat split. right; right. split; [reflexivity | discriminate].
    + destruct (Ascii.eqb_spec d LF) as [-> | N].
      * exists [CR; LF], u. repeat split. auto.
      * exists [CR], (d :: u). repeat split. right; right. split; [reflexivity |]. intros v E. injection E as E _. contradiction.
  - destruct C as [C | ->]; [contradiction |]. exists [LF], u. repeat split. auto.
Qed.

Lemma more_turn cfg st c u :
  nl_at (smode st) = nl_more -> c = CR \/ c = LF ->
  exists q s' st', c :: u = q ++ s' /\ step cfg st (c :: u) = (Go st', s') /\
    (q = [LF] \/ q = [CR; LF] \/ q = [CR] /\ forall v, s' <> LF :: v) /\
    smode st' = smode st /\ kept st' = kept st ++ q /\ frame st st' /\ yyline st' = S (yyline st).
Proof.
  intros M C. destruct (turn_split c u C) as (q & s' & E & L & Q).
  pose proof (best_newline_at (smode st) c u C) as B. rewrite M, <- L in B.
  exists q, s'. eexists. split; [exact E |]. rewrite (step_best _ _ _ _ _ _ B). rewrite E.
  rewrite firstn_app, Nat.sub_diag, firstn_all, skipn_app, Nat.sub_diag, skipn_all.
  cbn [firstn skipn]. rewrite app_nil_r. split; [reflexivity |]. split; [exact Q |]. repeat split.
Qed.

Lemma turn_newlines q s' : (q = [LF] \/ q = [CR; LF] \/ q = [CR] /\ forall v, s' <> LF :: v) ->
  newlines (q ++ s') = 1 + newlines s'.
Proof.
  intro H. rewrite newlines_app.
  - destruct H as [-> | [-> | [-> _]]]; reflexivity.
  - intros (a & b & A & B). destruct H as [-> | [-> | [-> H]]].
    + destruct a as [| ? [|]]; discriminate A.
    + destruct a as [| ? [| ? [|]]]; discriminate A.
    + exact (H _ B).
Qed.

Lemma colons_split t : exists k w, t = repeat ":"%char k ++ w /\ stops (is ":") w.
Proof.
  exists (List.length (takew (is ":") t)), (dropw (is ":") t). split; [| apply dropw_stops].
  rewrite (take_drop (is ":") t) at 1. f_equal.
  pose proof (takew_all (is ":") t) as A. induction (takew (is ":") t) as [| c l IH]; [reflexivity |].
  cbn [forallb] in A. apply andb_true_iff in A. destruct A as [A B]. cbn [List.length repeat].
  unfold is in A. apply Ascii.eqb_eq in A. subst c. f_equal. apply IH; exact B.
Qed.

Lemma ends_in_app c a b : b <> [] -> ends_in c (a ++ b) <-> ends_in c b.
Proof.
  intro NE. split; intros (u & E).
  - destruct (exists_last NE) as (b' & d & ->). rewrite app_assoc in E. apply app_inj_tail in E. destruct E as [_ ->].
    exists b'; reflexivity.
  - exists (a ++ u). rewrite E, app_assoc. reflexivity.
Qed.

(** The rest of a block's text, if what was read does not end in the middle of colons. *)
Lemma never_closed_tail q b :
  never_closed (q ++ b) -> (forall u, b = COLON :: u -> ~ ends_in COLON q) -> never_closed b.
Proof.
  intros N H a c E. destruct a as [| d a].
  - exfalso. cbn [app] in E. apply (H ("]"%char :: c)); [exact E |].
    specialize (N q c). rewrite E in N. apply N. reflexivity.
  - specialize (N (q ++ d :: a) c). rewrite E, app_assoc in N. specialize (N eq_refl).
    assert (NE : d :: a <> []) by discriminate. exact (proj1 (ends_in_app COLON q (d :: a) NE) N).
Qed.

Lemma not_ends_in (f : ascii -> bool) w : forallb f w = true -> f COLON = false -> ~ ends_in COLON w.
Proof.
  intros W F (u & ->). rewrite forallb_app in W. apply andb_true_iff in W. destruct W as [_ W]. cbn in W.
  rewrite F in W. discriminate.
Qed.

Lemma not_in_nl (f : ascii -> bool) w : forallb f w = true -> f CR = false -> f LF = false -> ~ In CR w /\ ~ In LF w.
Proof.
  intros W A B. rewrite forallb_forall in W. split; intro X; specialize (W _ X); congruence.
Qed.

Definition tail_of_block (body z : text) : Prop :=
  z = [] \/ (~ ends_in COLON body /\ exists rest, z = CLOSE ++ rest).

Lemma code_step cfg st body z :
  smode st = CODE -> body <> [] -> never_closed body -> tail_of_block body z ->
  exists q body' st', body = q ++ body' /\ q <> [] /\ step cfg st (body ++ z) = (Go st', body' ++ z) /\
    never_closed body' /\ tail_of_block body' z /\ newlines body = newlines q + newlines body' /\
    smode st' = CODE /\ kept st' = kept st ++ q /\ frame st st' /\ yyline st' = yyline st + newlines q.
Proof.
  intros M NE NC TB. destruct body as [| c t]; [contradiction |].
  assert (TB' : forall q b, c :: t = q ++ b -> tail_of_block b z).
  { intros q b E. destruct TB as [-> | (A & R)]; [left; reflexivity |]. right. split; [| exact R].
    destruct b as [| d b]; [intros (u & X); destruct u; discriminate X |].
    intro X. apply A. rewrite E. apply ends_in_app; [discriminate | exact X]. }
  assert (ZN : forall u, z <> LF :: u).
  { intros u E. destruct TB as [-> | (_ & r & ->)]; discriminate E. }
  destruct (in_code_or c) as [C | [-> | C]].
  - set (w := takew in_code (c :: t)). set (b := dropw in_code (c :: t)).
    pose proof (take_drop in_code (c :: t)) as E. fold w b in E.
    assert (W : forallb in_code w = true) by apply takew_all.
    assert (Wn : w <> []) by (unfold w; cbn [takew]; rewrite C; discriminate).
    assert (St : stops in_code (b ++ z)).
    { pose proof (dropw_stops in_code (c :: t)) as D. fold b in D. destruct b; [| exact D].
      destruct TB as [-> | (_ & r & ->)]; [exact I | reflexivity]. }
    pose proof (best_text w (b ++ z) Wn W St) as B.
    destruct (code_more cfg st w (b ++ z) _ M B (or_introl eq_refl)) as (st' & S1 & S2 & S3 & S4 & S5).
    destruct (not_in_nl in_code w W eq_refl eq_refl) as [N1 N2].
    exists w, b, st'. split; [exact E |]. split; [exact Wn |].
    split; [rewrite E, <- app_assoc; exact S1 |].
    split. { rewrite E in NC. apply (never_closed_tail w); [exact NC |]. intros u _. apply (not_ends_in in_code); [exact W | reflexivity]. }
    split; [apply (TB' w); exact E |].
    split. { rewrite E. apply newlines_app. apply not_cut_in. exact N1. }
    rewrite (newlines_none w) by assumption. rewrite Nat.add_0_r. auto.
  - destruct (colons_split t) as (k & w0 & E0 & St0).
    set (v := takew after_colon w0). set (b := dropw after_colon w0).
    pose proof (take_drop after_colon w0) as E1. fold v b in E1.
    assert (V : forallb after_colon v = true) by apply takew_all.
    assert (Sb : stops after_colon (b ++ z)).
    { pose proof (dropw_stops after_colon w0) as D. fold b in D. destruct b; [| exact D].
      destruct TB as [-> | (_ & r & ->)]; [exact I | reflexivity]. }
    assert (E : ":"%char :: t = (":"%char :: repeat ":"%char k ++ v) ++ b).
    { rewrite E0, E1. cbn [app]. rewrite app_assoc. reflexivity. }
    assert (CB : v = [] -> b <> [] -> stops (is ":") b).
    { intros Hv Hb. rewrite Hv in E1. cbn [app] in E1. rewrite <- E1. exact St0. }
    assert (Sc : v = [] -> stops (is ":") (b ++ z)).
    { intro Hv. destruct b as [| d b'] eqn:Hb; [| apply (CB Hv); discriminate].
      destruct TB as [-> | (A & r & ->)]; [exact I | exfalso]. apply A. rewrite E, Hv.
      exists (repeat ":"%char k). rewrite !app_nil_r. clear. induction k; [reflexivity |]. cbn. f_equal. exact IHk. }
    assert (NB : forall u, ":"%char :: repeat ":"%char k ++ v ++ b ++ z <> CLOSE ++ u).
    { intros u X. cbn [CLOSE chars app] in X. injection X as X. destruct k as [| k]; [| discriminate X].
      cbn [repeat app] in X. destruct v as [| d v']; [| injection X as -> _; discriminate V].
      cbn [app] in X. destruct b as [| d b'].
      - cbn [app] in X. destruct TB as [-> | (_ & r & ->)]; discriminate X.
      - injection X as -> _. specialize (NC [] b'). destruct NC as (u' & U); [rewrite E; reflexivity | destruct u'; discriminate U]. }
    pose proof (best_colons k v (b ++ z) V Sb Sc NB) as B.
    assert (Q : ":"%char :: repeat ":"%char k ++ v ++ b ++ z = (":"%char :: repeat ":"%char k ++ v) ++ b ++ z).
    { cbn [app]. rewrite !app_assoc. reflexivity. }
    assert (L : S (k + List.length v) = List.length (":"%char :: repeat ":"%char k ++ v)).
    { cbn [List.length]. rewrite app_length, repeat_length. reflexivity. }
    rewrite L, Q in B. set (q := ":"%char :: repeat ":"%char k ++ v) in *.
    destruct (code_more cfg st q (b ++ z) _ M B (or_intror eq_refl)) as (st' & S1 & S2 & S3 & S4 & S5).
    assert (N : ~ In CR q /\ ~ In LF q).
    { assert (R : forall c, In c q -> c = ":"%char \/ In c v).
      { intros c [<- | X]; [left; reflexivity |]. apply in_app_or in X. destruct X as [X | X]; [left | right; exact X].
        apply repeat_spec in X. exact X. }
      destruct (not_in_nl after_colon v V eq_refl eq_refl) as [N1 N2].
      split; intro X; apply R in X; destruct X as [X | X]; try discriminate X; contradiction. }
    destruct N as [N1 N2].
    exists q, b, st'. split; [exact E |]. split; [discriminate |].
    split; [rewrite E, <- app_assoc; exact S1 |].
    split. { rewrite E in NC. apply (never_closed_tail q); [exact NC |]. intros u U X.
      destruct v as [| d v'] eqn:Hv.
      - assert (Bn : b <> []) by (rewrite U; discriminate). specialize (CB eq_refl Bn). rewrite U in CB. discriminate CB.
      - assert (VN : d :: v' <> []) by discriminate. unfold q in X.
        change (":"%char :: repeat ":"%char k ++ d :: v') with ((":"%char :: repeat ":"%char k) ++ d :: v') in X.
        apply (proj1 (ends_in_app COLON _ _ VN)) in X. revert X. apply (not_ends_in after_colon); [exact V | reflexivity]. }
    split; [apply (TB' q); exact E |].
    split. { rewrite E. apply newlines_app. apply not_cut_in. exact N1. }
    rewrite (newlines_none q) by assumption. rewrite Nat.add_0_r. auto.
  - assert (NM : nl_at (smode st) = nl_more) by (rewrite M; reflexivity).
    destruct (more_turn cfg st c (t ++ z) NM C) as (q & s' & st' & E & S1 & Q & S2 & S3 & S4 & S5).
    assert (X : exists b, c :: t = q ++ b /\ s' = b ++ z).
    { destruct Q as [-> | [-> | [-> _]]]; cbn [app] in E; injection E as -> E.
      - exists t; auto.
      - destruct t as [| d t]; [exfalso; cbn [app] in E; exact (ZN _ E) |].
        cbn [app] in E. injection E as -> E. exists t; auto.
      - exists t; auto. }
    destruct X as (b & X & ->).
    assert (Q' : q = [LF] \/ q = [CR; LF] \/ q = [CR] /\ forall v, b <> LF :: v).
    { destruct Q as [Q | [Q | [Q H]]]; auto. right; right. split; [exact Q |]. intros v V. apply (H (v ++ z)). rewrite V. reflexivity. }
    exists q, b, st'. split; [exact X |].
    split. { destruct Q as [-> | [-> | [-> _]]]; discriminate. }
    split; [exact S1 |].
    split. { rewrite X in NC. apply (never_closed_tail q); [exact NC |]. intros u _ (w & W).
      destruct Q as [-> | [-> | [-> _]]]; destruct w as [| ? [| ? [|]]]; discriminate W. }
    split; [apply (TB' q); exact X |].
    assert (NQ : newlines q = 1) by (destruct Q as [-> | [-> | [-> _]]]; reflexivity).
    split; [rewrite X, NQ; apply turn_newlines; exact Q' |].
    rewrite NQ, Nat.add_1_r. rewrite <- M. auto.
Qed.

(** Reading the text of a block up to its end. *)
Lemma code_reads cfg : forall n body st z,
  List.length body < n -> smode st = CODE -> never_closed body -> tail_of_block body z ->
  exists st', reads cfg st (body ++ z) [] st' z /\ smode st' = CODE /\ kept st' = kept st ++ body /\
    frame st st' /\ yyline st' = yyline st + newlines body.
Proof.
  induction n as [| n IH]; intros body st z L M NC TB; [lia |].
  destruct body as [| c t].
  - exists st. repeat split; [apply rd_none | exact M | rewrite app_nil_r; reflexivity | cbn [newlines]; lia].
  - assert (NE : c :: t <> []) by discriminate.
    destruct (code_step cfg st (c :: t) z M NE NC TB) as (q & b & st1 & E & Qn & S1 & N1 & T1 & Y & M1 & K1 & F1 & Y1).
    assert (Lb : List.length b < n).
    { apply (f_equal (@List.length ascii)) in E. rewrite app_length in E. destruct q; [contradiction |]. cbn [List.length] in *. lia. }
    destruct (IH b st1 z Lb M1 N1 T1) as (st' & R & M' & K' & F' & Y').
    exists st'. split; [eapply rd_go; [discriminate | exact S1 | exact R] |].
    split; [exact M' |]. split; [rewrite K', K1, E, app_assoc; reflexivity |].
    split; [eapply frame_trans; eassumption |]. lia.
Qed.

Lemma close_step cfg st rest :
  smode st = CODE ->
  exists st', step cfg st (CLOSE ++ rest) = (Give (Tok "T_CODE") (copy_code cfg st (kept st)) st', rest) /\
    smode st' = (match pos st with RuleLexer => RULE_LEXER | _ => INITIAL end) /\ kept st' = [] /\ frame st st' /\
    yyline st' = yyline st.
Proof.
  intro M. pose proof (best_close rest) as B. rewrite <- M in B.
  rewrite (step_best _ _ _ _ _ _ B). cbn [firstn skipn CLOSE chars app].
  cbn [code_close nth code_rules act r0].
  set (s0 := append_line _ _).
  assert (FN : firstn (List.length (kept st ++ chars ":]") - 2) (kept st ++ chars ":]") = kept st).
  { rewrite app_length. cbn [chars List.length]. rewrite Nat.add_sub, firstn_app, Nat.sub_diag, firstn_all. apply app_nil_r. }
  cbn [chars] in FN. rewrite FN.
  assert (CC : copy_code cfg s0 (kept st) = copy_code cfg st (kept st)) by reflexivity. rewrite CC.
  change (pos s0) with (pos st).
  exists (match pos st with RuleLexer => begin RULE_LEXER s0 | _ => begin INITIAL s0 end).
  destruct (pos st) eqn:P; repeat split; cbn [begin pos]; exact P.
Qed.

Lemma code_run cfg body st rest :
  smode st = CODE -> code_body body ->
  exists st', reads cfg st (body ++ CLOSE ++ rest)
      [Lexeme (Tok "T_CODE") (copy_code cfg st (kept st ++ body)) (yyline st')] st' rest /\
    smode st' = (match pos st with RuleLexer => RULE_LEXER | _ => INITIAL end) /\ kept st' = [] /\ frame st st' /\
    yyline st' = yyline st + newlines body.
Proof.
  intros M (NE & NC).
  destruct (code_reads cfg (S (List.length body)) body st (CLOSE ++ rest) (Nat.lt_succ_diag_r _) M NC) as (st1 & R & M1 & K1 & F1 & Y1).
  { right. split; [exact NE | eauto]. }
  destruct (close_step cfg st1 rest M1) as (st' & ST & M' & K' & F' & Y').
  exists st'. split.
  - change [Lexeme (Tok "T_CODE") (copy_code cfg st (kept st ++ body)) (yyline st')] with
      ([] ++ [Lexeme (Tok "T_CODE") (copy_code cfg st (kept st ++ body)) (yyline st')]).
    eapply reads_app; [exact R |].
    assert (CC : copy_code cfg st (kept st ++ body) = copy_code cfg st1 (kept st1)).
    { rewrite K1. destruct F1 as (_ & _ & C1 & C2 & _). unfold copy_code. rewrite C1, C2. reflexivity. }
    rewrite CC. eapply rd_give; [discriminate | exact ST | apply rd_none].
  - destruct F1 as (P1 & F1). rewrite M'. rewrite P1. split; [reflexivity |]. split; [exact K' |].
    split; [eapply frame_trans; [split; [exact P1 | exact F1] | exact F'] |]. lia.
Qed.

(** A block that is not closed. *)
Lemma code_unclosed cfg t st :
  smode st = CODE -> never_closed t -> exists l c, scan_from cfg st t = LexError [] l c.
Proof.
  intros M NC.
  destruct (code_reads cfg (S (List.length t)) t st [] (Nat.lt_succ_diag_r _) M NC) as (st1 & R & M1 & _).
  { left; reflexivity. }
  rewrite app_nil_r in R. apply reads_scan in R. rewrite R. cbn [after]. rewrite scan_from_nil. unfold at_end.
  rewrite M1. eauto.
Qed.
