(** Proofs: what is printed of a rule reads as the rule without its code. *)
From Coq Require Import List Ascii String Bool PeanoNat Lia.
From Verif Require Import Base FlexModel ScanModel ScanSpec GramModel GramSpec WriteSpec WriteFileSpec WriteFileProofs PrintModel PrintSpec.
Import ListNotations.

(** ** The stack of alternatives *)
Fixpoint leaves (i : item) : list item := match i with IAlternative l r => leaves l ++ leaves r | _ => [i] end.
Definition weight (l : list item) : nat := fold_right (fun i n => item_nodes i + n) 0 l.
Lemma item_nodes_pos i : 1 <= item_nodes i.
Proof. destruct i; cbn [item_nodes]; lia. Qed.
Lemma top_level_ok : forall fuel stack found, weight stack < fuel -> top_level fuel stack found = Some (found ++ flat_map leaves stack).
Proof.
  induction fuel as [| fuel IH]; intros stack found H; [lia |]. cbn [top_level]. destruct stack as [| n stack]; [cbn [flat_map]; rewrite app_nil_r; reflexivity |].
  unfold weight in H. cbn [fold_right] in H. fold (weight stack) in H. pose proof (item_nodes_pos n).
  destruct n; try (rewrite IH by lia; cbn [flat_map leaves app]; rewrite <- app_assoc; reflexivity).
  rewrite IH by (cbn [item_nodes] in H; unfold weight; cbn [fold_right]; fold (weight stack); lia). cbn [flat_map leaves]. rewrite <- app_assoc. reflexivity.
Qed.

(** ** Sequences and alternatives of tight items *)
Fixpoint walks_all (js : list isrc) (p : list mark) : Prop :=
  match js with [] => p = [] | j :: js => exists a b, p = a ++ b /\ walks j a /\ walks_all js b end.
Lemma walks_all_app a b p : walks_all (a ++ b) p <-> exists u v, p = u ++ v /\ walks_all a u /\ walks_all b v.
Proof.
  revert p. induction a as [| j a IH]; intro p; cbn [app walks_all].
  - split; [intro H; exists [], p; auto | intros (u & v & -> & -> & H); exact H].
  - split.
    + intros (x & y & -> & X & Y). apply IH in Y. destruct Y as (u & v & -> & U & V). exists (x ++ u), v. rewrite <- app_assoc. split; [reflexivity |]. split; [exists x, u; auto | exact V].
    + intros (u & v & -> & (x & y & -> & X & Y) & V). exists x, (y ++ v). rewrite <- app_assoc. split; [reflexivity |]. split; [exact X |]. apply IH. exists y, v. auto.
Qed.
Lemma walks_one j p : walks_all [j] p <-> walks j p.
Proof. cbn [walks_all]. split; [intros (a & b & -> & A & ->); rewrite app_nil_r; exact A | intro H; exists p, []; rewrite app_nil_r; auto]. Qed.
Definition tight (j : isrc) : Prop := 4 <= ilevel j /\ lists_plain j = true.
Lemma tight_code j : 4 <= ilevel j -> code_first j = false.
Proof. destruct j; cbn [ilevel code_first]; intro H; try reflexivity; lia. Qed.
Lemma inside_no n m ts : n <= m -> inside "(" ")" n m ts = ts.
Proof. intro H. unfold inside. destruct (Nat.ltb_spec m n); [lia | reflexivity]. Qed.
Fixpoint cat_from (a : isrc) (l : list isrc) : isrc := match l with [] => a | x :: l => cat_from (IThen a x) l end.
Lemma cat_level l : forall a, 2 <= ilevel a -> 2 <= ilevel (cat_from a l).
Proof. induction l as [| x l IH]; intros a H; cbn [cat_from]; [exact H | apply IH; cbn [ilevel]; lia]. Qed.
Lemma cat_plain l : forall a, lists_plain a = true -> Forall tight l -> lists_plain (cat_from a l) = true.
Proof. induction l as [| x l IH]; intros a H F; cbn [cat_from]; [exact H |]. inversion F as [| y z [_ T] Z]; subst. apply IH; [cbn [lists_plain]; rewrite H, T; reflexivity | exact Z]. Qed.
Lemma cat_show l : forall a, 2 <= ilevel a -> Forall tight l -> ishow (cat_from a l) = ishow a ++ flat_map ishow l.
Proof.
  induction l as [| x l IH]; intros a H F; cbn [cat_from flat_map]; [rewrite app_nil_r; reflexivity |]. inversion F as [| y z [T _] Z]; subst.
  rewrite IH by (cbn [ilevel]; auto with arith). cbn [ishow]. rewrite (tight_code x T), !inside_no by lia. rewrite <- app_assoc. reflexivity.
Qed.
Lemma walks_then i j p : walks (IThen i j) p <-> exists a b, p = a ++ b /\ walks i a /\ walks j b.
Proof. split; [inversion 1; subst; eauto | intros (a & b & -> & A & B); apply wk_then; assumption]. Qed.
Lemma cat_walks l : forall a p, walks (cat_from a l) p <-> exists u v, p = u ++ v /\ walks a u /\ walks_all l v.
Proof.
  induction l as [| x l IH]; intros a p; cbn [cat_from walks_all].
  - split; [intro H; exists p, []; rewrite app_nil_r; auto | intros (u & v & -> & U & ->); rewrite app_nil_r; exact U].
  - rewrite IH. split.
    + intros (u & v & -> & U & V). apply walks_then in U. destruct U as (b & d & -> & B & D). exists b, (d ++ v). rewrite <- app_assoc. split; [reflexivity |]. split; [exact B | exists d, v; auto].
    + intros (u & v & -> & U & (b & d & -> & B & D)). exists (u ++ b), d. rewrite <- app_assoc. split; [reflexivity |]. split; [apply wk_then; assumption | exact D].
Qed.
Lemma cat_ok js : js <> [] -> Forall tight js -> exists j, 2 <= ilevel j /\ lists_plain j = true /\ ishow j = flat_map ishow js /\ forall p, walks j p <-> walks_all js p.
Proof.
  destruct js as [| a l]; [contradiction |]. intros _ F. inversion F as [| y z [T P] Z]; subst. exists (cat_from a l).
  split; [apply cat_level; lia |]. split; [apply cat_plain; assumption |]. split; [apply cat_show; [lia | exact Z] |]. intro p. apply cat_walks.
Qed.
Fixpoint or_from (a : isrc) (l : list isrc) : isrc := match l with [] => a | x :: l => or_from (IOr a x) l end.
Lemma or_plain l : forall a, lists_plain a = true -> Forall (fun x => lists_plain x = true) l -> lists_plain (or_from a l) = true.
Proof. induction l as [| x l IH]; intros a H F; cbn [or_from]; [exact H |]. inversion F as [| y z T Z]; subst. apply IH; [cbn [lists_plain]; rewrite H, T; reflexivity | exact Z]. Qed.
Lemma or_show l : forall a, Forall (fun x => 2 <= ilevel x) l -> ishow (or_from a l) = ishow a ++ flat_map (fun x => c "|" ++ ishow x) l.
Proof.
  induction l as [| x l IH]; intros a F; cbn [or_from flat_map]; [rewrite app_nil_r; reflexivity |]. inversion F as [| y z T Z]; subst.
  rewrite IH by exact Z. cbn [ishow]. rewrite !inside_no by lia. rewrite <- !app_assoc. reflexivity.
Qed.
Lemma or_walks l : forall a p, walks (or_from a l) p <-> walks a p \/ exists x, In x l /\ walks x p.
Proof.
  induction l as [| x l IH]; intros a p; cbn [or_from].
  - split; [auto | intros [H | (x & [] & _)]; exact H].
  - rewrite IH. split.
    + intros [H | (y & Y & W)]; [| right; exists y; split; [right; exact Y | exact W]]. inversion H; subst; [left; assumption |]. right. exists x. split; [left; reflexivity | assumption].
    + intros [H | (y & [<- | Y] & W)]; [left; apply wk_left; exact H | left; apply wk_right; exact W | right; exists y; auto].
Qed.

(** ** Writing *)
Definition stop (s : text) : Prop := match s with d :: _ => In d (chars " )=:") | [] => False end.
Lemma put ts s q x w : writes outer x w any outer -> written outer ts s q -> written outer (x :: ts) (w ++ s) q.
Proof. intros W R. change (w ++ s) with ([] ++ w ++ s). eapply wr_token; [apply empty_gap | exact W | exact Logic.I | exact R]. Qed.
Lemma put_char ts s q d : In d (chars "(){},#:=+*?@|&") -> written outer ts s q -> written outer ((Chr d, []) :: ts) (d :: s) q.
Proof. intros D R. apply (put ts s q (Chr d, []) [d]); [apply w_char; exact D | exact R]. Qed.
Lemma stop_over l s : (forall d, In d (chars " )=:") -> ~ In d l) -> stop s -> over l s.
Proof. destruct s as [| d s]; [intros _ [] |]. intros H D. exact (H d D). Qed.
Ltac stops_out := let d := fresh in let D := fresh in let J := fresh in
  intros d D; cbn [chars In] in D; repeat (destruct D as [<- | D]; [intro J; vm_compute in J; repeat (destruct J as [J | J]; [discriminate J |]); exact J |]); destruct D.
Lemma put_word ts s q w : is_word w -> stop s -> written outer ts s q -> written outer (word_token w :: ts) (w ++ s) q.
Proof.
  intros W K R. change (w ++ s) with ([] ++ w ++ s). eapply wr_token; [apply empty_gap | apply w_word; exact W | | exact R].
  split; [apply stop_over; [stops_out | exact K] |]. intros (_ & u & [-> | ->]); cbn [chars app stop In] in K; repeat (destruct K as [K | K]; [discriminate K |]); exact K.
Qed.
Lemma put_identifier ts s q x : identifier x -> stop s -> written outer ts s q -> written outer (t "T_IDENTIFIER" x ++ ts) (x ++ s) q.
Proof.
  intros (W & U & N) K R. pose proof (put_word ts s q x W K R) as P. unfold word_token in P.
  destruct (forallb _ x) eqn:E; [exfalso; apply U, upper_forallb, E |]. destruct (text_dec x (chars "catch")); [contradiction | exact P].
Qed.
Lemma put_terminal ts s q x : terminal x -> stop s -> written outer ts s q -> written outer (t "T_TERMINAL" x ++ ts) (x ++ s) q.
Proof.
  intros T K R. pose proof (put_word ts s q x (terminal_word x T) K R) as P. unfold word_token in P.
  destruct T as [_ A]. apply upper_forallb in A. rewrite A in P. exact P.
Qed.
Lemma put_zero ts s q : stop s -> written outer ts s q -> written outer (c "0" ++ ts) (chars "0" ++ s) q.
Proof.
  intros K R. change (chars "0" ++ s) with ([] ++ chars "0" ++ s). eapply wr_token; [apply empty_gap | apply (w_number RuleBody (chars "0")); split; [discriminate | intros d [<- | []]; left; reflexivity] | | exact R].
  apply stop_over; [stops_out | exact K].
Qed.
Lemma put_space ts s q : written outer ts s q -> written outer ts (chars " " ++ s) q.
Proof. apply written_space, spaced_gap. auto. Qed.

(** ** Items *)
Section D.
Variable d : text -> text.
Definition puts (js : list isrc) (s : text) : Prop :=
  forall ts s' q, stop s' -> written outer ts s' q -> written outer (flat_map ishow js ++ ts) (s ++ s') q.
Definition shown_as (i : isrc) (s : text) (js : list isrc) : Prop :=
  (forall fuel, item_nodes (imeans d i) < fuel -> print_ fuel (imeans d i) = Some s) /\
  Forall tight js /\ (js = [] <-> silent i = true) /\ (forall p, walks i p <-> walks_all js p) /\ puts js s /\ clean s.
Lemma shown_same i j s js : imeans d i = imeans d j -> silent i = silent j -> (forall p, walks i p <-> walks j p) -> shown_as i s js -> shown_as j s js.
Proof. intros E N W (P & T & S0 & K & U & C). rewrite E in P. rewrite N in S0. split; [exact P |]. split; [exact T |]. split; [exact S0 |]. split; [intro p; rewrite <- W; apply K | auto]. Qed.

(** Something in parentheses. *)
Lemma one_tight j : 4 <= ilevel j -> lists_plain j = true -> Forall tight [j].
Proof. intros A B. constructor; [split; assumption | constructor]. Qed.
Lemma one_silent (j i : isrc) : silent i = false -> ([j] = [] <-> silent i = true).
Proof. intros ->. split; discriminate. Qed.
Lemma puts_par js j s : ishow j = flat_map ishow js -> puts js s -> forall ts s' q, written outer ts s' q -> written outer (c "(" ++ (ishow j ++ c ")" ++ ts)) (chars "(" ++ s ++ chars ")" ++ s') q.
Proof.
  intros E P ts s' q R. rewrite E. apply put_char; [in_list |]. apply P; [right; left; reflexivity |]. apply put_char; [in_list | exact R].
Qed.

(** Alternatives. *)
Fixpoint spieces (i : isrc) : list isrc :=
  match i with IPar j => spieces j | IOr j l => spieces j ++ spieces l | IMaybe j => spieces j ++ [IEmpty] | _ => [i] end.
Lemma leaves_pieces i : leaves (imeans d i) = map (imeans d) (spieces i).
Proof.
  induction i; try reflexivity.
  - destruct a; reflexivity.
  - exact IHi.
  - cbn [imeans leaves spieces]. rewrite IHi, map_app. reflexivity.
  - cbn [imeans leaves spieces]. rewrite IHi1, IHi2, map_app. reflexivity.
Qed.
Lemma leaf_nodes i n : In n (leaves i) -> item_nodes n <= item_nodes i.
Proof.
  induction i; intro H; try (destruct H as [<- | []]; apply Nat.le_refl). cbn [leaves] in H. apply in_app_or in H. cbn [item_nodes]. destruct H as [H | H]; [specialize (IHi1 H) | specialize (IHi2 H)]; lia.
Qed.
Lemma pieces_walk i p : walks i p <-> exists m, In m (spieces i) /\ walks m p.
Proof.
  assert (One : forall j, walks j p <-> exists m, In m [j] /\ walks m p) by (intro j; split; [intro H; exists j; split; [left; reflexivity | exact H] | intros (m & [<- | []] & H); exact H]).
  induction i; try apply One; cbn [spieces].
  - rewrite <- IHi. split; [inversion 1; assumption | apply wk_par].
  - split.
    + inversion 1; subst; [exists IEmpty; split; [apply in_or_app; right; left; reflexivity | apply wk_empty] |].
      match goal with X : walks i p |- _ => apply IHi in X; destruct X as (m & M & W) end. exists m. split; [apply in_or_app; left; exact M | exact W].
    + intros (m & M & W). apply in_app_or in M. destruct M as [M | [<- | []]]; [apply wk_maybe, IHi; exists m; auto |]. inversion W. apply wk_maybe0.
  - split.
    + inversion 1; subst; match goal with X : walks _ p |- _ => first [apply IHi1 in X | apply IHi2 in X]; destruct X as (m & M & W) end; exists m; (split; [apply in_or_app; auto | exact W]).
    + intros (m & M & W). apply in_app_or in M. destruct M as [M | M]; [apply wk_left, IHi1 | apply wk_right, IHi2]; exists m; auto.
Qed.
Fixpoint isz (i : isrc) : nat :=
  S match i with
    | IPar j | IRecover j | IMany j | IAnyMany j | IMaybe j | IWithCode j _ | IWhen _ j => isz j
    | IRollback j l | IListOf j l | IThen j l | IOr j l => isz j + isz l
    | _ => 0
    end.
Definition good (i : isrc) : Prop := i_legible i /\ spoken i = true.
Lemma pieces_good i : good i -> silent i = false -> Forall (fun m => good m /\ silent m = false /\ isz m <= isz i) (spieces i).
Proof.
  assert (One : forall j, good j -> silent j = false -> Forall (fun m => good m /\ silent m = false /\ isz m <= isz j) [j]) by (intros j G N; constructor; [auto | constructor]).
  induction i; intros G N; try (apply One; assumption); destruct G as [L P]; cbn [i_legible spoken silent spieces] in *.
  - eapply Forall_impl; [| apply IHi; [split; assumption | exact N]]. intros m (A & B & C). cbn [isz]. auto.
  - apply andb_true_iff in P. destruct P as [P1 P2]. apply negb_true_iff in P1. apply Forall_app. split.
    + eapply Forall_impl; [| apply IHi; [split; assumption | exact P1]]. intros m (A & B & C). cbn [isz]. auto.
    + constructor; [| constructor]. split; [split; [exact Logic.I | reflexivity] |]. split; [reflexivity | cbn [isz]; lia].
  - apply andb_true_iff in P. destruct P as [P P']. apply andb_true_iff in P, P'. destruct P as [P1 P2], P' as [P3 P4]. apply negb_true_iff in P1, P3. destruct L as [L1 L2].
    apply Forall_app. split.
    + eapply Forall_impl; [| apply IHi1; [split; assumption | exact P1]]. intros m (A & B & C). cbn [isz]. repeat split; try apply A; try exact B. lia.
    + eapply Forall_impl; [| apply IHi2; [split; assumption | exact P3]]. intros m (A & B & C). cbn [isz]. repeat split; try apply A; try exact B. lia.
Qed.
Lemma pieces_some i : spieces i <> [].
Proof. induction i; cbn [spieces]; try discriminate; [exact IHi | | ]; intro H; apply app_eq_nil in H; destruct H; [discriminate | contradiction]. Qed.

(** What is printed for one of them. *)
Definition alone (m : isrc) (s : text) (j : isrc) : Prop :=
  (forall fuel, item_nodes (imeans d m) < fuel -> print_ fuel (imeans d m) = Some s) /\
  2 <= ilevel j /\ lists_plain j = true /\ (forall p, walks m p <-> walks j p) /\
  (forall ts s' q, stop s' -> written outer ts s' q -> written outer (ishow j ++ ts) (s ++ s') q) /\ clean s.
Lemma alone_ok m s js : shown_as m s js -> silent m = false -> exists j, alone m s j.
Proof.
  intros (P & T & S0 & W & U & C) N. destruct (cat_ok js) as (j & A & B & E & K); [intro X; apply S0 in X; congruence | exact T |].
  exists j. split; [exact P |]. split; [exact A |]. split; [exact B |]. split; [intro p; rewrite W, K; reflexivity |]. split; [rewrite E; exact U | exact C].
Qed.
Lemma barred_flat x l : barred (x :: l) = x ++ flat_map (fun y => chars " | " ++ y) l.
Proof.
  revert x. induction l as [| y l IH]; intro x; [symmetry; apply app_nil_r |]. change (barred (x :: y :: l)) with (x ++ chars " | " ++ barred (y :: l)).
  rewrite IH. cbn [flat_map]. rewrite <- app_assoc. reflexivity.
Qed.
Lemma tail_puts l : forall ss js, Forall2 (fun (m : isrc) x => alone m (fst x) (snd x)) l (combine ss js) -> List.length ss = List.length js ->
  (forall ts s' q, stop s' -> written outer ts s' q ->
    stop (flat_map (fun y => chars " | " ++ y) ss ++ s') /\
    written outer (flat_map (fun x => c "|" ++ ishow x) js ++ ts) (flat_map (fun y => chars " | " ++ y) ss ++ s') q) /\
  clean (flat_map (fun y => chars " | " ++ y) ss).
Proof.
  induction l as [| m l IH]; intros [| s ss] [| j js] F E; cbn [combine] in F; inversion F; subst; try discriminate E.
  - split; [intros ts s' q K R; split; [exact K | exact R] | clean_text].
  - cbn [fst snd] in *. destruct (IH ss js) as [A B]; [assumption | injection E as E; exact E |]. match goal with X : alone _ _ _ |- _ => destruct X as (_ & _ & _ & _ & U & C) end. split.
    + intros ts s' q K R. destruct (A ts s' q K R) as [A1 A2]. cbn [flat_map]. rewrite <- !app_assoc. split; [left; reflexivity |].
      cbn [app chars]. change (" "%char :: "|"%char :: " "%char :: ?x) with (chars " " ++ "|"%char :: chars " " ++ x). apply put_space. apply put_char; [in_list |]. apply put_space. apply U; assumption.
    + cbn [flat_map]. rewrite <- app_assoc. apply clean_app; [clean_text |]. apply clean_app; assumption.
Qed.
Lemma alternatives ms : ms <> [] -> Forall (fun m => exists s j, alone m s j) ms ->
  exists ss j, (forall f, (forall m, In m ms -> item_nodes (imeans d m) < f) -> all_of (map (print_ f) (map (imeans d) ms)) = Some ss) /\
    lists_plain j = true /\ (forall p, walks j p <-> exists m, In m ms /\ walks m p) /\
    (forall ts s' q, stop s' -> written outer ts s' q -> written outer (ishow j ++ ts) (barred ss ++ s') q) /\ clean (barred ss).
Proof.
  intros NE F.
  assert (X : exists ss js, List.length ss = List.length js /\ List.length ss = List.length ms /\ Forall2 (fun (m : isrc) x => alone m (fst x) (snd x)) ms (combine ss js)).
  { clear NE. induction F as [| m ms (s & j & A) F (ss & js & E & E' & IH)]; [exists [], []; repeat split; constructor |].
    exists (s :: ss), (j :: js). split; [cbn [List.length]; congruence |]. split; [cbn [List.length]; congruence | constructor; assumption]. }
  destruct X as (ss & js & E & E' & X). clear F.
  assert (Pr : forall f, (forall m, In m ms -> item_nodes (imeans d m) < f) -> all_of (map (print_ f) (map (imeans d) ms)) = Some ss).
  { clear NE. intros f. revert ss js E E' X. induction ms as [| m ms IH]; intros [| s ss] [| j js] E E' X H; try discriminate E; try discriminate E'; [reflexivity |].
    inversion X as [| ? ? ? ? A B]; subst. destruct A as (A & _). cbn [fst] in A. cbn [map all_of]. rewrite A by (apply H; left; reflexivity).
    rewrite (IH ss js); [reflexivity | injection E as E; exact E | injection E' as E'; exact E' | exact B | intros; apply H; right; assumption]. }
  destruct ms as [| m ms]; [contradiction |]. destruct ss as [| s ss]; [discriminate E' |]. destruct js as [| j js]; [discriminate E |].
  inversion X as [| ? ? ? ? A B]; subst. cbn [fst snd] in A. injection E as E. injection E' as E'.
  assert (Ls : Forall (fun x => 2 <= ilevel x) js /\ Forall (fun x => lists_plain x = true) js /\ forall p, (exists x, In x js /\ walks x p) <-> exists x, In x ms /\ walks x p).
  { clear Pr X A NE. revert ss js E E' B. induction ms as [| m' ms IH]; intros [| s' ss] [| j' js] E E' B; try discriminate E; try discriminate E'.
    - repeat split; try constructor; intros (x & [] & _).
    - inversion B as [| ? ? ? ? A0 B0]; subst. cbn [fst snd] in A0. destruct A0 as (_ & A1 & A2 & A3 & _).
      destruct (IH ss js) as (I1 & I2 & I3); [injection E as E; exact E | injection E' as E'; exact E' | exact B0 |].
      split; [constructor; assumption |]. split; [constructor; assumption |]. intro p. split.
      + intros (x & [<- | J] & W); [exists m'; split; [left; reflexivity | apply A3; exact W] |]. destruct (proj1 (I3 p)) as (y & Y & Z); [exists x; auto |]. exists y. split; [right; exact Y | exact Z].
      + intros (x & [<- | J] & W); [exists j'; split; [left; reflexivity | apply A3; exact W] |]. destruct (proj2 (I3 p)) as (y & Y & Z); [exists x; auto |]. exists y. split; [right; exact Y | exact Z]. }
  destruct Ls as (L1 & L2 & L3). destruct A as (_ & _ & A2 & A3 & A4 & A5). destruct (tail_puts ms ss js B E) as [T1 T2].
  exists (s :: ss), (or_from j js). split; [exact Pr |]. split; [apply or_plain; assumption |]. split.
  { intro p. rewrite or_walks, L3, <- A3. split.
    - intros [W | (x & J & W)]; [exists m; split; [left; reflexivity | exact W] | exists x; split; [right; exact J | exact W]].
    - intros (x & [<- | J] & W); [left; exact W | right; exists x; auto]. }
  split.
  - intros ts s' q K R. rewrite barred_flat, or_show by exact L1. rewrite <- !app_assoc. destruct (T1 ts s' q K R) as [T3 T4]. apply A4; assumption.
  - rewrite barred_flat. apply clean_app; assumption.
Qed.

(** Everything. *)
Lemma shown_atom v a s0 m0 x0 : atom_legible a -> v = Some (s0, m0, x0) /\ identifier x0 \/ v = None ->
  forall i, i = match v with Some _ => IBind s0 m0 x0 a | None => IAtom a end -> exists s js, shown_as i s js.
Proof.
  intros L V i Ei.
  assert (P : exists y a', (forall f, 0 < f -> print_ f (atom_means d a) = Some y) /\ atom_means d a <> IBad /\ item_nodes (atom_means d a) = 1 /\ clean y /\
    (forall w, met w a' = met w a) /\
    (forall ts s' q, stop s' -> written outer ts s' q -> written outer (ashow_atom a' ++ ts) (y ++ s') q)).
  { destruct a as [x | x args]; cbn [atom_legible atom_means] in *.
    - exists x, (ATok x). split; [intros [| f] H; [lia | reflexivity] |]. split; [discriminate |]. split; [reflexivity |]. split; [apply word_clean, terminal_word, L |]. split; [reflexivity |]. intros. apply put_terminal; assumption.
    - destruct L as [L _]. exists x, (ASym x None). split; [intros [| f] H; [lia | reflexivity] |]. split; [discriminate |]. split; [reflexivity |]. split; [apply word_clean, L |]. split; [reflexivity |]. intros. cbn [ashow_atom opt]. rewrite app_nil_r. apply put_identifier; assumption. }
  destruct P as (y & a' & Pr & _ & Nd & Cl & Mt & Pu). destruct V as [[-> X] | ->]; subst i.
  - exists ((if s0 then chars "#" else []) ++ x0 ++ (if m0 then chars "=" else chars ":") ++ y), [IBind s0 m0 x0 a'].
    split; [intros [| f] F; [lia |]; cbn [imeans print_]; rewrite Pr by (cbn [imeans item_nodes] in F; lia); reflexivity |].
    split; [apply one_tight; [cbn [ilevel]; lia | reflexivity] |]. split; [apply one_silent; reflexivity |]. split.
    { intro p. rewrite walks_one. split; inversion 1; subst; [rewrite <- Mt | rewrite Mt]; apply wk_bind. }
    split.
    { intros ts s' q K R. cbn [flat_map ishow]. rewrite app_nil_r, <- !app_assoc.
      assert (Q : written outer (t "T_IDENTIFIER" x0 ++ c (if m0 then "=" else ":") ++ ashow_atom a' ++ ts) (x0 ++ (if m0 then chars "=" else chars ":") ++ y ++ s') q).
      { apply put_identifier; [exact X | destruct m0; cbn [chars app stop]; in_list |]. destruct m0; apply put_char; try in_list; apply Pu; assumption. }
      destruct s0; [apply put_char; [in_list | exact Q] | exact Q]. }
    apply clean_app; [destruct s0; clean_text |]. apply clean_app; [apply word_clean, X |]. apply clean_app; [destruct m0; clean_text | exact Cl].
  - exists y, [IAtom a']. split; [intros f F; cbn [imeans]; apply Pr; lia |]. split; [apply one_tight; [cbn [ilevel]; lia | reflexivity] |]. split; [apply one_silent; reflexivity |]. split.
    { intro p. rewrite walks_one. split; inversion 1; subst; [rewrite <- Mt | rewrite Mt]; apply wk_atom. }
    split; [| exact Cl]. intros ts s' q K R. cbn [flat_map ishow]. rewrite app_nil_r. apply Pu; assumption.
Qed.
Lemma puts_app js s ls s2 : puts js s -> puts ls s2 -> puts (js ++ ls) (s ++ chars " " ++ s2).
Proof.
  intros A B ts s' q K R. rewrite flat_map_app, <- !app_assoc. apply A; [left; reflexivity |]. apply put_space, B; assumption.
Qed.
Lemma many_same i j : (forall p, walks i p <-> walks j p) -> forall p, walks (IMany i) p <-> walks (IMany j) p.
Proof.
  assert (X : forall i j, (forall p, walks i p -> walks j p) -> forall p, walks (IMany i) p -> walks (IMany j) p).
  { clear. intros i j H p W. remember (IMany i) as k eqn:E. induction W; try discriminate E; injection E as ->; [apply wk_many1 | apply wk_many]; auto. }
  intros H p. split; apply X; intro; apply H.
Qed.
Lemma any_same i j : (forall p, walks i p <-> walks j p) -> forall p, walks (IAnyMany i) p <-> walks (IAnyMany j) p.
Proof.
  assert (X : forall i j, (forall p, walks i p -> walks j p) -> forall p, walks (IAnyMany i) p -> walks (IAnyMany j) p).
  { clear. intros i j H p W. remember (IAnyMany i) as k eqn:E. induction W; try discriminate E; injection E as ->; [apply wk_any0 | apply wk_any]; auto. }
  intros H p. split; apply X; intro; apply H.
Qed.
Lemma par_same j p : walks (IPar j) p <-> walks j p.
Proof. split; [inversion 1; assumption | apply wk_par]. Qed.
Lemma list_walks i j p : walks (IListOf i j) p <-> exists a b, p = a ++ b /\ walks i a /\ walks (IAnyMany (IThen j i)) b.
Proof.
  split.
  - intro W. remember (IListOf i j) as k eqn:E. induction W; try discriminate E; injection E as -> ->.
    + exists p, []. rewrite app_nil_r. split; [reflexivity |]. split; [assumption | apply wk_any0].
    + destruct IHW3 as (a & b & -> & A & B); [reflexivity |]. exists p, ((q ++ a) ++ b). rewrite <- !app_assoc. split; [reflexivity |]. split; [assumption |].
      rewrite app_assoc. apply wk_any; [apply wk_then; assumption | exact B].
  - intros (a & b & -> & A & B). remember (IAnyMany (IThen j i)) as k eqn:E. revert a A. induction B; intros a0 A; try discriminate E.
    + rewrite app_nil_r. apply wk_list1. exact A.
    + injection E as ->. apply walks_then in B1. destruct B1 as (u & v & -> & U & V). rewrite <- app_assoc. apply wk_list; [exact A | exact U |]. apply IHB2; [reflexivity | exact V].
Qed.

Lemma shown_repeat (many : isrc -> isrc) (node : item -> item) (x : ascii) i s j :
  (many = IMany /\ node = GramModel.IPlus /\ x = "+"%char) \/ (many = IAnyMany /\ node = GramModel.IStar /\ x = "*"%char) ->
  alone i s j -> shown_as (many i) (chars "(" ++ s ++ chars ")" ++ [x]) [many (IPar j)] /\
    (forall f, item_nodes (imeans d i) < f -> print_ (S f) (node (imeans d i)) = Some (chars "(" ++ s ++ chars ")" ++ [x])).
Proof.
  intros M (P & _ & Pl & W & U & C).
  assert (Pr : forall f, item_nodes (imeans d i) < f -> print_ (S f) (node (imeans d i)) = Some (chars "(" ++ s ++ chars ")" ++ [x])).
  { intros f H. destruct M as [(_ & -> & ->) | (_ & -> & ->)]; cbn [print_]; rewrite P by exact H; reflexivity. }
  split; [| exact Pr]. split.
  { intros [| f] F; [lia |]. assert (E : imeans d (many i) = node (imeans d i)) by (destruct M as [(-> & -> & _) | (-> & -> & _)]; reflexivity). rewrite E in *.
    apply Pr. destruct M as [(_ & -> & _) | (_ & -> & _)]; cbn [item_nodes] in F; lia. }
  split; [destruct M as [(-> & _) | (-> & _)]; (apply one_tight; [cbn [ilevel]; lia | exact Pl]) |].
  split; [destruct M as [(-> & _) | (-> & _)]; apply one_silent; reflexivity |]. split.
  { intro p. rewrite walks_one. destruct M as [(-> & _) | (-> & _)]; [apply many_same | apply any_same]; intro r; rewrite par_same; apply W. }
  split.
  - intros ts s' q K R. cbn [flat_map]. rewrite app_nil_r. replace (ishow (many (IPar j))) with (c "(" ++ ishow j ++ c ")" ++ c x) by (destruct M as [(-> & _ & ->) | (-> & _ & ->)]; cbn [ishow ilevel]; rewrite inside_no by lia; rewrite <- !app_assoc; reflexivity).
    rewrite <- !app_assoc. apply put_char; [in_list |]. apply U; [right; left; reflexivity |]. apply put_char; [in_list |]. apply put_char; [| exact R]. destruct M as [(_ & _ & ->) | (_ & _ & ->)]; in_list.
  - apply clean_app; [clean_text |]. apply clean_app; [exact C |]. apply clean_app; [clean_text |]. destruct M as [(_ & _ & ->) | (_ & _ & ->)]; clean_text.
Qed.
Lemma shown_then i j s js s2 ls : shown_as i s js -> shown_as j s2 ls -> shown_as (IThen i j) (s ++ chars " " ++ s2) (js ++ ls).
Proof.
  intros (P & T & S0 & W & U & C) (P2 & T2 & S2 & W2 & U2 & C2). split.
  { intros [| f] F; [lia |]. cbn [imeans print_]. cbn [imeans item_nodes] in F. rewrite P, P2 by lia. reflexivity. }
  split; [apply Forall_app; auto |]. split.
  { cbn [silent]. rewrite andb_true_iff, <- S0, <- S2. split; [apply app_eq_nil | intros [-> ->]; reflexivity]. }
  split; [intro p; rewrite walks_then, walks_all_app; split; intros (a & b & -> & A & B); exists a, b; (split; [reflexivity |]); split; (apply W || apply W2); assumption |].
  split; [apply puts_app; assumption |]. apply clean_app; [exact C |]. apply clean_app; [clean_text | exact C2].
Qed.
Lemma shown_alt i l r : imeans d i = IAlternative l r -> silent i = false -> leaves l ++ leaves r = map (imeans d) (spieces i) ->
  Forall (fun m => exists s j, alone m s j) (spieces i) -> exists s js, shown_as i s js.
Proof.
  intros E N Lv F. destruct (alternatives (spieces i) (pieces_some i) F) as (ss & j & P & Pl & W & U & C).
  exists (chars "(" ++ barred ss ++ chars ")"), [IPar j]. split.
  { intros [| f] H; [lia |]. rewrite E in *. cbn [print_].
    rewrite top_level_ok by (unfold weight; cbn [fold_right item_nodes]; lia). cbn [flat_map app]. rewrite app_nil_r, Lv. cbn [obind]. rewrite P; [reflexivity |].
    intros m M. apply (in_map (imeans d)) in M. rewrite <- Lv in M. cbn [item_nodes] in H. pose proof (item_nodes_pos l). pose proof (item_nodes_pos r). apply in_app_or in M. destruct M as [M | M]; apply leaf_nodes in M; lia. }
  split; [apply one_tight; [cbn [ilevel]; lia | exact Pl] |]. split; [apply one_silent; exact N |]. split.
  { intro p. rewrite walks_one, par_same, W. apply pieces_walk. }
  split.
  - intros ts s' q K R. cbn [flat_map ishow]. rewrite app_nil_r, <- !app_assoc. apply put_char; [in_list |]. apply U; [right; left; reflexivity |]. apply put_char; [in_list | exact R].
  - apply clean_app; [clean_text |]. apply clean_app; [exact C | clean_text].
Qed.

Theorem item_shown : forall n i, isz i <= n -> good i -> exists s js, shown_as i s js.
Proof.
  induction n as [| n IH]; intros i H G; [destruct i; cbn [isz] in H; lia |].
  assert (Al : forall j, isz j <= n -> good j -> silent j = false -> exists s k, alone j s k).
  { intros j J Gj N. destruct (IH j J Gj) as (s & js & X). destruct (alone_ok j s js X N) as (k & K). exists s, k. exact K. }
  pose proof G as G0. destruct G as [L P]. destruct i; cbn [isz] in H; cbn [i_legible spoken] in L, P.
  - exists (chars "0"), [IEmpty]. split; [intros [| f] F; [lia | reflexivity] |]. split; [apply one_tight; [cbn [ilevel]; lia | reflexivity] |].
    split; [apply one_silent; reflexivity |]. split; [intro p; rewrite walks_one; reflexivity |]. split; [| clean_text]. intros ts s' q K R. apply put_zero; assumption.
  - apply (shown_atom None a false false [] L (or_intror eq_refl) _ eq_refl).
  - exists x, [IAtom (ASym x None)]. split; [intros [| f] F; [lia | reflexivity] |]. split; [apply one_tight; [cbn [ilevel]; lia | reflexivity] |].
    split; [apply one_silent; reflexivity |]. split; [intro p; rewrite walks_one; split; inversion 1; subst; [apply (wk_atom (ASym x None)) | apply wk_inlined] |].
    split; [| apply word_clean, L]. intros ts s' q K R. cbn [flat_map ishow ashow_atom opt]. rewrite !app_nil_r. apply put_identifier; assumption.
  - destruct L as [L1 L2]. apply (shown_atom (Some (seq, member, x)) a seq member x L2 (or_introl (conj eq_refl L1)) _ eq_refl).
  - destruct (IH i) as (s & js & X); [lia | split; assumption |]. exists s, js. apply (shown_same i); [reflexivity | reflexivity | intro p; symmetry; apply par_same | exact X].
  - apply andb_true_iff in P. destruct P as [P1 P2]. apply negb_true_iff in P1. destruct (Al i) as (s & j & A0 & _ & A1 & A2 & A3 & A4); [lia | split; assumption | exact P1 |].
    exists (chars "try/" ++ chars "recover" ++ chars "(" ++ s ++ chars ")"), [IRecover j]. split.
    { intros [| f] F; [lia |]. cbn [imeans print_]. rewrite A0 by (cbn [imeans item_nodes] in F; lia). reflexivity. }
    split; [apply one_tight; [cbn [ilevel]; lia | exact A1] |]. split; [apply one_silent; reflexivity |]. split.
    { intro p. rewrite walks_one. split; inversion 1; subst; apply wk_recover, A2; assumption. }
    split.
    + intros ts s' q K R. cbn [flat_map ishow]. rewrite app_nil_r. rewrite (app_assoc (chars "try/")). change (chars "try/" ++ chars "recover") with (chars "try/recover"). rewrite <- !app_assoc.
      apply put; [apply w_recover |]. apply put_char; [in_list |]. apply A3; [right; left; reflexivity |]. apply put_char; [in_list | exact R].
    + apply clean_app; [clean_text |]. apply clean_app; [clean_text |]. apply clean_app; [clean_text |]. apply clean_app; [exact A4 | clean_text].
  - apply andb_true_iff in P. destruct P as [P P']. apply andb_true_iff in P, P'. destruct P as [P1 P2], P' as [P3 P4]. apply negb_true_iff in P1, P3. destruct L as [L1 L2].
    destruct (Al i1) as (s & j & A0 & _ & A1 & A2 & A3 & A4); [lia | split; assumption | exact P1 |]. destruct (Al i2) as (s2 & j2 & B0 & _ & B1 & B2 & B3 & B4); [lia | split; assumption | exact P3 |].
    exists (chars "try/" ++ chars "rollback" ++ chars "(" ++ s ++ chars ")" ++ chars " catch(" ++ s2 ++ chars ")"), [IRollback j j2]. split.
    { intros [| f] F; [lia |]. cbn [imeans print_]. rewrite A0, B0 by (cbn [imeans item_nodes] in F; lia). reflexivity. }
    split; [apply one_tight; [cbn [ilevel]; lia | cbn [lists_plain]; rewrite A1, B1; reflexivity] |]. split; [apply one_silent; reflexivity |]. split.
    { intro p. rewrite walks_one. split; inversion 1; subst; [apply wk_try, A2 | apply wk_catch, B2 | apply wk_try, A2 | apply wk_catch, B2]; assumption. }
    split.
    + intros ts s' q K R. cbn [flat_map ishow]. rewrite app_nil_r. rewrite (app_assoc (chars "try/")). change (chars "try/" ++ chars "rollback") with (chars "try/rollback"). rewrite <- !app_assoc.
      apply put; [apply w_rollback |]. apply put_char; [in_list |]. apply A3; [right; left; reflexivity |]. apply put_char; [in_list |].
      change (chars " catch(" ++ s2 ++ chars ")" ++ s') with (chars " " ++ chars "catch" ++ "("%char :: s2 ++ chars ")" ++ s'). apply put_space.
      change (k "T_CATCH" ++ c "(" ++ ishow j2 ++ c ")" ++ ts) with (word_token (chars "catch") :: c "(" ++ ishow j2 ++ c ")" ++ ts).
      assert (Q : written outer (c "(" ++ ishow j2 ++ c ")" ++ ts) ("("%char :: s2 ++ chars ")" ++ s') q) by (apply put_char; [in_list |]; apply B3; [right; left; reflexivity |]; apply put_char; [in_list | exact R]).
      match goal with |- written _ _ (?a ++ ?b) _ => change (a ++ b) with ([] ++ a ++ b) end.
      eapply wr_token; [apply empty_gap | apply w_word | | exact Q].
      * exists "c"%char, (chars "atch"). split; [reflexivity |]. split; [apply in_or_app; right; in_list |].
        intros e D. apply in_or_app. right. apply in_or_app. left. cbn [chars In] in D. repeat (destruct D as [<- | D]; [in_list |]). destruct D.
      * split; [| intros [X _]; discriminate X]. cbn [over]. intro J. vm_compute in J. repeat (destruct J as [J | J]; [discriminate J |]). exact J.
    + do 3 (apply clean_app; [clean_text |]). apply clean_app; [exact A4 |]. do 2 (apply clean_app; [clean_text |]). apply clean_app; [exact B4 | clean_text].
  - apply andb_true_iff in P. destruct P as [P1 P2]. apply negb_true_iff in P1. destruct (Al i) as (s & j & A); [lia | split; assumption | exact P1 |].
    eexists _, _. apply (shown_repeat IMany GramModel.IPlus "+" i s j); [auto | exact A].
  - apply andb_true_iff in P. destruct P as [P1 P2]. apply negb_true_iff in P1. destruct (Al i) as (s & j & A); [lia | split; assumption | exact P1 |].
    eexists _, _. apply (shown_repeat IAnyMany GramModel.IStar "*" i s j); [auto | exact A].
  - apply (shown_alt (IMaybe i) (imeans d i) IZero); [reflexivity | reflexivity | apply (leaves_pieces (IMaybe i)) |].
    apply andb_true_iff in P. destruct P as [P1 P2]. apply negb_true_iff in P1. cbn [spieces]. apply Forall_app. split.
    + eapply Forall_impl; [| apply pieces_good; [split; assumption | exact P1]]. intros m (A & B & C). apply Al; [lia | exact A | exact B].
    + constructor; [| constructor]. apply Al; [cbn [isz]; destruct i; cbn [isz] in H; lia | split; [exact Logic.I | reflexivity] | reflexivity].
  - apply andb_true_iff in P. destruct P as [P P2]. apply andb_true_iff in P. destruct P as [P0 P1]. destruct L as [L1 L2].
    destruct (IH i1) as (s & js & X); [lia | split; assumption |]. destruct (IH i2) as (s2 & ls & Y); [lia | split; assumption |].
    pose proof (shown_then i2 i1 s2 ls s js Y X) as Z.
    destruct (alone_ok (IThen i2 i1) _ _ Z) as (j & A); [cbn [silent]; rewrite andb_comm; apply negb_true_iff; exact P0 |].
    destruct (shown_repeat IAnyMany GramModel.IStar "*" (IThen i2 i1) (s2 ++ chars " " ++ s) j) as [Q _]; [auto | exact A |].
    pose proof (shown_then i1 (IAnyMany (IThen i2 i1)) _ _ _ _ X Q) as R. eexists _, _.
    eapply shown_same; [| | | exact R]; [reflexivity | cbn [silent]; apply andb_false_r |]. intro p. rewrite walks_then, list_walks. reflexivity.
  - destruct L as [L _]. destruct (IH i) as (s & js & P0 & T & S0 & W & U & C); [lia | split; assumption |]. exists s, js.
    split; [intros [| f] F; [lia |]; cbn [imeans print_]; apply P0; cbn [imeans item_nodes] in F; lia |]. split; [exact T |]. split; [exact S0 |]. split; [| auto].
    intro p. rewrite <- W. split; [inversion 1; assumption | apply wk_with].
  - exists [], []. split; [intros [| f] F; [lia | reflexivity] |]. split; [constructor |]. split; [split; reflexivity |]. split; [intro p; split; [inversion 1; reflexivity | intros ->; apply wk_only] |].
    split; [intros ts s' q K R; exact R | clean_text].
  - destruct L as [L1 L2]. apply andb_true_iff in P. destruct P as [P1 P2]. destruct (IH i1) as (s & js & X); [lia | split; assumption |]. destruct (IH i2) as (s2 & ls & Y); [lia | split; assumption |].
    eexists _, _. apply shown_then; eassumption.
  - destruct L as [L _]. destruct (IH i) as (s & js & P0 & T & S0 & W & U & C); [lia | split; assumption |]. exists s, js.
    split; [intros [| f] F; [lia |]; cbn [imeans print_]; apply P0; cbn [imeans item_nodes] in F; lia |]. split; [exact T |]. split; [exact S0 |]. split; [| auto].
    intro p. rewrite <- W. split; [inversion 1; assumption | apply wk_when].
  - assert (N : silent (IOr i1 i2) = false) by reflexivity.
    apply (shown_alt (IOr i1 i2) (imeans d i1) (imeans d i2)); [reflexivity | exact N | apply (leaves_pieces (IOr i1 i2)) |].
    apply andb_true_iff in P. destruct P as [P P']. apply andb_true_iff in P, P'. destruct P as [P1 P2], P' as [P3 P4]. apply negb_true_iff in P1, P3. destruct L as [L1 L2]. cbn [spieces]. apply Forall_app. split.
    + eapply Forall_impl; [| apply pieces_good; [split; eassumption | exact P1]]. intros m (A & B & C). apply Al; [lia | exact A | exact B].
    + eapply Forall_impl; [| apply pieces_good; [split; eassumption | exact P3]]. intros m (A & B & C). apply Al; [lia | exact A | exact B].
Qed.
End D.
