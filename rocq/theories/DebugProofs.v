From Coq Require Import List NArith ZArith Bool Ascii String Lia.
From Verif Require Import FlexModel DebugModel DebugSpec.
Import ListNotations.

Section P.
Variable stream : list token.
Variable place : Z -> Z * Z.
Variable content : text.
Notation dump := (dump stream place content).
Notation print_token := (print_token stream place content).
Notation member_lines := (member_lines stream place content).
Lemma dump_eq d o ty s e ms : dump d (Tree o ty s e ms) =
  print_token d s e ty [] :: (if o then [] else flat_map (member_lines d) ms) ++ flat_map (dump (S d)) (flat_map snd ms).
Proof.
  cbn [DebugModel.dump]. f_equal. f_equal. clear. induction ms as [|((n & ty) & k) ms IH]; [reflexivity|]. cbn [flat_map snd]. rewrite flat_map_app, <- IH. f_equal.
Qed.
(** Induction on trees. *)
Lemma tree_induct (P : tree -> Prop) : (forall o ty s e ms, Forall P (flat_map snd ms) -> P (Tree o ty s e ms)) -> forall t, P t.
Proof.
  intros H. fix IH 1. intros [o ty s e ms]. apply H. clear -IH. induction ms as [|((n & ty) & k) ms IM]; cbn [flat_map snd]; [constructor|]. apply Forall_app. split; [|exact IM].
  clear -IH. induction k as [|x k IK]; constructor; [apply IH|exact IK].
Qed.
(** Lines of nodes themselves and lines of members. *)
Definition own (l : line) : bool := match name l with [] => true | _ => false end.

Lemma member_lines_own d ms : (forall m, In m ms -> fst (fst m) <> []) -> forall l, In l (flat_map (member_lines d) ms) -> own l = false /\ indent l = d.
Proof.
  intros N l I. apply in_flat_map in I. destruct I as (m & M & I). unfold member_lines in I. apply in_map_iff in I. destruct I as (t & <- & _). unfold own. cbn. split; [|reflexivity]. destruct (fst (fst m)) eqn:Q; [destruct (N m M Q)|reflexivity].
Qed.
Lemma filter_none {A} (f : A -> bool) l : (forall x, In x l -> f x = false) -> filter f l = [].
Proof. induction l as [|x l IH]; intros H; [reflexivity|]. cbn [filter]. rewrite (H x (or_introl eq_refl)). apply IH. intros y I. apply H. right. exact I. Qed.

Lemma own_lines t : named t -> forall d, exists l, preorder d t l /\ filter own (dump d t) = map (fun x => print_token (fst x) (start_of (snd x)) (stop_of (snd x)) (let (_, ty, _, _, _) := snd x in ty) []) l.
Proof.
  induction t as [o ty s e ms IH] using tree_induct. intros N d. inversion N as [? ? ? ? ? N1 N2]. subst.
  assert (K : forall ks, Forall (fun t => named t -> forall d, exists l, preorder d t l /\ filter own (dump d t) = map (fun x => print_token (fst x) (start_of (snd x)) (stop_of (snd x)) (let (_, ty, _, _, _) := snd x in ty) []) l) ks -> Forall named ks ->
    exists l, preorders (S d) ks l /\ filter own (flat_map (dump (S d)) ks) = map (fun x => print_token (fst x) (start_of (snd x)) (stop_of (snd x)) (let (_, ty, _, _, _) := snd x in ty) []) l).
  { clear. induction ks as [|t ks IH]; intros F G; [exists []; split; [constructor|reflexivity]|]. inversion F as [|? ? F1 F2]. inversion G as [|? ? G1 G2]. subst.
    destruct (F1 G1 (S d)) as (l & P & E). destruct (IH F2 G2) as (l' & P' & E'). exists (l ++ l'). split; [constructor; assumption|]. cbn [flat_map]. rewrite filter_app, E, E', map_app. reflexivity. }
  destruct (K (flat_map snd ms) IH N2) as (l & P & E). exists ((d, Tree o ty s e ms) :: l). split; [constructor; exact P|].
  rewrite dump_eq. cbn [filter map fst snd start_of stop_of]. f_equal. rewrite filter_app, E. rewrite filter_none; [reflexivity|]. intros x I. destruct o; [destruct I|]. exact (proj1 (member_lines_own d ms N1 x I)).
Qed.

(** The text ends, or goes on with a node that is not deeper. *)
Definition stops (d : nat) (r : list line) : Prop := r = [] \/ exists x r', r = x :: r' /\ own x = true /\ indent x <= d.
Lemma split_members (a b : list line) r r' : (forall x, In x a -> own x = false) -> (forall x, In x b -> own x = false) -> (r = [] \/ exists x q, r = x :: q /\ own x = true) -> (r' = [] \/ exists x q, r' = x :: q /\ own x = true) -> a ++ r = b ++ r' -> a = b /\ r = r'.
Proof.
  revert b. induction a as [|x a IH]; intros b A B R R' E.
  - destruct b as [|y b]; [auto|]. cbn in E. destruct R as [-> |(z & q & -> & Z)]; [discriminate E|]. injection E as -> _. rewrite (B y (or_introl eq_refl)) in Z. discriminate Z.
  - destruct b as [|y b].
    + cbn in E. destruct R' as [-> |(z & q & -> & Z)]; [discriminate E|]. injection E as <- _. rewrite (A x (or_introl eq_refl)) in Z. discriminate Z.
    + cbn in E. injection E as <- E. destruct (IH b (fun z I => A z (or_intror I)) (fun z I => B z (or_intror I)) R R' E) as (-> & ->). auto.
Qed.
Lemma dump_head d t : exists x q, dump d t = x :: q /\ own x = true /\ indent x = d.
Proof. destruct t as [o ty s e ms]. rewrite dump_eq. eexists _, _. split; [reflexivity|]. split; reflexivity. Qed.
Lemma kids_head d ks r : (ks <> [] -> exists x q, flat_map (dump d) ks ++ r = x :: q /\ own x = true /\ indent x = d).
Proof. intros N. destruct ks as [|t ks]; [contradiction|]. destruct (dump_head d t) as (x & q & E & O & I). cbn [flat_map]. rewrite E. eexists _, _. split; [reflexivity|]. auto. Qed.
Definition member_info (l : line) : text * text * spot * spot * text := (name l, type_ l, from l, to l, shown l).
Lemma member_infos d ms : map member_info (flat_map (member_lines d) ms) =
  flat_map (fun m => map (fun t => (fst (fst m), snd (fst m), fst (fst (tells stream place content t)), snd (fst (tells stream place content t)), snd (tells stream place content t))) (snd m)) ms.
Proof. induction ms as [|m ms IH]; [reflexivity|]. cbn [flat_map]. rewrite map_app, IH. f_equal. unfold member_lines. rewrite map_map. reflexivity. Qed.

Lemma dump_shape t : named t -> forall t' d r r', named t' -> stops d r -> stops d r' -> dump d t ++ r = dump d t' ++ r' ->
  r = r' /\ exists s, has_shape stream place content t s /\ has_shape stream place content t' s.
Proof.
  induction t as [o ty s e ms IH] using tree_induct. intros N t' d r r' N' R R' E. destruct t' as [o' ty' s' e' ms'].
  inversion N as [? ? ? ? ? N1 N2]. inversion N' as [? ? ? ? ? N1' N2']. subst. rewrite !dump_eq in E. cbn [app] in E.
  assert (E0 := f_equal (@hd_error line) E). cbn [hd_error] in E0. assert (E1 := f_equal (@tl line) E). cbn [tl] in E1. clear E. rewrite <- !app_assoc in E1.
  assert (H1 : print_token d s e ty [] = print_token d s' e' ty' []) by congruence.
  assert (RO : forall ks q, stops d q -> flat_map (dump (S d)) ks ++ q = [] \/ exists x z, flat_map (dump (S d)) ks ++ q = x :: z /\ own x = true).
  { intros ks q Q. destruct ks as [|k ks].
    - cbn [flat_map app]. destruct Q as [-> |(x & z & -> & O & _)]; [left; reflexivity|right; eauto].
    - right. destruct (kids_head (S d) (k :: ks) q ltac:(discriminate)) as (x & z & E & O & _). eauto. }
  assert (OW : forall x, In x (if o then [] else flat_map (member_lines d) ms) -> own x = false) by (intros x I; destruct o; [destruct I|exact (proj1 (member_lines_own d ms N1 x I))]).
  assert (OW' : forall x, In x (if o' then [] else flat_map (member_lines d) ms') -> own x = false) by (intros x I; destruct o'; [destruct I|exact (proj1 (member_lines_own d ms' N1' x I))]).
  destruct (split_members _ _ _ _ OW OW' (RO _ r R) (RO _ r' R') E1) as (EM & EK). clear E1 RO OW OW'.
  assert (K : forall ks ks', Forall (fun t => named t -> forall t' d r r', named t' -> stops d r -> stops d r' -> dump d t ++ r = dump d t' ++ r' -> r = r' /\ exists s, has_shape stream place content t s /\ has_shape stream place content t' s) ks ->
    Forall named ks -> Forall named ks' -> flat_map (dump (S d)) ks ++ r = flat_map (dump (S d)) ks' ++ r' -> r = r' /\ exists l, Forall2 (has_shape stream place content) ks l /\ Forall2 (has_shape stream place content) ks' l).
  { clear - R R'. induction ks as [|t ks IK]; intros ks' F G G' E.
    - destruct ks' as [|t' ks'].
      + split; [exact E|]. exists []. split; constructor.
      + exfalso. destruct (kids_head (S d) (t' :: ks') r' ltac:(discriminate)) as (x & q & Q & O & I). rewrite Q in E. cbn in E. destruct R as [-> |(y & z & -> & _ & L)]; [discriminate E|]. injection E as -> _. lia.
    - destruct ks' as [|t' ks'].
      + exfalso. destruct (kids_head (S d) (t :: ks) r ltac:(discriminate)) as (x & q & Q & O & I). rewrite Q in E. cbn in E. destruct R' as [-> |(y & z & -> & _ & L)]; [discriminate E|]. injection E as -> _. lia.
      + inversion F as [|? ? F1 F2]. inversion G as [|? ? G1 G2]. inversion G' as [|? ? G1' G2']. subst. cbn [flat_map] in E. rewrite <- !app_assoc in E.
        assert (ST : forall ks q, stops d q -> stops (S d) (flat_map (dump (S d)) ks ++ q)).
        { intros k q Q. destruct k as [|k0 k].
          - cbn [flat_map app]. destruct Q as [-> |(x & z & -> & O & L)]; [left; reflexivity|right; exists x, z; repeat split; auto].
          - right. destruct (kids_head (S d) (k0 :: k) q ltac:(discriminate)) as (x & z & Q' & O & I). exists x, z. repeat split; auto. lia. }
        destruct (F1 G1 t' (S d) _ _ G1' (ST ks r R) (ST ks' r' R') E) as (E' & s & S1 & S2). destruct (IK ks' F2 G2 G2' E') as (-> & l & L1 & L2).
        split; [reflexivity|]. exists (s :: l). split; constructor; assumption. }
  destruct (K _ _ IH N2 N2' EK) as (-> & l & L1 & L2). split; [reflexivity|].
  assert (MI := f_equal (map member_info) EM).
  unfold DebugModel.print_token in H1. injection H1 as Hty Hs He Ht.
  eexists. split; [econstructor; [exact L1|reflexivity]|]. rewrite Hty, Hs, He, Ht.
  constructor; [exact L2|]. rewrite <- !(member_infos d). destruct o, o'; cbn [map] in MI |- *; auto.
Qed.
End P.

Lemma mid_segment (s : text) b e x : segment s b e x -> mid s b (e - b + 1) = x.
Proof.
  intros (u & v & -> & B & E). unfold mid. rewrite !app_length. unfold text in *.
  replace (b >? Z.of_nat (List.length u + (List.length x + List.length v)))%Z with false by (symmetry; rewrite Z.gtb_ltb; apply Z.ltb_ge; lia).
  replace (e - b + 1 <? 0)%Z with false by (symmetry; apply Z.ltb_ge; lia).
  replace (e - b + 1 >? Z.of_nat (List.length u + (List.length x + List.length v)) - b)%Z with false by (symmetry; rewrite Z.gtb_ltb; apply Z.ltb_ge; lia).
  cbn [orb]. replace (Z.to_nat b) with (List.length u) by lia. replace (Z.to_nat (e - b + 1)) with (List.length x) by lia.
  rewrite skipn_app, Nat.sub_diag, skipn_all. cbn [app skipn]. rewrite firstn_app, Nat.sub_diag, firstn_all. cbn [firstn]. apply app_nil_r.
Qed.
Lemma visible_escaped s : visible s (escaped s).
Proof.
  induction s as [|c s IH]; [constructor|]. unfold escaped. cbn [flat_map]. fold (escaped s). destruct (Ascii.eqb_spec c "010") as [-> |A].
  - apply visible_lf. exact IH.
  - destruct (Ascii.eqb_spec c "013") as [-> |B]; [apply visible_cr; exact IH|]. apply visible_other; assumption.
Qed.
Lemma visible_unique s t : visible s t -> forall t', visible s t' -> t = t'.
Proof.
  induction 1 as [|s t V IH|s t V IH|c s t N M V IH]; intros t' V'; inversion V'; subst; try congruence; f_equal; auto; f_equal; auto.
Qed.
Lemma token_string_short stream content s e x : valid stream s = true -> valid stream e = true -> content <> [] ->
  segment content (tbegin (token_at stream s)) (tend (token_at stream e)) x -> (List.length x <= 31)%nat -> visible x (token_string stream content s e).
Proof.
  intros V W N G L. unfold token_string. destruct content as [|c0 c]; [contradiction|]. rewrite V, W. cbn [andb].
  destruct (Z.gtb_spec (tend (token_at stream e) - tbegin (token_at stream s)) 30) as [H|H].
  - exfalso. destruct G as (u & v & _ & B & E). unfold text in *. lia.
  - rewrite (mid_segment _ _ _ _ G). apply visible_escaped.
Qed.
Lemma mid_app (u x v : text) b l : Z.of_nat (List.length u) = b -> Z.of_nat (List.length x) = l -> mid (u ++ x ++ v) b l = x.
Proof.
  intros B L. replace l with ((b + l - 1) - b + 1)%Z by lia. apply mid_segment. exists u, v. split; [reflexivity|]. split; [exact B|]. unfold text in *. lia.
Qed.
Lemma token_string_long stream content s e p m q c u v : valid stream s = true -> valid stream e = true ->
  content = u ++ (p ++ m ++ q ++ [c]) ++ v -> Z.of_nat (List.length u) = tbegin (token_at stream s) ->
  (Z.of_nat (List.length u + List.length (p ++ m ++ q ++ [c])) = tend (token_at stream e) + 1)%Z ->
  List.length p = 10%nat -> List.length q = 10%nat -> (10 < List.length m)%nat ->
  visible (p ++ chars " ..." ++ number (Z.of_nat (List.length m)) ++ chars " more... " ++ q) (token_string stream content s e).
Proof.
  intros V W C B E P Q M. unfold token_string. destruct content as [|c0 c']; [destruct u; [destruct p|]; discriminate|]. rewrite V, W. cbn [andb].
  assert (L : List.length (p ++ m ++ q ++ [c]) = (21 + List.length m)%nat) by (rewrite !app_length; cbn [List.length]; unfold text in *; lia).
  unfold text in *. rewrite L in E.
  destruct (Z.gtb_spec (tend (token_at stream e) - tbegin (token_at stream s)) 30) as [H|H]; [|lia].
  rewrite C. replace (tend (token_at stream e) - tbegin (token_at stream s) - 20)%Z with (Z.of_nat (List.length m)) by lia.
  replace (mid (u ++ (p ++ m ++ q ++ [c]) ++ v) (tbegin (token_at stream s)) 10) with p.
  2:{ symmetry. rewrite <- app_assoc. apply mid_app; [exact B|lia]. }
  replace (mid (u ++ (p ++ m ++ q ++ [c]) ++ v) (tend (token_at stream e) - 10) 10) with q.
  2:{ symmetry. replace (u ++ (p ++ m ++ q ++ [c]) ++ v) with ((u ++ p ++ m) ++ q ++ ([c] ++ v)) by (rewrite <- !app_assoc; reflexivity). apply mid_app; [|lia]. rewrite !app_length. lia. }
  replace (chars " more" ++ chars "... " ++ q) with (chars " more... " ++ q) by reflexivity. apply visible_escaped.
Qed.
