(** Theorems about the literals of lexer rules (properties C53, C72). *)
From Coq Require Import List NArith Bool Lia.
From Verif Require Import UtfSpec TextModel TextSpec TextProofs.
Import ListNotations.
Local Open Scope N_scope.

(** ** C53: escapes denote the intended characters *)
Theorem C53_unescaped : forall s cs, spells s cs -> unescaped s = Some (utf16 cs).
Proof. intros s cs H. unfold unescaped. apply unescape_spells; [exact H|lia]. Qed.
Print Assumptions C53_unescaped.
(** Every sequence of code points can be spelled, and text without backslashes
    spells itself. *)
Theorem C53_all_spelled : forall cs, (forall c, In c cs -> code_point c) -> exists s, spells s cs.
Proof. intros cs A. destruct (every_spelled cs A) as (s & H & _). eauto. Qed.
Print Assumptions C53_all_spelled.
Theorem C53_plain : forall s, (forall c, In c s -> c < 256 /\ c <> 92) -> unescaped s = Some s.
Proof.
  intros s A. assert (H : spells s s /\ utf16 s = s).
  { induction s as [|c s IH]; [split; [constructor|reflexivity]|]. destruct (A c (or_introl eq_refl)) as [L N]. destruct IH as [H E]; [intros x I; apply A; right; exact I|].
    split; [apply sp_plain; auto|]. rewrite utf16_low by exact L. congruence. }
  rewrite (C53_unescaped s s (proj1 H)), (proj2 H). reflexivity.
Qed.
Print Assumptions C53_plain.
(** The escapes \n, \x1F600, \U000041, a backslash, \d65 and a quote. *)
Example C53_case : exists s, s = [97; 92; 110; 92; 120; 49; 70; 54; 48; 48; 32; 92; 85; 48; 48; 48; 48; 52; 49; 59; 92; 92; 92; 100; 54; 53; 92; 34] /\
  spells s [97; 10; 0x1f600; 32; 65; 59; 92; 65; 34] /\ unescaped s = Some [97; 10; 0xd83d; 0xde00; 32; 65; 59; 92; 65; 34].
Proof.
  eexists. split; [reflexivity|]. split; [|vm_compute; reflexivity].
  apply sp_plain; [lia|lia|]. apply sp_short; [cbn; tauto|].
  apply (sp_number 120 16 [49; 70; 54; 48; 48] 0x1f600 _ [32; 65; 59; 92; 65; 34]); [cbn; tauto| |unfold code_point; lia|cbn; apply no_digit; lia|].
  { apply (ds_more 16 [49; 70; 54; 48] 0x1f60 48 0); [|apply (num_09 0); lia|lia]. apply (ds_more 16 [49; 70; 54] 0x1f6 48 0); [|apply (num_09 0); lia|lia].
    apply (ds_more 16 [49; 70] 0x1f 54 6); [|apply (num_09 6); lia|lia]. apply (ds_more 16 [49] 0x1 70 15); [|apply (num_AF 5); lia|lia]. apply ds_one; [apply (num_09 1); lia|lia]. }
  apply sp_plain; [lia|lia|].
  apply (sp_number 85 16 [48; 48; 48; 48; 52; 49] 65 _ [59; 92; 65; 34]); [cbn; tauto| |unfold code_point; lia|cbn; apply no_digit; lia|].
  { apply (ds_more 16 [48; 48; 48; 48; 52] 4 49 1); [|apply (num_09 1); lia|lia]. apply (ds_more 16 [48; 48; 48; 48] 0 52 4); [|apply (num_09 4); lia|lia].
    apply (ds_more 16 [48; 48; 48] 0 48 0); [|apply (num_09 0); lia|lia]. apply (ds_more 16 [48; 48] 0 48 0); [|apply (num_09 0); lia|lia].
    apply (ds_more 16 [48] 0 48 0); [|apply (num_09 0); lia|lia]. apply ds_one; [apply (num_09 0); lia|lia]. }
  apply sp_plain; [lia|lia|]. apply sp_other; [lia|cbn; lia|cbn; lia|].
  apply (sp_number 100 10 [54; 53] 65 _ [34]); [cbn; tauto| |unfold code_point; lia|cbn; apply no_digit; lia|].
  { apply (ds_more 10 [54] 6 53 5); [|apply (num_09 5); lia|lia]. apply ds_one; [apply (num_09 6); lia|lia]. }
  apply sp_other; [lia|cbn; lia|cbn; lia|]. constructor.
Qed.
(** The text of a literal is taken byte by byte: characters outside ASCII, in a
    UTF-8 file, come out as other ones. *)
Theorem C53_utf8_refuted : forall c, 0x80 <= c < 0x110000 -> unescaped (utf8 [c]) <> Some (utf16 [c]).
Proof.
  intros c L E. assert (A : forall x, In x (utf8 [c]) -> x < 256 /\ x <> 92).
  { unfold utf8. cbn [flat_map]. rewrite app_nil_r. unfold utf8_char.
    assert (M : forall a, 0 <= a mod 64 < 64) by (intros a; split; [apply N.le_0_l|apply N.mod_lt; lia]).
    destruct (N.ltb_spec c 0x80); [lia|]. destruct (N.ltb_spec c 0x800); [|destruct (N.ltb_spec c 0x10000)].
    - assert (0 <= c / 64 < 32) by (split; [apply N.le_0_l|apply N.div_lt_upper_bound; lia]). pose proof (M c). intros x [<- | [<- | []]]; lia.
    - assert (0 <= c / 4096 < 16) by (split; [apply N.le_0_l|apply N.div_lt_upper_bound; lia]). pose proof (M c). pose proof (M (c / 64)). intros x [<- | [<- | [<- | []]]]; lia.
    - assert (0 <= c / 262144 < 8) by (split; [apply N.le_0_l|apply N.div_lt_upper_bound; lia]). pose proof (M c). pose proof (M (c / 64)). pose proof (M (c / 4096)). intros x [<- | [<- | [<- | [<- | []]]]]; lia. }
  rewrite (C53_plain _ A) in E. injection E as E. revert E. unfold utf8, utf16. cbn [flat_map]. rewrite !app_nil_r. unfold utf8_char, utf16_char.
  destruct (N.ltb_spec c 0x80); [lia|]. destruct (N.ltb_spec c 0x800); [|destruct (N.ltb_spec c 0x10000)]; try (destruct (N.ltb_spec c 0x10000); [|lia]); discriminate.
Qed.
Print Assumptions C53_utf8_refuted.
(** A backslash and a base letter without digits is NUL, not the letter; more
    than 28 bits wrap. *)
Theorem C53_no_digits_refuted : unescaped [92; 120] = Some [0] /\ unescaped [92; 120; 49; 48; 48; 48; 48; 48; 48; 52; 49] = Some [0x41].
Proof. split; vm_compute; reflexivity. Qed.
Print Assumptions C53_no_digits_refuted.

(** ** C72: the bounds of a range literal *)
Theorem C72_range_literal : forall sb se b e, spells sb [b] -> spells se [e] -> exists u, unescaped (sb ++ 45 :: se) = Some u /\ (code_point b -> code_point e -> range_bounds u = Some (b, e + 1)).
Proof.
  intros sb se b e HB HE. exists (utf16 [b; 45; e]). split; [|intros; apply range_units; assumption].
  apply C53_unescaped. apply (spells_app sb [b] HB (45 :: se) [45; e]); [apply sp_plain; [lia|lia|exact HE]|]. intros base. cbn. apply no_digit. lia.
Qed.
Print Assumptions C72_range_literal.
(** [\x41-\x1F600] *)
Example C72_case : spells [92; 120; 52; 49] [65] /\ unescaped ([92; 120; 52; 49] ++ 45 :: [92; 120; 49; 70; 54; 48; 48]) = Some [65; 45; 0xd83d; 0xde00] /\
  range_bounds [65; 45; 0xd83d; 0xde00] = Some (65, 0x1f601).
Proof.
  split; [|split; vm_compute; reflexivity]. apply (sp_number 120 16 [52; 49] 65 [] []); [cbn; tauto| |unfold code_point; lia|exact I|constructor].
  apply (ds_more 16 [52] 4 49 1); [|apply (num_09 1); lia|lia]. apply ds_one; [apply (num_09 4); lia|lia].
Qed.
