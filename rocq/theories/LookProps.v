(** How generated text reaches the beautifier: property C121. *)
From Coq Require Import List Bool PeanoNat Lia.
From Verif Require Import Base LookModel LookSpec LookProofs.
Import ListNotations.

(** ** C121: looking ahead loses no line
    Full statement: without the condition on NUL; false then (below). *)
Theorem C121_lines_partial : forall text cs, polite false cs -> ~ In 0 text ->
  exists ls, lines text ls /\ expected ls 0 0 cs (calls text cs reader0).
Proof.
  intros text cs P NUL. destruct (lines_exist (length text) text (le_n _)) as (ls & L). exists ls. split; [exact L|].
  apply (calls_expected text ls cs 0 0 reader0 false P); [auto| |].
  - split; [split; [cbn; lia|exact L]|reflexivity].
  - intros l H Z. apply NUL. clear -L H Z. induction L as [|l' N0 N|l' t ls N NC L IH|l' t ls N L IH].
    + destruct H.
    + destruct H as [<-|[]]. exact Z.
    + apply in_or_app. destruct H as [<-|H]; [left; exact Z|right; right; exact (IH H)].
    + apply in_or_app. destruct H as [<-|H]; [left; exact Z|right; right; right; exact (IH H)].
Qed.
Print Assumptions C121_lines_partial.
(** Every text can be divided into lines in one way. *)
Theorem C121_lines_one_way : forall text a b, lines text a -> lines text b -> a = b.
Proof.
  intros text a. revert text. induction a as [|x a IH]; intros text b A B; pose proof (read_lines _ _ A) as RA; pose proof (read_lines _ _ B) as RB;
    destruct (read_line text) as [l n]; destruct RA as (A1 & A2 & A3 & A4); destruct RB as (B1 & B2 & B3 & B4).
  - symmetry. apply B4, A4. reflexivity.
  - destruct b as [|y b]; [apply A4, B4; reflexivity|]. cbn in A1, B1, A3, B3. rewrite <- A1, <- B1. f_equal. exact (IH _ _ A3 B3).
Qed.
Print Assumptions C121_lines_one_way.
(** a CR LF, b LF, c; b and c are looked at after a is read, then read. *)
Example C121_case : polite false [Next; Peek; Peek; More; Unpeek; More; Next; Next; More] /\ lines [97; 13; 10; 98; 10; 99] [[97]; [98]; [99]] /\
  calls [97; 13; 10; 98; 10; 99] [Next; Peek; Peek; More; Unpeek; More; Next; Next; More] reader0 =
    [Line [97]; Peeked [98]; Peeked [99]; Has false; Gone; Has true; Line [98]; Line [99]; Has false].
Proof.
  split; [repeat split|]. split; [|reflexivity]. apply (lines_crlf [97]); [intros [H|[]]; discriminate|].
  apply (lines_lf [98]); [intros [H|[]]; discriminate|intros [|? [|? ?]]; discriminate|]. apply lines_last; [discriminate|intros [H|[]]; discriminate].
Qed.
(** A line with a NUL (in code of the user) is another one when looked at. *)
Theorem C121_nul_refuted : exists text l m, calls text [Peek; Unpeek; Next] reader0 = [Peeked l; Gone; Line m] /\ lines text [m] /\ l <> m.
Proof.
  exists [97; 0; 98], [97], [97; 0; 98]. split; [reflexivity|]. split; [|discriminate].
  apply lines_last; [discriminate|]. intros [H|[H|[H|[]]]]; discriminate.
Qed.
Print Assumptions C121_nul_refuted.
(** Without a reset before the next line, as in ASFormatter::
    commentAndHeaderFollows (ASFormatter.cpp 3679-3694, where peekNextText
    resets only what it has looked at itself; not reached with the settings of
    format()): the line is lost, and a later
    reset goes back too far. *)
Theorem C121_no_reset_refuted : exists text a b c, lines text [a; b; c] /\ a <> b /\
  calls text [Peek; Next; More; Unpeek; Next] reader0 = [Peeked a; Line b; Has true; Gone; Line a].
Proof.
  exists [97; 10; 98; 10; 99], [97], [98], [99]. split; [|split; [discriminate|reflexivity]].
  apply (lines_lf [97]); [intros [H|[]]; discriminate|intros [|? [|? ?]]; discriminate|].
  apply (lines_lf [98]); [intros [H|[]]; discriminate|intros [|? [|? ?]]; discriminate|]. apply lines_last; [discriminate|intros [H|[]]; discriminate].
Qed.
Print Assumptions C121_no_reset_refuted.
