(** What an explanation should say. *)
From Coq Require Import List.
From Verif Require Import GrammarModel DepModel.
Import ListNotations.
(** [leads ds n d]: FOLLOW of [d] goes into FOLLOW of [n]. *)
Inductive leads (ds : deps) (n : id) : id -> Prop :=
| ld_self : leads ds n n
| ld_step d m : leads ds n d -> In (false, (d, m)) ds -> leads ds n m.
(** FIRST of [m] goes into FOLLOW of [n]. *)
Definition cause (ds : deps) (n m : id) : Prop := exists d, leads ds n d /\ In (true, (d, m)) ds.
(** [thru inner ds x y]: the same, from [x] on through added nodes only. *)
Inductive thru (inner : id -> bool) (ds : deps) (x : id) : id -> Prop :=
| th_self : thru inner ds x x
| th_step y z : thru inner ds x y -> inner y = true -> In (false, (y, z)) ds -> thru inner ds x z.
