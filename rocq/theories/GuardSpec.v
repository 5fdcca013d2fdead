(** Macro names of C++, without reference to how guards are made. *)
From Coq Require Import List Ascii String.
From Verif Require Import FlexModel.
Import ListNotations.
Open Scope string_scope.
Open Scope list_scope.

Definition letters := chars "ABCDEFGHIJKLMNOPQRSTUVWXYZabcdefghijklmnopqrstuvwxyz_".
Definition digits := chars "0123456789".

(** A name that may stand after #ifndef and #define: one identifier and nothing else. *)
Definition identifier (x : text) : Prop :=
  exists a y, x = a :: y /\ In a letters /\ forall b, In b y -> In b letters \/ In b digits.

Definition part (x : text) : Prop := forall b, In b x -> In b letters \/ In b digits.

(** Texts that differ in the case of letters only. *)
Definition cases := combine (chars "ABCDEFGHIJKLMNOPQRSTUVWXYZ") (chars "abcdefghijklmnopqrstuvwxyz").
Definition same_but_case (x y : text) : Prop :=
  Forall2 (fun a b => a = b \/ In (a, b) cases \/ In (b, a) cases) x y.
