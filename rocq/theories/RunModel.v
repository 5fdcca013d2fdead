(** What the checks of a grammar file count (/repo/src/kdev-pg-main.cpp 353-418,
    kdev-pg-checker.cpp, kdev-pg-inline-checker.cpp): the link between the reading of the file (GramModel, GraphModel), the
    checks (CheckerModel, UndefModel) and the rest of main() (DriverModel). *)
From Coq Require Import List Bool PeanoNat.
From Coq Require Import NArith.
From Verif Require ItemModel InlineModel.
From Verif Require Import GramModel GraphModel GrammarModel CheckerModel UndefModel.
Import ListNotations.

Section G.
Variable g : grammar.
(** A check applied to every rule: how often it reports; [None]: a null pointer. *)
Definition number (c : id -> checked) : option nat :=
  fold_right (fun e n => match c e with Warn l => option_map (Nat.add (List.length l)) n | _ => None end) (Some 0) (grules g).
(** The nodes as InlineModel has them: an inlined non-terminal is known by its node, and a
    symbol by its number instead of its name. *)
Definition named (s : id) : ItemModel.text := [N.of_nat s].
Fixpoint seen (fuel : nat) (n : id) : ItemModel.item :=
  match fuel with
  | 0 => ItemModel.IZero
  | S f =>
    match kind g n with
    | NTerm => ItemModel.IAtom (ItemModel.ATerm (named n))
    | NNon s => ItemModel.IAtom (ItemModel.ANon (named s))
    | NInl _ => ItemModel.IInl n
    | NPlus i _ _ => ItemModel.IPlus (seen f i)
    | NStar i _ _ => ItemModel.IStar (seen f i)
    | NAct None => ItemModel.ICode
    | NAct (Some i) => ItemModel.IAct (seen f i)
    | NAlt l r => ItemModel.IAlt (seen f l) (seen f r)
    | NCons l r => ItemModel.ICons (seen f l) (seen f r)
    | NTry t None => ItemModel.ITry (seen f t)
    | NTry t (Some c) => ItemModel.IRollback (seen f t) (seen f c)
    | NAnn i => ItemModel.IAnn [] false false (match kind g i with NNon s => ItemModel.ANon (named s) | _ => ItemModel.ATerm (named i) end)
    | NCond i => ItemModel.ICond (seen f i)
    | NOper b _ _ => ItemModel.IOper (named b)
    | NZero | NSym | NEvolve _ _ | NOther => ItemModel.IZero
    end
  end.
Definition seen_grammar : ItemModel.grammar :=
  ItemModel.Grammar (map (fun e => match kind g e with NEvolve i s => ItemModel.Rule (named s) [] (seen (size g) i) | _ => ItemModel.Rule [] [] ItemModel.IZero end) (grules g))
    (fun n => match kind g n with NInl s => Some (named s) | _ => None end).
(** The errors of InlineChecker, main.cpp 364-368; [None]: std::terminate (never, C74). *)
Definition inline_errors : option nat :=
  match InlineModel.inline_check seen_grammar (List.length (grules g)) with
  | Some (Some c) => Some (InlineModel.ccyclic c + InlineModel.coper c)
  | _ => None
  end.
End G.
Definition sum (l : list (option nat)) : option nat :=
  fold_right (fun a b => match a, b with Some a, Some b => Some (a + b) | _, _ => None end) (Some 0) l.
(** Errors and conflicts.  If InlineChecker finds errors, what follows may be done on other
    nodes, but can only add to the number.  The first EmptyOperatorChecker runs before
    computeFirst.  The order of the rules makes no difference to the number of undefined symbols
    and tokens. *)
Definition counts (w : world) (order : list id) (first follow : table) : option (nat * nat) :=
  let g := graph w order in
  match sum [inline_errors g; number g (empty_operator g (fun _ _ => false)); number g (empty_first g first); number g (empty_operator g first);
             Some (List.length (undefined_reports w (rules_pushed (rev (events w)))))],
        sum [number g (first_follow g first follow (depth g)); number g (first_first g first (depth g))] with
  | Some e, Some c => Some (e, c)
  | _, _ => None
  end.
