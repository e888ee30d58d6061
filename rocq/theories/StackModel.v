(** Model of ConstraintStackTpl (core/constraint.hpp) and of the block layout of
    BlkMatrix (core/blk-matrix.hpp).  Dimensions are natural numbers ([nr] of a
    function is non-negative). *)
From Coq Require Import List Arith.
Import ListNotations.

Section Stack.

Variable cstr : Type.        (* a pair function, set *)
Variable nr : cstr -> nat.   (* el.func->nr *)

(** constraint.hpp 66-71: the fields. *)
Record stack := { funcs : list cstr; indices : list nat; dims : list nat;
                  total_dim : nat }.

(** constraint.hpp 19-20. *)
Definition st_new : stack :=
  {| funcs := []; indices := [0]; dims := []; total_dim := 0 |}.

(** constraint.hpp 40-48, 74-79: pushBack, addDim. *)
Definition pushBack (s : stack) (c : cstr) : stack :=
  {| funcs := funcs s ++ [c];
     indices := indices s ++ [last (indices s) 0 + nr c];
     dims := dims s ++ [nr c];
     total_dim := total_dim s + nr c |}.

(** constraint.hpp 82-88: clear. *)
Definition clear (s : stack) : stack := st_new.

Inductive op := Push (c : cstr) | Clear.
Definition apply (s : stack) (o : op) : stack :=
  match o with Push c => pushBack s c | Clear => clear s end.
Definition run (ops : list op) : stack := fold_left apply ops st_new.

End Stack.

(** blk-matrix.hpp 234-247 (initialize), for the rows or the columns: starting
    indices and total. *)
Fixpoint blk_indices (acc : nat) (dims : list nat) : list nat * nat :=
  match dims with
  | [] => ([], acc)
  | d :: t => let (l, n) := blk_indices (acc + d) t in (acc :: l, n)
  end.
Definition blk_initialize (dims : list nat) := blk_indices 0 dims.

(** blk-matrix.hpp 200-207: topBlkRows(n): the dimensions and the number of rows
    of the view. *)
Definition topBlkRows (dims : list nat) (n : nat) : list nat * nat :=
  (firstn n dims, fold_left Nat.add (firstn n dims) 0).

(** blk-matrix.hpp 110-142: the segment [i] as the list of row numbers it
    covers. *)
Definition blk_segment (dims : list nat) (i : nat) : list nat :=
  seq (nth i (fst (blk_initialize dims)) 0) (nth i dims 0).
Definition blk_block (rd cd : list nat) (i j : nat) : list (nat * nat) :=
  list_prod (blk_segment rd i) (blk_segment cd j).
