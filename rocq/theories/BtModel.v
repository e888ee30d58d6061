(** Model of the block-tridiagonal solvers,
    /repo/include/aligator/gar/block-tridiagonal.hpp, and of the iterative
    refinement loop of /repo/include/aligator/gar/parallel-solver.hxx 166-203.

    Simplifications: exact scalars; the vectors of blocks are one dependent
    list, so that the length checks (17-20, 90-94, 196-200) and the shapes hold
    by typing; [BunchKaufman] is [chol_solve] of RiccatiModel, with
    [info() != Success] exactly for singular matrices.  With one block
    (N = 0) the index [N - 1] wraps around and the code reads out of bounds. *)
From mathcomp Require Import all_ssreflect all_algebra.
From Verif Require Import RiccatiModel.
Set Implicit Arguments.
Unset Strict Implicit.
Import GRing.Theory.
Local Open Scope ring_scope.

Section Bt.
Variable F : fieldType.

(** diagonal[i], superdiagonal[i], subdiagonal[i], ... *)
Inductive bt : nat -> Type :=
| BOne n (D : 'M[F]_n) : bt n
| BCons n m (D : 'M[F]_n) (sup : 'M[F]_(n, m)) (sub : 'M[F]_(m, n)) (t : bt m) : bt n.
Definition has_two n (t : bt n) : bool := if t is BCons _ _ _ _ _ _ then true else false.
Definition head_diag n (t : bt n) : 'M[F]_n :=
  match t in bt n return 'M[F]_n with BOne n D => D | BCons n m D _ _ _ => D end.

(** vectors with the same blocks (BlkMatrix<_, -1, 1>) *)
Fixpoint bvec n (t : bt n) : Type :=
  match t with
  | BOne n D => 'cV[F]_n
  | BCons n m D B C t' => ('cV[F]_n * bvec t')%type
  end.
Definition bhead n (t : bt n) : bvec t -> 'cV[F]_n :=
  match t in bt n return bvec t -> 'cV[F]_n with
  | BOne n D => fun b => b
  | BCons n m D B C t' => fun b => b.1
  end.

(** blockTridiagToDenseMatrix, 12-46 *)
Fixpoint dim n (t : bt n) : nat :=
  match t with
  | BOne n D => n
  | BCons n m D B C t' => (n + dim t')%N
  end.
(** a block placed in the first block column (row) of the rest *)
Definition padr n (t : bt n) k : 'M[F]_(k, n) -> 'M[F]_(k, dim t) :=
  match t in bt n return 'M[F]_(k, n) -> 'M[F]_(k, dim t) with
  | BOne n D => fun M => M
  | BCons n m D B C t' => fun M => row_mx M 0
  end.
Definition padd n (t : bt n) k : 'M[F]_(n, k) -> 'M[F]_(dim t, k) :=
  match t in bt n return 'M[F]_(n, k) -> 'M[F]_(dim t, k) with
  | BOne n D => fun M => M
  | BCons n m D B C t' => fun M => col_mx M 0
  end.
Fixpoint toDense n (t : bt n) : 'M[F]_(dim t) :=
  match t return 'M[F]_(dim t) with
  | BOne n D => D
  | BCons n m D B C t' => block_mx D (padr t' B) (padd t' C) (toDense t')
  end.
(** the dense vector *)
Fixpoint flat n (t : bt n) : bvec t -> 'cV[F]_(dim t) :=
  match t return bvec t -> 'cV[F]_(dim t) with
  | BOne n D => fun b => b
  | BCons n m D B C t' => fun b => col_mx b.1 (flat b.2)
  end.

(** blockTridiagMatMul, 52-75: from block i on, [prev] is
    [Asub[i - 1] * b[i - 1]] ([None] for i = 0) *)
Definition addprev n (prev : option 'cV[F]_n) (c : 'cV[F]_n) : 'cV[F]_n :=
  if prev is Some v then c + v else c.
Fixpoint matmul_from n (t : bt n) (beta : F) : option 'cV[F]_n -> bvec t -> bvec t -> bvec t :=
  match t in bt n return option 'cV[F]_n -> bvec t -> bvec t -> bvec t with
  | BOne n D => fun prev b c => addprev prev (beta *: c) + D *m b
  | BCons n m D B C t' => fun prev b c =>
      (addprev prev (beta *: c.1) + D *m b.1 + B *m bhead b.2,
       matmul_from beta (Some (C *m b.1)) b.2 c.2)
  end.
Inductive outcome (A : Type) : Type := UB | Failed | Ok (a : A).
Arguments UB {A}. Arguments Failed {A}. Arguments Ok {A} a.
Definition blockTridiagMatMul n (t : bt n) (b c : bvec t) (beta : F) : outcome (bvec t) :=
  if has_two t then Ok (matmul_from beta None b c) else UB.

(** factors: U^T and the reduced diagonal block, for the blocks after the first *)
Fixpoint facs n (t : bt n) : Type :=
  match t with
  | BOne n D => unit
  | BCons n m D B C t' => ('M[F]_(m, n) * 'M[F]_m * facs t')%type
  end.
Fixpoint tails n (t : bt n) : Type :=
  match t with
  | BOne n D => unit
  | BCons n m D B C t' => ('cV[F]_m * tails t')%type
  end.
(** symmetricBlockTridiagSolve, loop 99-121: reduced first diagonal block and
    right-hand side, factors, and the solved right-hand sides below *)
Fixpoint sweep n (t : bt n) : bvec t -> option ('M[F]_n * 'cV[F]_n * facs t * tails t) :=
  match t in bt n return bvec t -> option ('M[F]_n * 'cV[F]_n * facs t * tails t) with
  | BOne n D => fun b => Some (D, b, tt, tt)
  | BCons n m D B C t' => fun b =>
      match sweep b.2 with
      | None => None
      | Some (D1, r1, fs, ys) =>
          if lower D1 \notin unitmx then None else
          let y := chol_solve D1 r1 in
          let U := chol_solve D1 C in
          Some (D - B *m U, b.1 - B *m y, (U, D1, fs), (y, ys))
      end
  end.
(** last loop, 132-135 and 176-179 *)
Fixpoint fwd n (t : bt n) : facs t -> tails t -> 'cV[F]_n -> bvec t :=
  match t in bt n return facs t -> tails t -> 'cV[F]_n -> bvec t with
  | BOne n D => fun _ _ x => x
  | BCons n m D B C t' => fun fs ys x => (x, fwd fs.2 ys.2 (ys.1 - fs.1.1 *m x))
  end.
(** result: solution, reduced first block, factors *)
Definition symmetricBlockTridiagSolve n (t : bt n) (b : bvec t) :
  outcome (bvec t * ('M[F]_n * facs t)) :=
  if ~~ has_two t then UB else
  match sweep b with
  | None => Failed
  | Some (D0, r0, fs, ys) =>
      if lower D0 \notin unitmx then Failed
      else Ok (fwd fs ys (chol_solve D0 r0), (D0, fs))
  end.

(** blockTridiagRefinementStep, 147-182, with the stored factors *)
Fixpoint resweep n (t : bt n) : facs t -> bvec t -> 'cV[F]_n * tails t :=
  match t in bt n return facs t -> bvec t -> 'cV[F]_n * tails t with
  | BOne n D => fun _ b => (b, tt)
  | BCons n m D B C t' => fun fs b =>
      let r := resweep fs.2 b.2 in
      let y := chol_solve fs.1.2 r.1 in
      (b.1 - B *m y, (y, r.2))
  end.
Definition blockTridiagRefinementStep n (t : bt n) (f : 'M[F]_n * facs t) (b : bvec t) : bvec t :=
  let r := resweep f.2 b in fwd f.2 r.2 (chol_solve f.1 r.1).

(** symmetricBlockTridiagSolveDownLooking, 186-244: [D0] and [r0] are
    [diagonal[i]] and [rhs[i]] as updated by the previous steps *)
Definition set_bhead n (t : bt n) : bvec t -> 'cV[F]_n -> bvec t :=
  match t in bt n return bvec t -> 'cV[F]_n -> bvec t with
  | BOne n D => fun _ x => x
  | BCons n m D B C t' => fun b x => (x, b.2)
  end.
Fixpoint down n (t : bt n) : 'M[F]_n -> bvec t -> option (bvec t) :=
  match t in bt n return 'M[F]_n -> bvec t -> option (bvec t) with
  | BOne n D => fun D0 b => if lower D0 \notin unitmx then None else Some (chol_solve D0 b)
  | BCons n m D B C t' => fun D0 b =>
      if lower D0 \notin unitmx then None else
      let y := chol_solve D0 b.1 in
      let L := chol_solve D0 B in
      match down (head_diag t' - C *m L) (set_bhead b.2 (bhead b.2 - C *m y)) with
      | None => None
      | Some x' => Some (y - L *m bhead x', x')
      end
  end.
Definition symmetricBlockTridiagSolveDownLooking n (t : bt n) (b : bvec t) : outcome (bvec t) :=
  if ~~ has_two t then UB else
  match down (head_diag t) b with None => Failed | Some x => Ok x end.

(** sums of block vectors *)
Fixpoint badd n (t : bt n) : bvec t -> bvec t -> bvec t :=
  match t return bvec t -> bvec t -> bvec t with
  | BOne n D => fun a b => a + b
  | BCons n m D B C t' => fun a b => (a.1 + b.1, badd a.2 b.2)
  end.
Fixpoint bscale (k : F) n (t : bt n) : bvec t -> bvec t :=
  match t return bvec t -> bvec t with
  | BOne n D => fun a => k *: a
  | BCons n m D B C t' => fun a => (k *: a.1, bscale k a.2)
  end.

(** refinement loop, parallel-solver.hxx 184-202.  [small] is the test
    [infty_norm(condensedErr) <= condensedThreshold]. *)
Section Refine.
Variables (n : nat) (t : bt n) (f : 'M[F]_n * facs t) (rhs : bvec t).
Variable small : bvec t -> bool.
Fixpoint refine_loop (k : nat) (sol err : bvec t) : bvec t * bvec t :=
  match k with
  | O => (sol, err)
  | S k' =>
      let e1 := bscale (-1) (matmul_from (-1) None sol err) in
      if small e1 then (sol, e1) else
      let e2 := blockTridiagRefinementStep f e1 in
      refine_loop k' (badd sol e2) rhs
  end.
End Refine.
(** the condensed solve of ParallelRiccatiSolver::backward, 166-205 (the code
    ignores the return value and goes on after a failure); [err] is
    [condensedErr] as left by the constructor (zero) or by the last call *)
Definition condensed_solve n (t : bt n) (rhs err : bvec t) (small : bvec t -> bool) (maxRef : nat) :
  outcome (bvec t * bvec t) :=
  match symmetricBlockTridiagSolve rhs with
  | UB => UB
  | Failed => Failed
  | Ok (sol, f) => Ok (refine_loop f rhs small maxRef sol err)
  end.
End Bt.
Arguments UB {A}. Arguments Failed {A}. Arguments Ok {A} a.
