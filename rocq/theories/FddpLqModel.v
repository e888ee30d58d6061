(** Model of the FDDP backward pass,
    /repo/include/aligator/solvers/fddp/solver-fddp.hxx 204-280, over an
    arbitrary ordered field.

    The LLT factorisation is modelled by the exact inverse of the symmetric
    matrix read from the lower triangle; the code does not look at [llt.info()]
    (248-250), so the result for a matrix which is not positive definite is not
    specified.  The value terms [q_], [v_] are stored by the code but never
    propagated; they are left out. *)
From mathcomp Require Import all_ssreflect all_algebra.
Set Implicit Arguments.
Unset Strict Implicit.
Import GRing.Theory.
Local Open Scope ring_scope.

Section Lq.
Variable R : realFieldType.

(** cost gradient and Hessian in (x,u), Jacobian of the dynamics in (x,u), gap
    [fs[i+1]] of the next state *)
Record stage (n m n' : nat) := Stage {
  grad : 'cV[R]_(n + m); hess : 'M[R]_(n + m); jac : 'M[R]_(n', n + m); gap : 'cV[R]_n' }.

(** problem from a stage on; dimensions may change at each stage *)
Inductive chain : nat -> Type :=
| Term n (lx : 'cV[R]_n) (lxx : 'M[R]_n) : chain n
| Cons n m n' (s : stage n m n') (c : chain n') : chain n.

Variable preg : R.

(** [selfadjointView<Lower>] *)
Definition low n (M : 'M[R]_n) : 'M[R]_n := \matrix_(i, j) (if (j <= i)%N then M i j else M j i).

(** Q-function, 235-245: [qgrad] and [qhess] with [preg] added to Quu *)
Definition qgrad n m n' (s : stage n m n') (vx : 'cV[R]_n') : 'cV[R]_(n + m) :=
  grad s + (jac s)^T *m vx.
Definition qhess n m n' (s : stage n m n') (vxx : 'M[R]_n') : 'M[R]_(n + m) :=
  hess s + (jac s)^T *m vxx *m jac s + block_mx 0 0 0 (preg%:M).

Definition Qx n m (g : 'cV[R]_(n + m)) : 'cV[R]_n := usubmx g.
Definition Qu n m (g : 'cV[R]_(n + m)) : 'cV[R]_m := dsubmx g.
Definition Qxx n m (H : 'M[R]_(n + m)) : 'M[R]_n := ulsubmx H.
Definition Qxu n m (H : 'M[R]_(n + m)) : 'M[R]_(n, m) := ursubmx H.
Definition Quu n m (H : 'M[R]_(n + m)) : 'M[R]_m := drsubmx H.

(** gains, 249-258 *)
Definition kff n m (g : 'cV[R]_(n + m)) (H : 'M[R]_(n + m)) : 'cV[R]_m :=
  invmx (low (Quu H)) *m (- Qu g).
Definition kfb n m (H : 'M[R]_(n + m)) : 'M[R]_(m, n) :=
  invmx (low (Quu H)) *m (- (Qxu H)^T).

(** value function before the shift by the gap, 263-268 *)
Definition vgrad n m (g : 'cV[R]_(n + m)) (H : 'M[R]_(n + m)) : 'cV[R]_n :=
  Qx g + (kfb H)^T *m Qu g.
Definition vhess n m (H : 'M[R]_(n + m)) : 'M[R]_n :=
  low (Qxx H + Qxu H *m kfb H) + preg%:M.
(** shift, 221-223 and 269-271 *)
Definition shift n (f : 'cV[R]_n) (v : 'cV[R]_n * 'M[R]_n) : 'cV[R]_n * 'M[R]_n :=
  (v.1 + v.2 *m f, v.2).

(** the pass: stored (Vx, Vxx) of the first stage of [c], whose gap is [f] *)
Fixpoint backward n (c : chain n) : 'cV[R]_n -> 'cV[R]_n * 'M[R]_n :=
  match c in chain n return 'cV[R]_n -> 'cV[R]_n * 'M[R]_n with
  | Term n lx lxx => fun f => shift f (lx, lxx + preg%:M)
  | Cons n m n' s c' => fun f =>
      let v := backward c' (gap s) in
      let g := qgrad s v.1 in let H := qhess s v.2 in
      shift f (vgrad g H, vhess H)
  end.

(** gains of every stage, in order *)
Fixpoint gains_ty n (c : chain n) : Type :=
  match c with
  | Term _ _ _ => unit
  | Cons n m n' s c' => ('cV[R]_m * 'M[R]_(m, n) * gains_ty c')%type
  end.
Fixpoint gains n (c : chain n) : gains_ty c :=
  match c return gains_ty c with
  | Term _ _ _ => tt
  | Cons n m n' s c' =>
      let v := backward c' (gap s) in
      let g := qgrad s v.1 in let H := qhess s v.2 in
      (kff g H, kfb H, gains c')
  end.
(** the matrices handed to the LLT factorisation *)
Fixpoint quus n (c : chain n) : seq {m : nat & 'M[R]_m} :=
  match c with
  | Term _ _ _ => [::]
  | Cons n m n' s c' =>
      existT _ m (Quu (qhess s (backward c' (gap s)).2)) :: quus c'
  end.
End Lq.
