(** Model of the KKT helpers, /repo/include/aligator/gar/utils.hpp and
    utils.hxx, over an ordered field.  Scalars are exact, so the NaN behaviour
    of std::max is not visible here (see C49).  Sparse storage is a dense block
    matrix: the row and column offsets idx, i0, i1, i2, i3 of
    lqrCreateSparseMatrix (hxx 23-85) are the block structure. *)
From mathcomp Require Import all_ssreflect all_algebra.
From Verif Require Import RiccatiModel.
Set Implicit Arguments.
Unset Strict Implicit.
Import Order.Theory GRing.Theory Num.Theory.
Local Open Scope ring_scope.

Section Err.
Variable R : realFieldType.
Variable p : nat.
Variable mueq : R.

(** math::infty_norm, math.hpp 140-147 *)
Definition infty_norm n (z : 'cV[R]_n) : R := \big[Num.max/0]_i `|z i 0|.
(** the running errors (dynErr, cstErr, dualErr), hxx 103-105 *)
Definition errs := (R * R * R)%type.

(** hxx 135-147 with the terms of the parameter 166-175 and of lbdas 149-163:
    [g] is what line 149-153 adds to _gx, [al] and [bl] what 156-158 add to
    _gx and _gu *)
Section Stage.
Variables (n nu nc m : nat) (k : knot R p n nu nc m).
Variables (x : 'cV[R]_n) (u : 'cV[R]_nu) (v : 'cV[R]_nc).
Definition e_cst : 'cV[R]_nc :=
  let cst := Cm k *m x + dv k - mueq *: v in
  if (0 < nu)%N then cst + Dm k *m u else cst.
Definition e_gx (th : option 'cV[R]_p) (g al : 'cV[R]_n) : 'cV[R]_n :=
  let gx := qv k + Qm k *m x + (Cm k)^T *m v in
  let gx := if (0 < nu)%N then gx + Sm k *m u else gx in
  let gx := gx + g in
  let gx := gx + al in
  if th is Some t then gx + Gx k *m t else gx.
Definition e_gu (th : option 'cV[R]_p) (bl : 'cV[R]_nu) : 'cV[R]_nu :=
  let gu := rv k + (Sm k)^T *m x + (Dm k)^T *m v in
  let gu := if (0 < nu)%N then gu + Rm k *m u else gu in
  let gu := gu + bl in
  if th is Some t then gu + Gu k *m t else gu.
(** hxx 156 *)
Definition e_dyn (x' : 'cV[R]_m) : 'cV[R]_m := Am k *m x + Bm k *m u + fv k - x'.
End Stage.

(** the loop 123-179, from the stage at the head of [c] on *)
Fixpoint kkt_loop (th : option 'cV[R]_p) n (c : knots R p n) : 'cV[R]_n -> sol c -> errs -> errs :=
  match c in knots _ _ n return 'cV[R]_n -> sol c -> errs -> errs with
  | @Term _ _ n nu nc m k => fun g s e =>
      let: (x, u, v) := s in
      let: (dyn, cst, dual) := e in
      (dyn, Num.max cst (infty_norm (e_cst k x u v)),
       Num.max (Num.max dual (infty_norm (e_gx k x u v th g 0))) (infty_norm (e_gu k x u v th 0)))
  | @Cons _ _ n nu nc m k c' => fun g s e =>
      let: (x, u, v, l', s') := s in
      let: (dyn, cst, dual) := e in
      kkt_loop th (- l') s'
        (Num.max dyn (infty_norm (e_dyn k x u (sol_x s'))),
         Num.max cst (infty_norm (e_cst k x u v)),
         Num.max (Num.max dual (infty_norm (e_gx k x u v th g ((Am k)^T *m l'))))
                 (infty_norm (e_gu k x u v th ((Bm k)^T *m l'))))
  end.
(** lqrComputeKktError, hxx 88-182; [r] is lbdas[0] and the rest *)
Definition lqrComputeKktError n nc0 (c : knots R p n) (G0 : 'M[R]_(nc0, n)) (g0 : 'cV[R]_nc0)
  (r : 'cV[R]_nc0 * sol c) (th : option 'cV[R]_p) : errs :=
  kkt_loop th (G0^T *m r.1) r.2 (Num.max 0 (infty_norm (g0 + G0 *m sol_x r.2)), 0, 0).
End Err.

(** ** The sparse matrix *)
Section Sparse.
Variable F : fieldType.
Variable p : nat.
Variable mueq : F.
(** rows after the first n, for the knots from some stage on, laid out as
    x_t u_t v_t lbdas[t+1] x_{t+1} ... *)
Fixpoint rest n (c : knots F p n) : nat :=
  match c with
  | @Term _ _ n nu nc m k => (nu + nc)%N
  | @Cons _ _ n nu nc m k c' => (nu + (nc + (m + (m + rest c'))))%N
  end.
(** the iterations 39-84 of lqrCreateSparseMatrix from some stage on *)
Fixpoint stage_mat n (c : knots F p n) : 'M[F]_(n + rest c) :=
  match c in knots _ _ n return 'M[F]_(n + rest c) with
  | @Term _ _ n nu nc m k =>
      block_mx (Qm k) (row_mx (Sm k) (Cm k)^T)
               (col_mx (Sm k)^T (Cm k))
               (block_mx (Rm k) (Dm k)^T (Dm k) (- mueq)%:M)
  | @Cons _ _ n nu nc m k c' =>
      block_mx (Qm k) (row_mx (Sm k) (row_mx (Cm k)^T (row_mx (Am k)^T 0)))
               (col_mx (Sm k)^T (col_mx (Cm k) (col_mx (Am k) 0)))
      (block_mx (Rm k) (row_mx (Dm k)^T (row_mx (Bm k)^T 0))
                (col_mx (Dm k) (col_mx (Bm k) 0))
      (block_mx (- mueq)%:M (row_mx 0 0) (col_mx 0 0)
      (block_mx 0 (row_mx 1%:M 0) (col_mx 1%:M 0) (stage_mat c'))))
  end.
Fixpoint stage_rhs n (c : knots F p n) : 'cV[F]_(n + rest c) :=
  match c in knots _ _ n return 'cV[F]_(n + rest c) with
  | @Term _ _ n nu nc m k => col_mx (qv k) (col_mx (rv k) (dv k))
  | @Cons _ _ n nu nc m k c' =>
      col_mx (qv k) (col_mx (rv k) (col_mx (dv k) (col_mx (fv k) (stage_rhs c'))))
  end.
(** lqrCreateSparseMatrix, 9-85 *)
Definition sparse_mat n nc0 (c : knots F p n) (G0 : 'M[F]_(nc0, n)) : 'M[F]_(nc0 + (n + rest c)) :=
  block_mx 0 (row_mx G0 0) (col_mx G0^T 0) (stage_mat c).
Definition sparse_rhs n nc0 (c : knots F p n) (g0 : 'cV[F]_nc0) : 'cV[F]_(nc0 + (n + rest c)) :=
  col_mx g0 (stage_rhs c).
(** a trajectory in that layout *)
Fixpoint stack n (c : knots F p n) : sol c -> 'cV[F]_(n + rest c) :=
  match c in knots _ _ n return sol c -> 'cV[F]_(n + rest c) with
  | @Term _ _ n nu nc m k => fun s => let: (x, u, v) := s in col_mx x (col_mx u v)
  | @Cons _ _ n nu nc m k c' => fun s => let: (x, u, v, l', s') := s in
      col_mx x (col_mx u (col_mx v (col_mx l' (stack s'))))
  end.

(** lqrNumRows, hpp 64-77 *)
Fixpoint stage_rows n (c : knots F p n) : nat :=
  match c with
  | @Term _ _ n nu nc m k => (n + nu + nc)%N
  | @Cons _ _ n nu nc m k c' => (n + nu + nc + n + stage_rows c')%N
  end.
Definition lqrNumRows n (nc0 : nat) (c : knots F p n) : nat := (nc0 + stage_rows c)%N.

(** lqrDenseSolutionToTraj, hpp 80-111; [w] is the vector [solution] by index *)
Definition seg (w : nat -> F) (i n : nat) : 'cV[F]_n := \col_j w (i + j)%N.
Fixpoint to_traj (w : nat -> F) n (c : knots F p n) (idx : nat) : sol c :=
  match c in knots _ _ n return sol c with
  | @Term _ _ n nu nc m k => (seg w idx n, seg w (idx + n) nu, seg w (idx + (n + nu)) nc)
  | @Cons _ _ n nu nc m k c' =>
      let i' := (idx + (n + nu + nc))%N in
      (seg w idx n, seg w (idx + n) nu, seg w (idx + (n + nu)) nc, seg w i' m, to_traj w c' (i' + m))
  end.
Definition lqrDenseSolutionToTraj n nc0 (c : knots F p n) (w : nat -> F) : 'cV[F]_nc0 * sol c :=
  (seg w 0 nc0, to_traj w c nc0).
End Sparse.
