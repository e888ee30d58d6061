(** Model of the improvement predicted by FDDP's line search,
    /repo/include/aligator/solvers/fddp/solver-fddp.hxx 59-165 and 312-322, run
    on a linear-quadratic problem with vector-space states.

    The problem itself (costs, dynamics, initial state), the evaluation of its
    derivatives and gaps at a trajectory, the forward pass with a step [alpha]
    and the predicted cost are all written out; the backward pass is the one of
    FddpLqModel.v.  NaN checks are left out (exact field arithmetic). *)
From mathcomp Require Import all_ssreflect all_algebra.
From Verif Require Import MxRing FddpLqModel FddpLqProofs.
Set Implicit Arguments.
Unset Strict Implicit.
Import GRing.Theory.
Local Open Scope ring_scope.

Section Exp.
Variable R : realFieldType.
Notation half := ((1 + 1)^-1 : R).

(** stage of an LQ problem: cost  c0 + g0.z + z.H0 z/2  and dynamics
    J0 z + b0  in  z = (x,u) *)
Record lqstage (n m n' : nat) := LqStage {
  c0 : R; g0 : 'cV[R]_(n + m); h0 : 'M[R]_(n + m); j0 : 'M[R]_(n', n + m); b0 : 'cV[R]_n' }.
Inductive lq : nat -> Type :=
| LTerm n (c : R) (g : 'cV[R]_n) (h : 'M[R]_n) : lq n
| LCons n m n' (s : lqstage n m n') (l : lq n') : lq n.

(** values of the stage cost and dynamics ([sm.evaluate]) *)
Definition lcost n m n' (s : lqstage n m n') (z : 'cV[R]_(n + m)) : R :=
  c0 s + quad (g0 s) (h0 s) z.
Definition lnext n m n' (s : lqstage n m n') (z : 'cV[R]_(n + m)) : 'cV[R]_n' :=
  j0 s *m z + b0 s.

(** trajectories: states and controls *)
Fixpoint traj n (l : lq n) : Type :=
  match l with
  | LTerm n _ _ _ => 'cV[R]_n
  | @LCons n m n' s l' => ('cV[R]_n * 'cV[R]_m * traj l')%type
  end.
Definition head n (l : lq n) : traj l -> 'cV[R]_n :=
  match l in lq n return traj l -> 'cV[R]_n with
  | LTerm n c g h => fun x => x
  | LCons n m n' s l' => fun t => t.1.1
  end.
(** trajectory cost, [problem.evaluate] *)
Fixpoint tcost n (l : lq n) : traj l -> R :=
  match l in lq n return traj l -> R with
  | LTerm n c g h => fun x => c + quad g h x
  | LCons n m n' s l' => fun t => lcost s (col_mx t.1.1 t.1.2) + tcost t.2
  end.

(** derivatives of the costs and dynamics at a trajectory
    ([problem.computeDerivatives]) and gaps fs[i+1] = f(x_i,u_i) - x_{i+1}
    ([computeInfeasibility], 168-188) *)
Fixpoint lin n (l : lq n) : traj l -> chain R n :=
  match l in lq n return traj l -> chain R n with
  | LTerm n c g h => fun x => Term (g + h *m x) h
  | LCons n m n' s l' => fun t =>
      let z := col_mx t.1.1 t.1.2 in
      Cons (Stage (g0 s + h0 s *m z) (h0 s) (j0 s) (lnext s z - head t.2)) (lin t.2)
  end.

Variable preg : R.

(** [forwardPass], 59-119: trial trajectory from the trial state [xt] of the
    first stage and its [dx]; [t] is the current trajectory *)
Fixpoint pass (alpha : R) n (l : lq n) :
    forall t : traj l, gains_ty (lin t) -> 'cV[R]_n -> 'cV[R]_n -> traj l :=
  match l in lq n
    return forall t : traj l, gains_ty (lin t) -> 'cV[R]_n -> 'cV[R]_n -> traj l with
  | LTerm n c g h => fun _ _ xt _ => xt
  | LCons n m n' s l' => fun t k xt dx =>
      let du := alpha *: k.1.1 + k.1.2 *m dx in
      let ut := t.1.2 + du in
      let gap := lnext s (col_mx t.1.1 t.1.2) - head t.2 in
      let xt' := lnext s (col_mx xt ut) + (alpha - 1) *: gap in
      (xt, ut, pass alpha k.2 xt' (xt' - head t.2))
  end.
(** the whole pass: the gap of the first state is x0 - xs[0], 70-74, 175-176 *)
Definition forward (alpha : R) n (l : lq n) (x0 : 'cV[R]_n) (t : traj l) : traj l :=
  let f := x0 - head t in
  pass alpha (gains preg (lin t)) (head t + alpha *: f) (alpha *: f).

(** [updateExpectedImprovement], 142-165: [dg] and [dq].  [f] is the gap of the
    first state, Vx the stored gradient (after the shift), ftVxx = Vxx f *)
Fixpoint dg n (c : chain R n) : 'cV[R]_n -> R :=
  match c in chain _ n return 'cV[R]_n -> R with
  | Term n lx lxx => fun f => dot (backward preg (Term lx lxx) f).1 f
  | Cons n m n' s c' => fun f =>
      let v := backward preg c' (gap s) in
      let g := qgrad s v.1 in let H := qhess preg s v.2 in
      dot (Qu g) (kff g H) + dot (backward preg (Cons s c') f).1 f + dg c' (gap s)
  end.
Fixpoint dq n (c : chain R n) : 'cV[R]_n -> R :=
  match c in chain _ n return 'cV[R]_n -> R with
  | Term n lx lxx => fun f => - dot ((backward preg (Term lx lxx) f).2 *m f) f
  | Cons n m n' s c' => fun f =>
      let v := backward preg c' (gap s) in
      let g := qgrad s v.1 in let H := qhess preg s v.2 in
      dot (kff g H) (Quu H *m kff g H) - dot ((backward preg (Cons s c') f).2 *m f) f
      + dq c' (gap s)
  end.
(** [expectedImprovement], 122-139: [dv] from the dxs of the last trial [tt],
    dxs[i] = tt_i - t_i *)
Fixpoint dv n (l : lq n) : traj l -> traj l -> 'cV[R]_n -> R :=
  match l in lq n return traj l -> traj l -> 'cV[R]_n -> R with
  | LTerm n c g h => fun t tt f => - dot (tt - t) ((backward preg (Term (g + h *m t) h) f).2 *m f)
  | LCons n m n' s l' => fun t tt f =>
      - dot (tt.1.1 - t.1.1) ((backward preg (@lin _ (LCons s l') t) f).2 *m f)
      + dv t.2 tt.2 (lnext s (col_mx t.1.1 t.1.2) - head t.2)
  end.
(** the line-search model, 318-321, called after the trial with step [alpha]
    (linesearch.hpp 33-39): [phi0 + alpha * (d1 + 0.5 * d2 * alpha)] *)
Definition predicted (alpha : R) n (l : lq n) (x0 : 'cV[R]_n) (t : traj l) : R :=
  let f := x0 - head t in
  let v := dv t (forward alpha x0 t) f in
  let d1 := dg (lin t) f + v in
  let d2 := dq (lin t) f - (1 + 1) * v in
  tcost t + alpha * (d1 + half * d2 * alpha).

(** what the test of fddp_goldstein_linesearch (linesearch.hpp 38-51) accepts,
    apart from the |d1| < th_grad clause *)
Definition accepts (phitry phimodel phi0 th_neg th_pos : R) : bool :=
  if (phimodel - phi0 < 0)%R then (phitry - phi0 <= th_neg * (phimodel - phi0))%R
  else (phitry - phi0 <= th_pos * (phimodel - phi0))%R.
End Exp.
