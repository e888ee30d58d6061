(** Model of one iteration of the inner loop of SolverProxDDP with the linear rollout
    on a problem with quadratic costs and affine dynamics and constraints,
    /repo/include/aligator/solvers/proxddp/solver-proxddp.hxx.

    The routines are those of LagrModel (gradients, LQ subproblem) and RiccatiModel
    (serial solver); added here are the values of the problem, computeMultipliers
    (219-318), tryLinearStep (110-155), computeCriterion (703-732) and the order of
    the calls in innerLoop (576-673).

    Simplifications: exact arithmetic over any ordered field; states in vector spaces;
    the constraints of a stage are stacked in one function (C35) whose rows are
    equalities, inequalities or box constraints; the initial condition is affine with
    a zero Hessian.  Its multiplier estimate lams_plus is not modelled, nor vs_pdal. *)
From mathcomp Require Import all_ssreflect all_algebra.
From Verif Require Import RiccatiModel LagrModel.
Set Implicit Arguments.
Unset Strict Implicit.
Import Order.Theory GRing.Theory Num.Theory.
Local Open Scope ring_scope.

Section Iter.
Variable R : realFieldType.

(** ** Problem *)

(** one row of a constraint set: EqualityConstraint, NegativeOrthant, BoxConstraint *)
Inductive row := Req | Rneg | Rbox (lo up : R).
(** normalConeProjection: equality-constraint.hpp 37-40, negative-orthant.hpp 36-38,
    box-constraint.hpp 27-37 *)
Definition ncp (k : row) (z : R) : R :=
  match k with
  | Req => z
  | Rneg => Num.max z 0
  | Rbox lo up => z - Num.max (Num.min z up) lo
  end.
(** computeActiveSet: equality-constraint.hpp 52-55, negative-orthant.hpp 41-44,
    box-constraint.hpp 39-43 *)
Definition active (k : row) (z : R) : bool :=
  match k with
  | Req => true
  | Rneg => 0 < z
  | Rbox lo up => (up < z) || (z < lo)
  end.

(** A stage: cost 1/2 x'Qx + x'Su + 1/2 u'Ru + q'x + r'u (quad-costs.hpp), dynamics
    Ax + Bu + f (linear-discrete-dynamics.hpp), constraint Cx + Du + d
    (linear-function.hpp). *)
Record pstage (n nu nc m : nat) := PStage {
  pQ : 'M[R]_n; pS : 'M[R]_(n, nu); pR : 'M[R]_nu; pq : 'cV[R]_n; pr : 'cV[R]_nu;
  pA : 'M[R]_(m, n); pB : 'M[R]_(m, nu); pf : 'cV[R]_m;
  pC : 'M[R]_(nc, n); pD : 'M[R]_(nc, nu); ph : 'cV[R]_nc; pk : 'I_nc -> row }.
Record pterm (n nc : nat) := PEnd {
  eQ : 'M[R]_n; eq_ : 'cV[R]_n; eC : 'M[R]_(nc, n); ed : 'cV[R]_nc; ek : 'I_nc -> row }.
Inductive prob : nat -> Type :=
| PTerm n nc (s : pterm n nc) : prob n
| PCons n nu nc m (s : pstage n nu nc m) (c : prob m) : prob n.

(** xs, us, vs and lams[1], ... from some stage on; also the steps dxs, dus, dvs,
    dlams, and the residuals Lxs, Lus, Lvs, dyn_slacks[1], ... *)
Fixpoint iter n (c : prob n) : Type :=
  match c with
  | @PTerm n nc s => ('cV[R]_n * 'cV[R]_nc)%type
  | @PCons n nu nc m s c' => ('cV[R]_n * 'cV[R]_nu * 'cV[R]_nc * 'cV[R]_m * iter c')%type
  end.
Definition first_x n (c : prob n) : iter c -> 'cV[R]_n :=
  match c in prob n return iter c -> 'cV[R]_n with
  | @PTerm n nc s => fun i => i.1
  | @PCons n nu nc m s c' => fun i => i.1.1.1.1
  end.
(** prev_vs *)
Fixpoint vecs n (c : prob n) : Type :=
  match c with
  | @PTerm n nc s => 'cV[R]_nc
  | @PCons n nu nc m s c' => ('cV[R]_nc * vecs c')%type
  end.
(** results_.vs *)
Fixpoint vs_of n (c : prob n) : iter c -> vecs c :=
  match c in prob n return iter c -> vecs c with
  | @PTerm n nc s => fun i => i.2
  | @PCons n nu nc m s c' => fun i => (i.1.1.2, vs_of i.2)
  end.

(** ** Evaluation *)
Section Eval.
Variables mu preg : R.
Variable exact : bool.     (* hess_approx_ == EXACT; the dynamics have no Hessian *)

(** the data for the gradients of the Lagrangian *)
Fixpoint traj_of n (c : prob n) : iter c -> traj R n :=
  match c in prob n return iter c -> traj R n with
  | @PTerm n nc s => fun i =>
      TTerm (eQ s *m i.1 + eq_ s) [:: CFun (eC s) 0 i.2]
  | @PCons n nu nc m s c' => fun i =>
      let: (x, u, v, l, i') := i in
      TCons (pQ s *m x + pS s *m u + pq s) ((pS s)^T *m x + pR s *m u + pr s) (pA s) (pB s)
        [:: CFun (pC s) (pD s) v] l (traj_of i')
  end.

(** computeMultipliers: 271-282, the shifted constraint, the active set and Lvs *)
Definition shifted nc (c w : 'cV[R]_nc) : 'cV[R]_nc := c + mu *: w.
Definition Lv_of nc (k : 'I_nc -> row) (z v : 'cV[R]_nc) : 'cV[R]_nc :=
  \col_i (ncp (k i) (z i 0) - mu * v i 0).
Definition act_of nc (k : 'I_nc -> row) (z : 'cV[R]_nc) (i : 'I_nc) : bool := active (k i) (z i 0).
(** 283, vs_plus, and 286, stage_infeasibilities *)
Definition vplus_of nc (k : 'I_nc -> row) (z : 'cV[R]_nc) : 'cV[R]_nc := \col_i (mu^-1 * ncp (k i) (z i 0)).
Definition infeas_of nc (k : 'I_nc -> row) (z w : 'cV[R]_nc) : 'cV[R]_nc := mu *: (vplus_of k z - w).

Definition cval n nu nc m (s : pstage n nu nc m) x u := pC s *m x + pD s *m u + ph s.
Definition tval n nc (s : pterm n nc) x := eC s *m x + ed s.
(** 263: difference(xs[i+1], xnext) *)
Definition gap n nu nc m (s : pstage n nu nc m) x u x' := pA s *m x + pB s *m u + pf s - x'.

(** all residuals; [g] are the gradients *)
Fixpoint residuals n (c : prob n) : forall i : iter c, vecs c -> xus (traj_of i) -> iter c :=
  match c in prob n return forall i : iter c, vecs c -> xus (traj_of i) -> iter c with
  | @PTerm n nc s => fun i w g => (g, Lv_of (ek s) (shifted (tval s i.1) w) i.2)
  | @PCons n nu nc m s c' => fun i =>
      match i return vecs (PCons s c') -> xus (traj_of (c := PCons s c') i) -> iter (PCons s c') with
      | (x, u, v, l, i') => fun w g =>
          (g.1.1, g.1.2, Lv_of (pk s) (shifted (cval s x u) w.1) v, gap s x u (first_x i'),
           residuals w.2 g.2)
      end
  end.
(** the input of the LQ subproblem *)
Fixpoint lq_of n (c : prob n) : forall i : iter c, vecs c -> xus (traj_of i) -> lqdata R n :=
  match c in prob n return forall i : iter c, vecs c -> xus (traj_of i) -> lqdata R n with
  | @PTerm n nc s => fun i w g =>
      let z := shifted (tval s i.1) w in
      LTerm (TStage (eQ s) (eC s) (act_of (ek s) z) (Lv_of (ek s) z i.2) g)
  | @PCons n nu nc m s c' => fun i =>
      match i return vecs (PCons s c') -> xus (traj_of (c := PCons s c') i) -> lqdata R n with
      | (x, u, v, l, i') => fun w g =>
          let z := shifted (cval s x u) w.1 in
          LCons (Stage (pQ s) (pS s) (pR s) 0 0 0 (pA s) (pB s) (gap s x u (first_x i'))
                   (pC s) (pD s) (act_of (pk s) z) (Lv_of (pk s) z v) g.1.1 g.1.2)
                (lq_of w.2 g.2)
      end
  end.
(** dxs, dus, dvs, dlams[1], ... from the solution of the LQ subproblem *)
Fixpoint dirs n (c : prob n) : forall (i : iter c) w g H0,
  sol (lq_problem mu preg exact (lq_of (i := i) w g) H0) -> iter c :=
  match c in prob n return forall (i : iter c) w g H0,
    sol (lq_problem mu preg exact (lq_of (i := i) w g) H0) -> iter c with
  | @PTerm n nc s => fun i w g H0 r => (r.1.1, r.2)
  | @PCons n nu nc m s c' => fun i =>
      match i return forall w g H0,
        sol (lq_problem mu preg exact (lq_of (c := PCons s c') (i := i) w g) H0) -> iter (PCons s c') with
      | (x, u, v, l, i') => fun w g H0 r => (r.1.1.1.1, r.1.1.1.2, r.1.1.2, r.1.2, dirs r.2)
      end
  end.
End Eval.

(** tryLinearStep, 110-155: every component is the current one plus alpha times the
    step *)
Fixpoint lin_step (a : R) n (c : prob n) : iter c -> iter c -> iter c :=
  match c in prob n return iter c -> iter c -> iter c with
  | @PTerm n nc s => fun i d => (i.1 + a *: d.1, i.2 + a *: d.2)
  | @PCons n nu nc m s c' => fun i d =>
      let: (x, u, v, l, i') := i in let: (dx, du, dv, dl, d') := d in
      (x + a *: dx, u + a *: du, v + a *: dv, l + a *: dl, lin_step a i' d')
  end.

(** 592-594 and 635-638, with force_initial_condition_ *)
Definition zero_grad n (t : traj R n) : xus t -> xus t :=
  match t return xus t -> xus t with
  | @TTerm _ n _ _ => fun g => 0
  | @TCons _ n nu m _ _ _ _ _ _ t' => fun g => (0, g.1.2, g.2)
  end.
Definition zero_dx n (c : prob n) : iter c -> iter c :=
  match c in prob n return iter c -> iter c with
  | @PTerm n nc s => fun d => (0, d.2)
  | @PCons n nu nc m s c' => fun d => (0, d.1.1.1.2, d.1.1.2, d.1.2, d.2)
  end.

(** ** The iteration *)
Section Loop.
Variables (n nc0 : nat) (c : prob n) (G0 : 'M[R]_(nc0, n)) (e0 : 'cV[R]_nc0).
Variables mu preg : R.
Variables exact force : bool.

(** results_: the multiplier lams[0] of the initial condition and the rest *)
Definition state := ('cV[R]_nc0 * iter c)%type.
(** dyn_slacks[0] *)
Definition init_gap (s : state) : 'cV[R]_nc0 := G0 *m first_x s.2 + e0.
(** 587-594 *)
Definition grads (s : state) : xus (traj_of s.2) :=
  let g := compute (traj_of s.2) G0 (Some s.1) in if force then zero_grad g else g.
Definition all_residuals (w : vecs c) (s : state) : iter c := residuals mu w (grads s).
Definition subproblem (w : vecs c) (s : state) : knots R 0 n :=
  lq_problem mu preg exact (lq_of mu w (grads s)) 0.
(** 603-638; [None]: the factorisation of a stage fails *)
Definition direction (w : vecs c) (s : state) : option state :=
  match backward mu (subproblem w s) G0 (init_gap s) with
  | None => None
  | Some d =>
      let r := forward d None in
      let ds := dirs r.2 in
      Some (if force then (0, zero_dx ds) else (r.1, ds))
  end.
(** 665-668 after a line search which returned [a] *)
Definition iterate (a : R) (w : vecs c) (s : state) : option state :=
  match direction w s with
  | None => None
  | Some d => Some (s.1 + a *: d.1, lin_step a s.2 d.2)
  end.
End Loop.

(** ** computeCriterion, 703-732 *)
Definition norm k (z : 'cV[R]_k) : R := \big[Num.max/0]_i `|z i 0|.
(** [rd] is the norm of dyn_slacks[i]; it is not used at the terminal node *)
Fixpoint crit_loop (rd : R) n (c : prob n) : iter c -> R :=
  match c in prob n return iter c -> R with
  | @PTerm n nc s => fun r => Num.max (norm r.1) (norm r.2)
  | @PCons n nu nc m s c' => fun r =>
      let: (rx, ru, rv, rg, r') := r in
      Num.max (Num.max (Num.max (norm rx) (norm ru)) (Num.max rd (norm rv))) (crit_loop (norm rg) r')
  end.
Definition inner_criterion n nc0 (c : prob n) (g0 : 'cV[R]_nc0) (r : iter c) : R := crit_loop (norm g0) r.
Fixpoint dual_infeas n (c : prob n) : iter c -> R :=
  match c in prob n return iter c -> R with
  | @PTerm n nc s => fun r => norm r.1
  | @PCons n nu nc m s c' => fun r =>
      let: (rx, ru, rv, rg, r') := r in Num.max (Num.max (norm rx) (norm ru)) (dual_infeas r')
  end.
(** prim_infeas, 315-316: all the stage infeasibilities and all the dynamics errors *)
Fixpoint prim_loop (mu : R) n (c : prob n) : iter c -> vecs c -> R :=
  match c in prob n return iter c -> vecs c -> R with
  | @PTerm n nc s => fun i w => norm (infeas_of mu (ek s) (shifted mu (tval s i.1) w) w)
  | @PCons n nu nc m s c' => fun i w =>
      let: (x, u, v, l, i') := i in
      Num.max (Num.max (norm (infeas_of mu (pk s) (shifted mu (cval s x u) w.1) w.1))
                       (norm (gap s x u (first_x i')))) (prim_loop mu i' w.2)
  end.
Definition prim_infeas n nc0 (c : prob n) mu (g0 : 'cV[R]_nc0) (i : iter c) (w : vecs c) : R :=
  Num.max (norm g0) (prim_loop mu i w).
End Iter.
