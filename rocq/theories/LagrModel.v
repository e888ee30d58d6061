(** Model of LagrangianDerivatives::compute (core/lagrangian.hpp 27-92),
    computeProjectedJacobians (solvers/proxddp/solver-proxddp.hxx 24-69) and
    updateLQSubproblem (734-805), over an arbitrary field, with stage-dependent
    dimensions.

    Derivatives are given as matrices.  The constraint stack of a stage is a list
    of functions with their Jacobians and multiplier blocks for the gradients
    (the tiling of the vectors is that of C35), and one stacked function for the
    LQ problem.  applyNormalConeProjectionJacobian keeps the rows in [act] and
    zeroes the others (CSetModel, C03). *)
From mathcomp Require Import all_ssreflect all_algebra.
From Verif Require Import MxRing RiccatiModel.
Set Implicit Arguments.
Unset Strict Implicit.
Import GRing.Theory.
Local Open Scope ring_scope.

Section Lagr.
Variable F : fieldType.

(** ** Gradients of the Lagrangian *)

(** One constraint function of a stage: Jacobians and multiplier block. *)
Record cfun (n nu : nat) := CFun {
  cdim : nat; cJx : 'M[F]_(cdim, n); cJu : 'M[F]_(cdim, nu); cv : 'cV[F]_cdim }.

(** Stage data with the multipliers: cost gradients, dynamics Jacobians,
    constraints, and the co-state of the next node. *)
Inductive traj : nat -> Type :=
| TTerm n (lx : 'cV[F]_n) (cs : seq (cfun n 0)) : traj n
| TCons n nu m (lx : 'cV[F]_n) (lu : 'cV[F]_nu) (A : 'M[F]_(m, n)) (B : 'M[F]_(m, nu))
    (cs : seq (cfun n nu)) (lam : 'cV[F]_m) (c : traj m) : traj n.

(** Lxs and Lus (or directions dxs and dus) from some stage on. *)
Fixpoint xus n (c : traj n) : Type :=
  match c with
  | @TTerm n _ _ => 'cV[F]_n
  | @TCons n nu m _ _ _ _ _ _ c' => ('cV[F]_n * 'cV[F]_nu * xus c')%type
  end.
Definition head_x n (c : traj n) : xus c -> 'cV[F]_n :=
  match c in traj n return xus c -> 'cV[F]_n with
  | @TTerm n _ _ => fun s => s
  | @TCons n nu m _ _ _ _ _ _ c' => fun s => s.1.1
  end.

(** The loop over the stages, 52-79, and the terminal node, 81-91.  [Lx] is the
    content of [Lxs[i]] when the turn starts. *)
Fixpoint grad_loop (has_lbdas : bool) n (c : traj n) : 'cV[F]_n -> xus c :=
  match c in traj n return 'cV[F]_n -> xus c with
  | @TTerm n lx cs => fun Lx =>
      foldl (fun a (f : cfun n 0) => a + (cJx f)^T *m cv f) (Lx + lx) cs
  | @TCons n nu m lx lu A B cs lam c' => fun Lx =>
      let Lx := Lx + lx in
      let Lu := lu in
      let Lx := if has_lbdas then Lx + A^T *m lam else Lx in
      let Lu := if has_lbdas then Lu + B^T *m lam else Lu in
      let Lx := foldl (fun a (f : cfun n nu) => a + (cJx f)^T *m cv f) Lx cs in
      let Lu := foldl (fun a (f : cfun n nu) => a + (cJu f)^T *m cv f) Lu cs in
      (Lx, Lu, grad_loop has_lbdas c' (if has_lbdas then - lam else 0))
  end.

(** [compute]; [lam0] is [None] when [lams] is empty. *)
Definition compute n nc0 (c : traj n) (J0 : 'M[F]_(nc0, n)) (lam0 : option 'cV[F]_nc0) : xus c :=
  match lam0 with
  | Some l => grad_loop true c (J0^T *m l)
  | None => grad_loop false c 0
  end.

(** ** The LQ subproblem *)

(** Stage data used by updateLQSubproblem: Hessians of the cost, of the
    dynamics (contracted with the co-state), Jacobians of the stacked
    constraints, active rows, [Lvs], dynamics error and gradients. *)
Record stage (n nu nc m : nat) := Stage {
  Lxx : 'M[F]_n; Lxu : 'M[F]_(n, nu); Luu : 'M[F]_nu;
  Hxx : 'M[F]_n; Hxu : 'M[F]_(n, nu); Huu : 'M[F]_nu;
  sA : 'M[F]_(m, n); sB : 'M[F]_(m, nu); slack : 'cV[F]_m;
  Jx : 'M[F]_(nc, n); Ju : 'M[F]_(nc, nu); act : 'I_nc -> bool; Lv : 'cV[F]_nc;
  gLx : 'cV[F]_n; gLu : 'cV[F]_nu }.
Record tstage (n nc : nat) := TStage {
  tLxx : 'M[F]_n; tJx : 'M[F]_(nc, n); tact : 'I_nc -> bool; tLv : 'cV[F]_nc;
  tgLx : 'cV[F]_n }.
Inductive lqdata : nat -> Type :=
| LTerm n nc (s : tstage n nc) : lqdata n
| LCons n nu nc m (s : stage n nu nc m) (c : lqdata m) : lqdata n.

(** applyNormalConeProjectionJacobian *)
Definition keep_rows n nc (act : 'I_nc -> bool) (J : 'M[F]_(nc, n)) : 'M[F]_(nc, n) :=
  \matrix_(i, j) (if act i then J i j else 0).

Variables mu preg : F.
Variable exact : bool.    (* hess_approx_ == EXACT *)

(** computeProjectedJacobians: the correction terms, 46-52. *)
Definition corr n nc (act : 'I_nc -> bool) (J : 'M[F]_(nc, n)) (Lv : 'cV[F]_nc) : 'cV[F]_n :=
  J^T *m (mu^-1 *: Lv) - (keep_rows act J)^T *m (mu^-1 *: Lv).

Definition reg n (Q : 'M[F]_n) : 'M[F]_n := Q + preg%:M.
Definition when_exact m n (H : 'M[F]_(m, n)) : 'M[F]_(m, n) := if exact then H else 0.

(** 747-786: the knot of a stage. [H0] is the Hessian of the initial condition
    for the first stage (803-804), zero for the others. *)
Definition lq_knot n nu nc m (s : stage n nu nc m) (H0 : 'M[F]_n) : knot F 0 n nu nc m :=
  Knot (reg (Lxx s) + when_exact (Hxx s) + H0) (Lxu s + when_exact (Hxu s))
       (reg (Luu s) + when_exact (Huu s))
       (gLx s + corr (act s) (Jx s) (Lv s)) (gLu s + corr (act s) (Ju s) (Lv s))
       (sA s) (sB s) (slack s)
       (keep_rows (act s) (Jx s)) (keep_rows (act s) (Ju s)) (Lv s)
       0 0 0 0 0.
(** 788-797: the terminal knot (nu = 0, nx2 = 0: workspace.hxx 53-54). *)
Definition lq_term n nc (s : tstage n nc) (H0 : 'M[F]_n) : knot F 0 n 0 nc 0 :=
  Knot (reg (tLxx s) + H0) 0 0 (tgLx s + corr (tact s) (tJx s) (tLv s)) 0
       0 0 0 (keep_rows (tact s) (tJx s)) 0 (tLv s) 0 0 0 0 0.
Fixpoint lq_problem n (c : lqdata n) (H0 : 'M[F]_n) : knots F 0 n :=
  match c in lqdata n return 'M[F]_n -> knots F 0 n with
  | @LTerm n nc s => fun H0 => Term (lq_term s H0)
  | @LCons n nu nc m s c' => fun H0 => Cons (lq_knot s H0) (lq_problem c' 0)
  end H0.
End Lagr.
