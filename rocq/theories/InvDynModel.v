(** Model of underactuatedConstrainedInverseDynamics,
    /repo/include/aligator/modelling/multibody/constrained-rnea.hpp, and of its Python
    wrapper, /repo/bindings/python/src/modelling/multibody/expose-pinocchio-functions.cpp.

    Pinocchio gives, at (q, v), the nonlinear effects nle and the Jacobian of each
    constraint; Eigen's ColPivHouseholderQR is a function [qr].  Exact arithmetic. *)
From mathcomp Require Import all_ssreflect all_algebra.
Set Implicit Arguments.
Unset Strict Implicit.
Import GRing.Theory.
Local Open Scope ring_scope.

Section InvDyn.
Variable F : fieldType.
Variables nv nu : nat.

(** a rigid constraint: its size and its Jacobian at (q, v) *)
Definition rcm := {d : nat & 'M[F]_(d, nv)}.

(** computeRigidConstraintsTotalSize, constrained-rnea.hpp 19-38 *)
Fixpoint size_loop (d : nat) (cs : seq rcm) : nat :=
  if cs is c :: cs' then size_loop (d + tag c)%N cs' else d.
Definition total_size (cs : seq rcm) : nat := size_loop 0 cs.

(** pinocchio::getConstraintsJacobian: row i of the stacked Jacobian, each constraint in the
    rows that follow those of the previous ones *)
Fixpoint jac_row (cs : seq rcm) (i : nat) : 'rV[F]_nv :=
  if cs is c :: cs' then
    if insub i is Some k then row (k : 'I_(tag c)) (tagged c) else jac_row cs' (i - tag c)%N
  else 0.
Definition constraints_jacobian (cs : seq rcm) : 'M[F]_(total_size cs, nv) :=
  \matrix_(i < total_size cs, j < nv) jac_row cs i 0 j.

(** work, constrained-rnea.hpp 78-84 *)
Definition work (B : 'M[F]_(nv, nu)) (cs : seq rcm) : 'M[F]_(nv, nu + total_size cs) :=
  let JacT := (constraints_jacobian cs)^T in
  row_mx B (-1 *: JacT).

(** constrained-rnea.hpp 86-87 *)
Definition inverse_dynamics (qr : forall m n, 'M[F]_(m, n) -> 'cV[F]_m -> 'cV[F]_n)
  (B : 'M[F]_(nv, nu)) (nle : 'cV[F]_nv) (cs : seq rcm) : 'cV[F]_(nu + total_size cs) :=
  qr _ _ (work B cs) nle.

(** the pair made by the Python wrapper, expose-pinocchio-functions.cpp 207 *)
Definition proxy qr B nle cs : 'cV[F]_nu * 'cV[F]_(total_size cs) :=
  let out := inverse_dynamics qr B nle cs in (usubmx out, dsubmx out).
End InvDyn.
