(** Model of QuadraticStateCostTpl and QuadraticControlCostTpl on vector spaces,
    /repo/include/aligator/modelling/costs/quad-state-cost.hpp 10-80: the cost of QuadCostModel for
    the residuals of FunModel, whose target can be changed between the calls.

    Dimensions are in the types: setTarget with a vector of another size, which the code
    accepts, is left out.  residual_ is the object given to the constructor (the casts of
    residual(), 40-43 and 74-79, are then right). *)
From mathcomp Require Import all_ssreflect all_algebra.
From Verif Require Import MxRing FunModel QuadCostModel.
Set Implicit Arguments.
Unset Strict Implicit.
Import GRing.Theory.
Local Open Scope ring_scope.

Section Target.
Variable F : fieldType.
(** r residuals, with a target of size t; the data of the residual do not depend on the
    target *)
Variables (n m r t : nat) (res : 'cV[F]_t -> sfun F n m r) (W : 'M[F]_r).
Hypothesis data_same : forall a, fst_t (res a) = fdata F n m r.

Definition cast (a b : 'cV[F]_t) (d : fst_t (res a)) : fst_t (res b) :=
  eq_rect_r (fun T => T) (eq_rect _ (fun T => T) d _ (data_same a)) (data_same b).
(** the cost and the data of one user: the target, the data *)
Record tcost := TCost { target : 'cV[F]_t; tdata : rdata (res target) }.

Inductive call :=
| Evaluate (x : 'cV[F]_n) (u : 'cV[F]_m)
| Gradients (x : 'cV[F]_n) (u : 'cV[F]_m)
| Hessians (x : 'cV[F]_n) (u : 'cV[F]_m)
| SetTarget (a : 'cV[F]_t).   (* quad-state-cost.hpp 36, 70 *)

(** the constructors, 21-34 and 54-68, and createData *)
Definition tnew (a : 'cV[F]_t) : tcost := TCost (cnew (res_cost (res a) W true)).
Definition tcall (c : tcost) (o : call) : tcost :=
  match o with
  | Evaluate x u => TCost (res_eval W x u (tdata c))
  | Gradients x u => TCost (res_grads W x u (tdata c))
  | Hessians x u => TCost (odflt (tdata c) (res_hess W true x u (tdata c)))
  | SetTarget a =>
      let d := tdata c in
      TCost (RData (rbase d) (cast a (rres d)) (rWv d))
  end.
Definition tcalls (c : tcost) (l : seq call) : tcost := foldl tcall c l.
(** getTarget, 37, 71 *)
Definition getTarget (c : tcost) := target c.
End Target.

Section Costs.
Variables (F : fieldType) (n m : nat).
(** QuadraticStateCostTpl, 12-44 *)
Definition state_calls (W : 'M[F]_n) := tcalls (res := @state_error F n m) W (fun _ => erefl).
Definition state_new (W : 'M[F]_n) := tnew (@state_error F n m) W.
(** QuadraticControlCostTpl, 46-80; the constructor without a target (59-62) takes the neutral
    element, zero (modelling/state-error.hpp 102-105) *)
Definition control_calls (W : 'M[F]_m) := tcalls (res := @control_error F n m) W (fun _ => erefl).
Definition control_new (W : 'M[F]_m) := tnew (@control_error F n m) W.
Definition control_new0 (W : 'M[F]_m) := control_new W 0.
End Costs.
