(** Property C20: the FDDP backward pass solves the LQ subproblem. *)
From mathcomp Require Import all_ssreflect all_algebra.
From Verif Require Import MxRing FddpLqModel FddpLqProofs.
Set Implicit Arguments.
Unset Strict Implicit.
Import Order.Theory GRing.Theory Num.Theory.
Local Open Scope ring_scope.

(** C20: for symmetric data such that every factorised matrix is positive
    definite, and every deviation f + y of the first state around its gap [f]:
    following the gains costs v + Vx^T y + y^T Vxx y / 2 with the stored Vx,
    Vxx, and no control sequence costs less.  [v] does not depend on [y].
    (The regularisation preg enters the LQ problem as preg/2 |.|^2 on states and
    controls; preg = 0 is the plain LQ problem.) *)
Theorem C20_optimal_policy : forall (R : realFieldType) (preg : R) n (c : chain R n),
  symmetric c -> definite preg c ->
  forall f, exists v, forall y,
    @cost R preg n c (f + y) (follow (gains preg c) (f + y)) =
      v + quad (backward preg c f).1 (backward preg c f).2 y /\
    forall us, v + quad (backward preg c f).1 (backward preg c f).2 y <= @cost R preg n c (f + y) us.
Proof. exact: backward_value. Qed.
Print Assumptions C20_optimal_policy.

(** C20: with a positive regularisation, positive semidefinite cost Hessians
    are enough. *)
Theorem C20_convex : forall (R : realFieldType) (preg : R) n (c : chain R n), 0 < preg -> convex c ->
  forall f, exists v, forall y,
    @cost R preg n c (f + y) (follow (gains preg c) (f + y)) =
      v + quad (backward preg c f).1 (backward preg c f).2 y /\
    forall us, v + quad (backward preg c f).1 (backward preg c f).2 y <= @cost R preg n c (f + y) us.
Proof.
move=> R preg n c p0 C f; have [S D _] := backward_psd f p0 C.
exact: backward_value.
Qed.
Print Assumptions C20_convex.

(** Witness: a two-stage problem whose state dimension changes from 2 to 1. *)
Definition stage1 : stage rat_realFieldType 2 1 1 :=
  Stage (const_mx 3%:Q) 1%:M (const_mx 1) (const_mx 2%:Q).
Definition stage2 : stage rat_realFieldType 1 2 1 :=
  Stage (const_mx (-1)) (block_mx 1%:M 0 0 0) (const_mx 5%:Q) (const_mx 1).
Definition prob : chain rat_realFieldType 2 :=
  Cons stage1 (Cons stage2 (@Term _ 1 (const_mx 7%:Q) (2%:Q)%:M)).
Example C20_witness : convex prob.
Proof.
split; last split.
- split; first exact: tr_scalar_mx.
  by move=> x; rewrite /qf mul1mx dot_ge0.
- split; first by rewrite tr_block_mx !trmx0 tr_scalar_mx.
  move=> x; rewrite -[x]vsubmxK /qf mul_block_col mul1mx !mul0mx !addr0 dot_col dot0r addr0.
  exact: dot_ge0.
- split; first exact: tr_scalar_mx.
  by move=> x; rewrite /qf dot_id mulr_ge0 // dot_ge0.
Qed.
Example C20_witness_gains : forall f, exists v, forall y us,
  v + quad (backward 1 prob f).1 (backward 1 prob f).2 y <= @cost _ 1 _ prob (f + y) us.
Proof.
by move=> f; have [v H] := C20_convex ltr01 C20_witness f; exists v => y us; have [_] := H y.
Qed.
