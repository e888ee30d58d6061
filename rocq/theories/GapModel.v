(** Model of the FDDP forward pass and of the dynamics gaps,
    /repo/include/aligator/solvers/fddp/solver-fddp.hxx 59-119 and 168-188.

    States of stage [i] are points of a type [X i] with tangent module [V i];
    vector-space states are the case [X i = V i], integrate = addition.  Costs
    and NaN checks (which raise) are not part of this file. *)
From mathcomp Require Import all_ssreflect all_algebra.
Set Implicit Arguments.
Unset Strict Implicit.
Import GRing.Theory.
Local Open Scope ring_scope.

Section Gap.
Variable R : ringType.
Variables (X : nat -> Type) (V : nat -> lmodType R).
Variables (U : nat -> Type) (W : nat -> lmodType R).
(** the manifolds of each stage *)
Variable integrate : forall i, X i -> V i -> X i.
Variable difference : forall i, X i -> X i -> V i.
Variable uintegrate : forall i, U i -> W i -> U i.
(** explicit dynamics x_{i+1} = f_i(x_i, u_i) ([dd.xnext_]) and the initial
    state of the problem *)
Variable dyn : forall i, X i -> U i -> X i.+1.
Variable xinit : X 0.

(** [computeInfeasibility], 168-188: [fs] *)
Definition slack (xs : forall i, X i) (us : forall i, U i) (i : nat) : V i :=
  match i with
  | 0 => difference (xs 0%N) xinit
  | j.+1 => difference (xs j.+1) (dyn (xs j) (us j))
  end.

Section Pass.
Variables (xs : forall i, X i) (us : forall i, U i) (fs : forall i, V i).
Variables (ff : forall i, W i) (fb : forall i, V i -> W i).
Variable alpha : R.

(** trial control of stage [i] from its [dxs], 85-87 *)
Definition utry (i : nat) (dx : V i) : U i := uintegrate (us i) (alpha *: ff i + fb dx).

(** (xs_try[i], dxs[i]); initial point 70-74, loop 77-104 *)
Fixpoint fwd (i : nat) : X i * V i :=
  match i with
  | 0 => (integrate (xs 0%N) (alpha *: fs 0%N), alpha *: fs 0%N)
  | j.+1 =>
      let x := integrate (dyn (fwd j).1 (utry (fwd j).2)) ((alpha - 1) *: fs j.+1) in
      (x, difference (xs j.+1) x)
  end.
Definition xs_try i := (fwd i).1.
Definition us_try i := utry (fwd i).2.
End Pass.
End Gap.
