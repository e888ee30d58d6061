(** Model of TrajOptProblem::evaluate and computeDerivatives
    (core/traj-opt-problem.hxx 49-123), StageModel::evaluate and derivatives
    (core/stage-model.hxx 43-75) and computeTrajectoryCost
    (core/traj-opt-data.hxx 31-48).

    The component functions (dynamics, costs, constraints) are arbitrary
    functions; costs are rationals (exact arithmetic: the [omp simd] reduction
    may add in any order).  Every call of a component is recorded in a log. *)
From Coq Require Import QArith List Arith.
Import ListNotations.
Open Scope nat_scope.

Section Problem.

Variables (X U V G H D : Type).   (* states, controls, values, gradients, Hessians, Jacobians *)

(** core/stage-model.hpp: a stage, with the number of constraints implicit. *)
Record stage := {
  dyn : X -> U -> X; dyn_jac : X -> U -> D;
  cstrs : list (X -> U -> V); cstrs_jac : list (X -> U -> D);
  scost : X -> U -> Q; scost_grad : X -> U -> G; scost_hess : X -> U -> H }.

(** core/stage-data.hpp. *)
Record stage_data := {
  xnext : X; dyn_J : D; cvals : list V; c_J : list D;
  value : Q; grad : G; hess : H }.

Record problem := {
  init_f : X -> V; init_jac : X -> D; stages : list stage;
  term : X -> Q; term_grad : X -> G; term_hess : X -> H;
  term_c : list (X -> V); term_c_jac : list (X -> D) }.

Record data := {
  init_value : V; init_J : D; sds : list stage_data;
  term_value : Q; term_G : G; term_H : H;
  term_cvals : list V; term_cJ : list D; cost : Q }.

(** Calls of user components; the second boolean is for derivatives. *)
Inductive call := CInit (x : X) | CStage (i : nat) (x : X) (u : U)
  | CTerm (x : X) | CTermC (k : nat) (x : X).

Inductive res := Throw (d : data) | UB | Ok (d : data) (log : list call).

(** stage-model.hxx 43-54. *)
Definition stage_evaluate (s : stage) (x : X) (u : U) (d : stage_data) : stage_data :=
  {| xnext := dyn s x u; dyn_J := dyn_J d;
     cvals := map (fun c => c x u) (cstrs s); c_J := c_J d;
     value := scost s x u; grad := grad d; hess := hess d |}.

(** stage-model.hxx 56-75. *)
Definition stage_derivatives (second : bool) (s : stage) (x : X) (u : U)
  (d : stage_data) : stage_data :=
  {| xnext := xnext d; dyn_J := dyn_jac s x u; cvals := cvals d;
     c_J := map (fun c => c x u) (cstrs_jac s); value := value d;
     grad := scost_grad s x u;
     hess := if second then scost_hess s x u else hess d |}.

Fixpoint upd {A} (i : nat) (a : A) (l : list A) : list A :=
  match l, i with
  | [], _ => []
  | _ :: t, 0 => a :: t
  | b :: t, S i => b :: upd i a t
  end.

(** One iteration of the parallel loop (hxx 69-71, 105-110); [None] for an
    access out of range. *)
Definition iter (f : stage -> X -> U -> stage_data -> stage_data)
  (p : problem) (xs : list X) (us : list U) (i : nat)
  (st : option (list stage_data * list call)) :=
  match st with
  | None => None
  | Some (d, log) =>
    match nth_error (stages p) i, nth_error xs i, nth_error us i, nth_error d i with
    | Some s, Some x, Some u, Some di =>
        Some (upd i (f s x u di) d, log ++ [CStage i x u])
    | _, _, _, _ => None
    end
  end.

(** traj-opt-data.hxx 31-48, the sum taken in the order [ord]. *)
Definition sum_order (ord : list nat) (d : list stage_data) : Q :=
  fold_left (fun acc i => match nth_error d i with
                          | Some x => (acc + value x)%Q
                          | None => acc end) ord 0%Q.
Definition trajectory_cost (ord : list nat) (d : list stage_data) (t : Q) : Q :=
  (sum_order ord d + t)%Q.

(** traj-opt-problem.hxx 49-83: [ord] is the order in which the iterations of
    the parallel loop take effect (C26: they do not interfere), [sord] the order
    of the reduction. *)
Definition evaluate (p : problem) (xs : list X) (us : list U) (d : data)
  (ord sord : list nat) : res :=
  let nsteps := length (stages p) in
  if negb (length xs =? nsteps + 1) then Throw d else
  if negb (length us =? nsteps) then Throw d else
  match xs, nth_error xs nsteps with
  | x0 :: _, Some xN =>
    match fold_left (fun st i => iter stage_evaluate p xs us i st) ord
            (Some (sds d, [CInit x0])) with
    | None => UB
    | Some (sd, log) =>
      Ok {| init_value := init_f p x0; init_J := init_J d; sds := sd;
            term_value := term p xN; term_G := term_G d; term_H := term_H d;
            term_cvals := map (fun c => c xN) (term_c p); term_cJ := term_cJ d;
            cost := trajectory_cost sord sd (term p xN) |}
         (log ++ [CTerm xN] ++ map (fun k => CTermC k xN) (seq 0 (length (term_c p))))
    end
  | _, _ => UB
  end.

(** traj-opt-problem.hxx 85-123. *)
Definition computeDerivatives (p : problem) (xs : list X) (us : list U) (d : data)
  (ord : list nat) (second : bool) : res :=
  let nsteps := length (stages p) in
  if negb (length xs =? nsteps + 1) then Throw d else
  if negb (length us =? nsteps) then Throw d else
  match xs, nth_error xs nsteps with
  | x0 :: _, Some xN =>
    match fold_left (fun st i => iter (stage_derivatives second) p xs us i st) ord
            (Some (sds d, [CInit x0])) with
    | None => UB
    | Some (sd, log) =>
      Ok {| init_value := init_value d; init_J := init_jac p x0; sds := sd;
            term_value := term_value d; term_G := term_grad p xN;
            term_H := if second then term_hess p xN else term_H d;
            term_cvals := term_cvals d;
            term_cJ := map (fun c => c xN) (term_c_jac p); cost := cost d |}
         (log ++ [CTerm xN] ++ map (fun k => CTermC k xN) (seq 0 (length (term_c_jac p))))
    end
  | _, _ => UB
  end.

End Problem.
