(** Model of the warm start: core/traj-opt-problem.hpp 65-87, 244-344 and the
    multiplier guess of solver-proxddp.hxx 441-450.  Vectors are lists, so
    "same dims" is "same length". *)
From Coq Require Import QArith List Bool Arith.
Import ListNotations.
Open Scope nat_scope.

Definition vec := list Q.

(** traj-opt-problem.hpp 67-87: assign_no_resize(lhs, rhs), returned together
    with the new contents of [rhs], which is written entry by entry. *)
Fixpoint assign_loop (lhs rhs : list vec) : bool * list vec :=
  match lhs, rhs with
  | a :: lhs', b :: rhs' =>
      if length a =? length b then
        let (ok, r) := assign_loop lhs' rhs' in (ok, a :: r)
      else (false, rhs)
  | _, _ => (true, rhs)
  end.
Definition assign_no_resize (lhs rhs : list vec) : bool * list vec :=
  if length lhs =? length rhs then assign_loop lhs rhs else (false, rhs).

(** The neutral elements of the spaces of a stage. *)
Record stage := { x_neutral : vec; x_next_neutral : vec; u_neutral : vec }.

(** A problem: initial state if the initial condition is a state error, stages,
    and the initialisation strategy for the states if the user replaced the
    default (traj-opt-problem.hpp 231-240). *)
Record problem := { init_state : option vec; stages : list stage;
                    strategy : option (list vec -> list vec) }.

Inductive outcome := Done (xs us : list vec) | Raised (xs us : list vec).

(** traj-opt-problem.hpp 282-303: xs_default_init; [None] if it raises. *)
Definition xs_default_init (p : problem) : option (list vec) :=
  let tail := map x_next_neutral (stages p) in
  match init_state p with
  | Some x0 => Some (x0 :: tail)
  | None => match stages p with
            | [] => None
            | s :: _ => Some (x_neutral s :: tail)
            end
  end.

(** traj-opt-problem.hpp 305-316: us_default_init. *)
Definition us_default_init (p : problem) : list vec := map u_neutral (stages p).

(** traj-opt-problem.hpp 244-248: initializeSolution(xs, us).  When the default
    initialisation raises, [xs] has been resized to one vector. *)
Definition initializeSolution (p : problem) (xs us : list vec) : outcome :=
  match strategy p with
  | Some f => Done (f xs) (us_default_init p)
  | None => match xs_default_init p with
            | Some xs' => Done xs' (us_default_init p)
            | None => Raised (firstn 1 (xs ++ [[]])) us
            end
  end.

(** traj-opt-problem.hpp 327-344: check_initial_guess_and_assign; [xs_out] and
    [us_out] are the contents of the output before the call. *)
Definition check_initial_guess_and_assign (p : problem)
  (xs_in us_in xs_out us_out : list vec) : outcome :=
  match xs_in with
  | [] => initializeSolution p xs_out us_out
  | _ =>
    match us_in with
    | [] => Done xs_out (us_default_init p)
    | _ =>
      let (okx, xs) := assign_no_resize xs_in xs_out in
      if okx then
        let (oku, us) := assign_no_resize us_in us_out in
        if oku then Done xs us else Raised xs us
      else Raised xs us_out
    end
  end.

(** solver-proxddp.hxx 443-450: the guess of one family of multipliers; the
    boolean is the warning. *)
Definition guess_multipliers (init out : list vec) : bool * list vec :=
  match init with
  | [] => (false, out)
  | _ => let (ok, r) := assign_no_resize init out in (negb ok, r)
  end.
