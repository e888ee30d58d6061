(** Model of tryLinearStep and tryNonlinearRollout,
    /repo/include/aligator/solvers/proxddp/solver-proxddp.hxx 110-155 and
    322-416.

    Points, tangent vectors and multipliers are elements of arbitrary types with
    a scaling and an addition; the manifolds of a stage are an [integrate] and a
    [difference]; dynamics, gains and NaN tests are arbitrary functions.  Trial
    buffers of the right sizes are given (Workspace constructor).  The values
    returned (cost of the trial point) are those of C32. *)
From Coq Require Import List Arith Bool.
Import ListNotations.
Set Implicit Arguments.

Section Step.
(** scalars, points of the state space, controls, tangent vectors of both,
    multipliers of constraints and dynamics *)
Variables F X U TX TU V L : Type.
Variable sx : F -> TX -> TX.
Variable su : F -> TU -> TU.
Variable sv : F -> V -> V.
Variable sl : F -> L -> L.
Variable addu : TU -> TU -> TU.
Variable addv : V -> V -> V.
Variable addl : L -> L -> L.
(** ALIGATOR_RAISE_IF_NAN_NAME *)
Variable nanx : X -> bool.
Variable nanu : U -> bool.
Variable nanl : L -> bool.

(** StageModel: xspace, uspace, xspace_next, dynamics, and the gains of the
    linear solver at this stage: getFeedforward(t), getFeedback(t) split in
    blocks (nu, nc, ndx2). *)
Record stage := Stage {
  xint : X -> TX -> X; uint_ : U -> TU -> U;
  xnint : X -> TX -> X; xndiff : X -> X -> TX;
  dyn : X -> U -> X;
  kff : TU; Kfb : TX -> TU; zff : V; Zfb : TX -> V }.

Record iterate := Iterate { xs : list X; us : list U; vs : list V; lams : list L }.
Record dirs := Dirs { dxs : list TX; dus : list TU; dvs : list V; dlams : list L }.

Fixpoint zip2 {A B C} (f : A -> B -> C) (a : list A) (b : list B) : list C :=
  match a, b with x :: a', y :: b' => f x y :: zip2 f a' b' | _, _ => nil end.

(** The loop 137-147, over the stages; the terminal state 148-152 is integrated
    with the [xspace_next_] of the last stage. *)
Fixpoint lin_states (st : list stage) (alpha : F) (x : list X) (dx : list TX) : list X :=
  match st, x, dx with
  | s :: st', x0 :: x', d0 :: d' =>
      let xi := xint s x0 (sx alpha d0) in
      match st', x', d' with
      | nil, xN :: _, dN :: _ => [xi; xnint s xN (sx alpha dN)]
      | _, _, _ => xi :: lin_states st' alpha x' d'
      end
  | _, _, _ => nil
  end.
Fixpoint lin_controls (st : list stage) (alpha : F) (u : list U) (du : list TU) : list U :=
  match st, u, du with
  | s :: st', u0 :: u', d0 :: d' => uint_ s u0 (su alpha d0) :: lin_controls st' alpha u' d'
  | _, _, _ => nil
  end.
(** [None]: [problem.stages_[nsteps - 1]] without stages. *)
Definition tryLinearStep (st : list stage) (alpha : F) (r : iterate) (w : dirs) : option iterate :=
  let lams' := zip2 (fun l d => addl l (sl alpha d)) (lams r) (dlams w) in
  let vs' := zip2 (fun v d => addv v (sv alpha d)) (vs r) (dvs w) in
  match st with
  | nil => None
  | _ => Some (Iterate (lin_states st alpha (xs r) (dxs w))
                       (lin_controls st alpha (us r) (dus w)) vs' lams')
  end.

(** The loop 350-385 from a stage on: [x] is xs[t], [dx] is dxs[t]; the lists
    are results_.us, .vs, .xs (from t+1 on), .lams and dlams (from t+1 on).
    Gives xs, us, dxs, dus, dvs, vs, lams written; [None] is an exception. *)
Record written := Written {
  w_xs : list X; w_us : list U; w_vs : list V; w_lams : list L;
  w_dxs : list TX; w_dus : list TU; w_dvs : list V }.
Fixpoint roll (st : list stage) (alpha : F) (x : X) (dx : TX)
  (ru : list U) (rv : list V) (rx : list X) (rl : list L) (dl : list L) : option written :=
  match st, ru, rv, rx, rl, dl with
  | s :: st', u0 :: ru', v0 :: rv', x1 :: rx', l1 :: rl', dl1 :: dl' =>
      let du := addu (su alpha (kff s)) (Kfb s dx) in
      let u := uint_ s u0 du in
      let dv := addv (sv alpha (zff s)) (Zfb s dx) in
      let v := addv v0 dv in
      let xn := dyn s x u in
      let dxn := xndiff s x1 xn in
      let ln := addl l1 (sl alpha dl1) in
      if nanx xn || nanu u || nanl ln then None else
      match roll st' alpha xn dxn ru' rv' rx' rl' dl' with
      | None => None
      | Some w => Some (Written (xn :: w_xs w) (u :: w_us w) (v :: w_vs w) (ln :: w_lams w)
                                (dxn :: w_dxs w) (du :: w_dus w) (dv :: w_dvs w))
      end
  | _, _, _, _, _, _ => Some (Written nil nil nil nil nil nil nil)
  end.

(** gains of the terminal node, present if there are terminal constraints *)
Definition tgain := option (V * (TX -> V))%type.

(** tryNonlinearRollout.  [prev]: trial buffers before the call; [vs[nsteps]] is
    only written with terminal constraints. *)
Definition tryNonlinearRollout (st : list stage) (tg : tgain) (alpha : F) (r : iterate)
  (w : dirs) (prev : iterate) : option (iterate * dirs) :=
  match st, xs r, dxs w, lams r, dlams w with
  | s :: _, x0 :: rx, dx0 :: _, l0 :: rl, dl0 :: dl =>
      let x := xint s x0 (sx alpha dx0) in
      if nanx x then None else
      match roll st alpha x dx0 (us r) (vs r) rx rl dl with
      | None => None
      | Some o =>
          let dxN := last (w_dxs o) dx0 in
          let n := length st in
          match tg with
          | None =>
              Some (Iterate (x :: w_xs o) (w_us o) (w_vs o ++ skipn n (vs prev))
                            (addl l0 (sl alpha dl0) :: w_lams o),
                    Dirs (dx0 :: w_dxs o) (w_dus o) (w_dvs o ++ skipn n (dvs w)) (dlams w))
          | Some (zffN, ZfbN) =>
              let dvN := addv (sv alpha zffN) (ZfbN dxN) in
              let vN := zip2 addv (skipn n (vs r)) [dvN] in
              Some (Iterate (x :: w_xs o) (w_us o) (w_vs o ++ vN)
                            (addl l0 (sl alpha dl0) :: w_lams o),
                    Dirs (dx0 :: w_dxs o) (w_dus o) (w_dvs o ++ [dvN]) (dlams w))
          end
      end
  | _, _, _, _, _ => None
  end.
End Step.
