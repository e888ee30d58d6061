(** Model of the OpenMP parallel regions of the library.

    A region is a pool of threads; a thread is a list of actions run in order; an
    execution interleaves the actions of the threads arbitrarily.  An action has
    a read set, a write set and an effect on the store.  Splitting an action
    into smaller ones with footprints inside its own gives another pool covered
    by the same theorems, so the grain (one kernel call) is not a restriction.

    Regions modelled:
    - TrajOptProblem::evaluate / computeDerivatives,
      /repo/include/aligator/core/traj-opt-problem.hxx 67-71 and 103-109:
      iteration i runs const methods of stages_[i] on xs[i], us[i] and the data
      object of stage i (stage-model.hxx 43-73 only touch members of that data
      object; there are no mutable members in the models called here);
    - SolverFDDP::computeInfeasibility,
      /repo/include/aligator/solvers/fddp/solver-fddp.hxx 178-184;
    - ParallelRiccatiSolver::backward and forward,
      /repo/include/aligator/gar/parallel-solver.hxx 150-164 and 224-243, with
      the loops of riccati-kernel.hxx 104-129 and 314-377.
    The effect of every step is an arbitrary function of what it reads.  Not
    modelled: exceptions leaving a region, a team smaller than requested (the
    thread ids are 0 .. numThreads - 1), the tracing calls. *)
From Coq Require Import List Arith NArith Bool.
From Verif Require Import WorkModel.
Import ListNotations.

Section Pool.
Variables (loc val : Type).
Definition store := loc -> val.
Record action := Act { reads : loc -> bool; writes : loc -> bool; run : store -> store }.
Definition thread := list action.
Definition pool := list thread.

(** one step of some thread *)
Inductive step : pool * store -> pool * store -> Prop :=
| Step P a th P' s : step (P ++ (a :: th) :: P', s) (P ++ th :: P', run a s).
Definition finished (P : pool) := Forall (fun th => th = []) P.
(** a complete execution of the region *)
Inductive exec : pool -> store -> store -> Prop :=
| Done P s : finished P -> exec P s s
| Next P s P' s1 s' : step (P, s) (P', s1) -> exec P' s1 s' -> exec P s s'.

(** one thread alone; the threads one after the other *)
Definition solo (th : thread) (s : store) : store := fold_left (fun s a => run a s) th s.
Definition sequential (P : pool) (s : store) : store := fold_left (fun s th => solo th s) P s.
End Pool.
Arguments Act {loc val}.

(** ** evaluate / computeDerivatives *)
Inductive evloc := EvX (i : nat) | EvU (i : nat) | EvData (i : nat).
Definition evloc_eqb (a b : evloc) : bool :=
  match a, b with
  | EvX i, EvX j | EvU i, EvU j | EvData i, EvData j => i =? j
  | _, _ => false
  end.
Section Eval.
Variable val : Type.
(** stages_[i]->evaluate(xs[i], us[i], *sds[i]): new content of sds[i] *)
Variable stage_eval : nat -> val -> val -> val -> val.
Definition eval_iter (i : nat) : action evloc val :=
  Act (fun l => evloc_eqb l (EvX i) || evloc_eqb l (EvU i) || evloc_eqb l (EvData i))
      (fun l => evloc_eqb l (EvData i))
      (fun s l => if evloc_eqb l (EvData i)
                  then stage_eval i (s (EvX i)) (s (EvU i)) (s (EvData i)) else s l).
End Eval.

(** ** computeInfeasibility of FDDP *)
Inductive fdloc := FdX (i : nat) | FdData (i : nat) | FdF (i : nat).
Definition fdloc_eqb (a b : fdloc) : bool :=
  match a, b with
  | FdX i, FdX j | FdData i, FdData j | FdF i, FdF j => i =? j
  | _, _ => false
  end.
Section Infeas.
Variable val : Type.
Variable difference : nat -> val -> val -> val.
Definition infeas_iter (i : nat) : action fdloc val :=
  Act (fun l => fdloc_eqb l (FdX (S i)) || fdloc_eqb l (FdData i))
      (fun l => fdloc_eqb l (FdF (S i)))
      (fun s l => if fdloc_eqb l (FdF (S i)) then difference i (s (FdX (S i))) (s (FdData i)) else s l).
End Infeas.

(** ** the two regions of the parallel Riccati solver *)
Inductive rcloc :=
| Stage (t : nat) | Datas (t : nat) | Xs (t : nat) | Us (t : nat) | Vs (t : nat) | Ls (t : nat).
Definition rcloc_eqb (a b : rcloc) : bool :=
  match a, b with
  | Stage i, Stage j | Datas i, Datas j | Xs i, Xs j | Us i, Us j | Vs i, Vs j | Ls i, Ls j => i =? j
  | _, _ => false
  end.
Section Riccati.
Variable val : Type.
(** terminalSolve(stage, datas[t]); stageKernelSolve(stage, datas[t], datas[t+1].vm):
    new content of datas[t] and of datas[t+1] *)
Variable terminal : val -> val -> val.
Variable kernel : val -> val -> val -> val * val.
Definition bwd_last (t : nat) : action rcloc val :=
  Act (fun l => rcloc_eqb l (Stage t) || rcloc_eqb l (Datas t))
      (fun l => rcloc_eqb l (Datas t))
      (fun s l => if rcloc_eqb l (Datas t) then terminal (s (Stage t)) (s (Datas t)) else s l).
Definition bwd_step (t : nat) : action rcloc val :=
  Act (fun l => rcloc_eqb l (Stage t) || rcloc_eqb l (Datas t) || rcloc_eqb l (Datas (S t)))
      (fun l => rcloc_eqb l (Datas t) || rcloc_eqb l (Datas (S t)))
      (fun s l => let r := kernel (s (Stage t)) (s (Datas t)) (s (Datas (S t))) in
                  if rcloc_eqb l (Datas t) then fst r
                  else if rcloc_eqb l (Datas (S t)) then snd r else s l).
(** backwardImpl on the knots beg .. beg + len - 1 *)
Definition bwd_leg (beg len : nat) : thread rcloc val :=
  match len with
  | O => []
  | S n => bwd_last (beg + n) :: map (fun j => bwd_step (beg + (n - 1 - j))) (seq 0 n)
  end.
(** forwardImpl, step t: u, v, and unless t is the last knot of the leg
    xs[t+1], lbdas[t+1].  [th] is [Some end] when theta is lbdas[end]. *)
Variable ulaw vlaw : val -> val -> val -> option val -> val.   (* stage, data, x, theta *)
Variable xlaw : val -> val -> val -> option val -> val.
Variable llaw : val -> val -> option val -> val.               (* next data, x', theta *)
Definition theta (th : option nat) (s : store rcloc val) : option val :=
  match th with Some e => Some (s (Ls e)) | None => None end.
Definition reads_theta (th : option nat) (l : rcloc) : bool :=
  match th with Some e => rcloc_eqb l (Ls e) | None => false end.
Definition fwd_uv (th : option nat) (t : nat) : action rcloc val :=
  Act (fun l => rcloc_eqb l (Stage t) || rcloc_eqb l (Datas t) || rcloc_eqb l (Xs t) || reads_theta th l)
      (fun l => rcloc_eqb l (Us t) || rcloc_eqb l (Vs t))
      (fun s l => if rcloc_eqb l (Us t) then ulaw (s (Stage t)) (s (Datas t)) (s (Xs t)) (theta th s)
                  else if rcloc_eqb l (Vs t) then vlaw (s (Stage t)) (s (Datas t)) (s (Xs t)) (theta th s)
                  else s l).
Definition fwd_next (th : option nat) (t : nat) : action rcloc val :=
  Act (fun l => rcloc_eqb l (Stage t) || rcloc_eqb l (Datas t) || rcloc_eqb l (Datas (S t))
                || rcloc_eqb l (Xs t) || reads_theta th l)
      (fun l => rcloc_eqb l (Xs (S t)) || rcloc_eqb l (Ls (S t)))
      (fun s l => let x' := xlaw (s (Stage t)) (s (Datas t)) (s (Xs t)) (theta th s) in
                  if rcloc_eqb l (Xs (S t)) then x'
                  else if rcloc_eqb l (Ls (S t)) then llaw (s (Datas (S t))) x' (theta th s)
                  else s l).
Definition fwd_leg (th : option nat) (beg len : nat) : thread rcloc val :=
  flat_map (fun j => if S j <? len then [fwd_uv th (beg + j); fwd_next th (beg + j)]
                     else [fwd_uv th (beg + j)]) (seq 0 len).
(** the threads, with the ranges of get_work (158 and 226) *)
Definition wbeg (N nt i : nat) : nat := N.to_nat (fst (get_work (N.of_nat N) (N.of_nat i) (N.of_nat nt))).
Definition wend (N nt i : nat) : nat := N.to_nat (snd (get_work (N.of_nat N) (N.of_nat i) (N.of_nat nt))).
Definition bwd_pool (N nt : nat) : pool rcloc val :=
  map (fun i => bwd_leg (wbeg N nt i) (wend N nt i - wbeg N nt i)) (seq 0 nt).
Definition fwd_pool (N nt : nat) : pool rcloc val :=
  map (fun i => fwd_leg (if i <? nt - 1 then Some (wend N nt i) else None)
                        (wbeg N nt i) (wend N nt i - wbeg N nt i)) (seq 0 nt).
End Riccati.
