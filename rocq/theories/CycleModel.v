(** Model of receding-horizon cycling: utils/mpc-util.hpp,
    core/traj-opt-problem.hxx (replaceStageCircular, checkIntegrity),
    proxddp/results.hxx, proxddp/workspace.hxx, gar/proximal-riccati.hxx,
    solver-proxddp.hxx (cycleProblem), workspace-base.hpp.

    Vectors are lists of rationals; [std::vector] is [list].  Out-of-range
    accesses and empty rotations are [UB]; exceptions are [Throw]. *)
From Coq Require Import QArith List Bool Arith.
Import ListNotations.
Open Scope nat_scope.

Inductive res (A : Type) := Ok (a : A) | Throw | UB.
Arguments Ok {A}. Arguments Throw {A}. Arguments UB {A}.

Definition bind {A B} (r : res A) (f : A -> res B) : res B :=
  match r with Ok a => f a | Throw => Throw | UB => UB end.
Notation "'do' x <- r ; k" := (bind r (fun x => k))
  (at level 200, x name, r at level 100, k at level 200).

Definition vec := list Q.
Definition mat := list vec.
Definition zerov (n : nat) : vec := repeat 0%Q n.
Definition zerom (r c : nat) : mat := repeat (zerov c) r.

(** [v[i] = a] on a [std::vector]. *)
Fixpoint set_nth {A} (i : nat) (a : A) (l : list A) : res (list A) :=
  match l, i with
  | [], _ => UB
  | _ :: t, 0 => Ok (a :: t)
  | b :: t, S i => do t' <- set_nth i a t; Ok (b :: t')
  end.

(** [v.front() = v.back()]. *)
Definition front_gets_back {A} (l : list A) : res (list A) :=
  match l with [] => UB | a :: t => Ok (last (a :: t) a :: t) end.

(** utils/mpc-util.hpp 16-22: [rotate_vec_left(v, n_head, n_tail)], that is
    [std::rotate(beg, beg + 1, end)] on the range without the first [n_head]
    and last [n_tail] elements; [beg + 1] is past [end] when that range is
    empty (undefined behaviour). *)
Definition rotate_vec_left {A} (v : list A) (n_head n_tail : nat) : res (list A) :=
  if n_head + n_tail <? length v then
    let mid := firstn (length v - n_head - n_tail) (skipn n_head v) in
    match mid with
    | [] => UB
    | a :: t => Ok (firstn n_head v ++ (t ++ [a]) ++ skipn (length v - n_tail) v)
    end
  else UB.

(** core/stage-model.hpp: the dimensions of a stage; [sid] tells stages apart. *)
Record stage := { sid : nat; s_nx1 : nat; s_nx2 : nat; s_ndx1 : nat;
                  s_ndx2 : nat; s_nu : nat; s_nc : nat }.

(** core/traj-opt-problem.hpp: the parts of a problem used when cycling.  The
    initial condition is a StateErrorResidual with target [p_x0] (otherwise
    [getInitState] raises, hpp 166-172: [p_x0 = None]); [p_term_nc = None] when
    there is no terminal constraint; the flag cached by
    [init_cond_is_state_error_] is taken to be right. *)
Record problem := { p_x0 : option vec; p_init_nr : nat; p_init_ndx : nat;
                    p_stages : list stage; p_term_nc : option nat;
                    p_term_nx : nat; p_term_ndx : nat }.

(** traj-opt-problem.hxx 125-128, 166-174: addStage, replaceStageCircular. *)
Definition replaceStageCircular (p : problem) (m : stage) : res (stage * problem) :=
  do st <- rotate_vec_left (p_stages p ++ [m]) 0 0;
  Ok (last st m,
      {| p_x0 := p_x0 p; p_init_nr := p_init_nr p; p_init_ndx := p_init_ndx p;
         p_stages := removelast st; p_term_nc := p_term_nc p;
         p_term_nx := p_term_nx p; p_term_ndx := p_term_ndx p |}).

(** traj-opt-problem.hpp 174-182: setInitState. *)
Definition setInitState (p : problem) (x0 : vec) : res problem :=
  match p_x0 p with
  | None => Throw
  | Some _ =>
    Ok {| p_x0 := Some x0; p_init_nr := p_init_nr p; p_init_ndx := p_init_ndx p;
          p_stages := p_stages p; p_term_nc := p_term_nc p;
          p_term_nx := p_term_nx p; p_term_ndx := p_term_ndx p |}
  end.

(** traj-opt-problem.hxx 130-159: checkIntegrity (no moved-from stages). *)
Fixpoint linked (s : stage) (l : list stage) (nx ndx : nat) : bool :=
  match l with
  | [] => (s_nx2 s =? nx) && (s_ndx2 s =? ndx)
  | s' :: t => (s_nx2 s =? s_nx1 s') && (s_ndx2 s =? s_ndx1 s') && linked s' t nx ndx
  end.
Definition checkIntegrity (p : problem) : bool :=
  match p_stages p with
  | [] => true
  | s :: t => (s_ndx1 s =? p_init_ndx p) && linked s t (p_term_nx p) (p_term_ndx p)
  end.

(** traj-opt-problem.hpp, internal::problem_last_ndx_helper. *)
Definition last_ndx (p : problem) : nat := p_term_ndx p.

(** solvers/results-base.hpp, proxddp/results.hpp. *)
Record results := { xs : list vec; us : list vec; vs : list vec;
                    lams : list vec; gains : list mat }.

(** proxddp/results.hxx 43-77: Results::cycleAppend. *)
Definition results_cycle (p : problem) (x0 : vec) (r : results) : res results :=
  do xs1 <- front_gets_back (xs r);
  do us1 <- front_gets_back (us r);
  do xs2 <- rotate_vec_left xs1 0 0;
  do us2 <- rotate_vec_left us1 0 0;
  do vs2 <- rotate_vec_left (vs r) 0 1;
  do lams2 <- rotate_vec_left (lams r) 0 0;
  do gains2 <- rotate_vec_left (gains r) 0 1;
  do xs3 <- set_nth 0 x0 xs2;
  let nsteps := length (p_stages p) in
  match rev (p_stages p) with
  | [] => UB
  | sm :: _ =>
    do gains3 <- set_nth (nsteps - 1)
                   (zerom (s_nu sm + s_nc sm + s_ndx2 sm) (s_ndx1 sm + 1)) gains2;
    do vs3 <- set_nth (nsteps - 1) (zerov (s_nc sm)) vs2;
    do lams3 <- set_nth nsteps (zerov (s_ndx2 sm)) lams2;
    do lams4 <- set_nth 0 (zerov (p_init_nr p)) lams3;
    match p_term_nc p with
    | None => Ok {| xs := xs3; us := us2; vs := vs3; lams := lams4; gains := gains3 |}
    | Some nc =>
      do gains4 <- set_nth nsteps (zerom nc (last_ndx p + 1)) gains3;
      do vs4 <- set_nth nsteps (zerov nc) vs3;
      Ok {| xs := xs3; us := us2; vs := vs4; lams := lams4; gains := gains4 |}
    end
  end.

Section Workspace.

(** Stage data and per-stage objects built from a stage (workspace.hxx 54-76):
    only identity matters. *)
Variables (sdata knot pset pjac factor : Type).
Variable mk_knot : stage -> knot.
Variable mk_pset : stage -> pset.
Variable mk_pjac : stage -> pjac.
Variable mk_factor : knot -> factor.

Record workspace := {
  nsteps : nat; stage_data : list sdata;
  trial_xs : list vec; trial_us : list vec; trial_vs : list vec;
  trial_lams : list vec; prev_xs : list vec; prev_us : list vec;
  prev_vs : list vec; knots : list knot; psets : list pset;
  pjacs : list pjac; active : list (list bool) }.

(** proxddp/workspace.hxx 96-155: Workspace::cycleAppend.  The buffers which
    are reset to zero or copied from the ones below (lines 117-124, 141-154)
    are left out. *)
Definition workspace_cycle (p : problem) (d : sdata) (w : workspace)
  : res workspace :=
  let n := nsteps w in
  do sd1 <- rotate_vec_left (stage_data w) 0 0;
  do sd2 <- set_nth (n - 1) d sd1;
  match nth_error (p_stages p) (n - 1) with
  | None => UB
  | Some st =>
    if negb (checkIntegrity p) then Throw else
    do txs <- rotate_vec_left (trial_xs w) 1 0;
    do tus <- rotate_vec_left (trial_us w) 1 0;
    do tvs <- rotate_vec_left (trial_vs w) 0 1;
    do tvs' <- set_nth (n - 1) (zerov (s_nc st)) tvs;
    do tls <- rotate_vec_left (trial_lams w) 1 0;
    do pxs <- rotate_vec_left (prev_xs w) 0 0;
    do pus <- rotate_vec_left (prev_us w) 0 0;
    do pvs <- rotate_vec_left (prev_vs w) 0 1;
    do pvs' <- set_nth (n - 1) (zerov (s_nc st)) pvs;
    do kn <- rotate_vec_left (knots w) 0 1;
    do kn' <- set_nth (n - 1) (mk_knot st) kn;
    do ps <- rotate_vec_left (psets w) 0 1;
    do ps' <- set_nth (n - 1) (mk_pset st) ps;
    do pj <- rotate_vec_left (pjacs w) 0 1;
    do pj' <- set_nth (n - 1) (mk_pjac st) pj;
    do ac <- rotate_vec_left (active w) 0 1;
    do ac' <- set_nth (n - 1) (repeat false (s_nc st)) ac;
    Ok {| nsteps := n; stage_data := sd2; trial_xs := txs; trial_us := tus;
          trial_vs := tvs'; trial_lams := tls; prev_xs := pxs; prev_us := pus;
          prev_vs := pvs'; knots := kn'; psets := ps'; pjacs := pj';
          active := ac' |}
  end.

(** gar/proximal-riccati.hxx 78-86: ProximalRiccatiSolver::cycleAppend on the
    stage factors ([datas], [N] = horizon - 1). *)
Definition solver_cycle (k : knot) (horizon : nat) (datas : list factor)
  : res (list factor) :=
  do d <- rotate_vec_left datas 0 1;
  set_nth (horizon - 1) (mk_factor k) d.

Record state := { prob : problem; rs : results; ws : workspace;
                  datas : list factor }.

(** One MPC step (tests/mpc-cycle.cpp 182-200): replaceStageCircular, a new
    initial state, then solver-proxddp.hxx 201-209 (cycleProblem). *)
Definition cycle (s : state) (m : stage) (d : sdata) (x0 : vec) : res state :=
  do mp <- replaceStageCircular (prob s) m;
  do p <- setInitState (snd mp) x0;
  match p_x0 p with
  | None => Throw
  | Some x =>
    do r <- results_cycle p x (rs s);
    do w <- workspace_cycle p d (ws s);
    match nth_error (knots w) (nsteps w - 1) with
    | None => UB
    | Some k =>
      do ds <- solver_cycle k (length (knots w) - 1) (datas s);
      Ok {| prob := p; rs := r; ws := w; datas := ds |}
    end
  end.

Fixpoint cycles (s : state) (l : list (stage * sdata * vec)) : res state :=
  match l with
  | [] => Ok s
  | (m, d, x0) :: t => do s' <- cycle s m d x0; cycles s' t
  end.

(** workspace-base.hpp 52-56, 69-76: the cycleAppend of the base workspace
    (used by FDDP): (stage_data, trial_xs, trial_us, dyn_slacks). *)
Definition base_cycle (d : sdata) (w : list sdata * list vec * list vec * list vec)
  : res (list sdata * list vec * list vec * list vec) :=
  let '(sd, x, u, f) := w in
  do sd1 <- rotate_vec_left (sd ++ [d]) 0 0;
  do x1 <- rotate_vec_left x 0 0;
  do u1 <- rotate_vec_left u 0 0;
  do f1 <- rotate_vec_left f 1 0;
  Ok (removelast sd1, x1, u1, f1).

End Workspace.
