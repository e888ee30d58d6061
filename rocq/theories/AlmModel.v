(** Model of the outer/inner loops of SolverProxDDP,
    /repo/include/aligator/solvers/proxddp/solver-proxddp.hxx 420-701 and
    /repo/include/aligator/solvers/proxddp/solver-proxddp.hpp 101-121, 249-361.

    Scalars are rationals; a residual that may be NaN is an [option Q] with
    [None] for NaN.  The numerical routines (model evaluation, derivatives,
    criterion, LQ solve, directional derivative, line search) are arbitrary
    functions of the whole state, which holds a clock incremented at each call:
    every sequence of results is covered.  A routine returning [None] raises an
    exception which leaves [run]. *)
From Coq Require Import QArith Qminmax List Bool Arith.
Import ListNotations.
Local Open Scope Q_scope.

Definition qle_nan (a : option Q) (b : Q) : bool :=
  match a with Some x => Qle_bool x b | None => false end.
Definition qlt_nan (a : option Q) (b : Q) : bool :=
  match a with Some x => negb (Qle_bool b x) | None => false end.

(** ** Callback registry, solver-proxddp.hpp 251-297.  The unordered map is a
    list of bindings; its iteration order is the order of the list. *)
Section Registry.
  Variables name cb : Type.
  Variable eqb : name -> name -> bool.
  Definition registry := list (name * cb).
  (** [registerCallback]: insert_or_assign *)
  Fixpoint register (r : registry) (n : name) (c : cb) : registry :=
    match r with
    | [] => [(n, c)]
    | (n', c') :: r' => if eqb n' n then (n', c) :: r' else (n', c') :: register r' n c
    end.
  (** [removeCallback]: erase *)
  Fixpoint unregister (r : registry) (n : name) : bool * registry :=
    match r with
    | [] => (false, [])
    | (n', c') :: r' =>
        if eqb n' n then (true, r')
        else let '(b, r'') := unregister r' n in (b, (n', c') :: r'')
    end.
  (** [getCallback] *)
  Fixpoint get_callback (r : registry) (n : name) : option cb :=
    match r with
    | [] => None
    | (n', c') :: r' => if eqb n' n then Some c' else get_callback r' n
    end.
End Registry.

Section Alm.
  (** states, tangent vectors of the first state, remaining part of an
      iterate, multiplier estimates of the proximal point, callbacks *)
  Variables X T Rest P C : Type.
  Record iterate := It { x0 : X; rest : Rest }.

  Inductive rollout := LINEAR | NONLINEAR.
  Inductive mode := NEWTON | PRIMAL | PRIMAL_DUAL.

  (** Options: members of the solver (hpp 101-176). *)
  Record opts := Opts {
    target_tol : Q; dual_tol : Q; sync_dual : bool; mu_init : Q;
    mu_update_factor : Q; mu_lower_bound : Q;
    reg_min : Q; reg_max : Q; reg_init : Q; reg_inc_k : Q; reg_inc_first_k : Q;
    reg_dec_k : Q; inner_tol0 : Q; prim_tol0 : Q;
    alpha_min : Q; dphi_thresh : Q; force_init : bool; rollout_type : rollout;
    update_mode : mode; max_iters : nat; max_al_iters : nat }.

  (** Solver state: results, workspace, tolerances.  [init_val] is the norm of
      the initial-condition residual stored in the problem data. *)
  Record st := St {
    it : iterate; trial : iterate; init_val : Q; prim : Q;
    dual : option Q; crit : option Q; mu : Q; inner_tol : Q; prim_tol : Q;
    preg : Q; preg_last : Q; num_iters : nat; al_iter : nat; conv : bool;
    pv : P; merit : Q; log : list (C * (nat * iterate)); clock : nat }.

  Definition set_it s v := St v (trial s) (init_val s) (prim s) (dual s) (crit s) (mu s) (inner_tol s) (prim_tol s) (preg s) (preg_last s) (num_iters s) (al_iter s) (conv s) (pv s) (merit s) (log s) (clock s).
  Definition set_trial s v := St (it s) v (init_val s) (prim s) (dual s) (crit s) (mu s) (inner_tol s) (prim_tol s) (preg s) (preg_last s) (num_iters s) (al_iter s) (conv s) (pv s) (merit s) (log s) (clock s).
  Definition set_init_val s v := St (it s) (trial s) v (prim s) (dual s) (crit s) (mu s) (inner_tol s) (prim_tol s) (preg s) (preg_last s) (num_iters s) (al_iter s) (conv s) (pv s) (merit s) (log s) (clock s).
  Definition set_prim s v := St (it s) (trial s) (init_val s) v (dual s) (crit s) (mu s) (inner_tol s) (prim_tol s) (preg s) (preg_last s) (num_iters s) (al_iter s) (conv s) (pv s) (merit s) (log s) (clock s).
  Definition set_dual s v := St (it s) (trial s) (init_val s) (prim s) v (crit s) (mu s) (inner_tol s) (prim_tol s) (preg s) (preg_last s) (num_iters s) (al_iter s) (conv s) (pv s) (merit s) (log s) (clock s).
  Definition set_crit s v := St (it s) (trial s) (init_val s) (prim s) (dual s) v (mu s) (inner_tol s) (prim_tol s) (preg s) (preg_last s) (num_iters s) (al_iter s) (conv s) (pv s) (merit s) (log s) (clock s).
  Definition set_mu s v := St (it s) (trial s) (init_val s) (prim s) (dual s) (crit s) v (inner_tol s) (prim_tol s) (preg s) (preg_last s) (num_iters s) (al_iter s) (conv s) (pv s) (merit s) (log s) (clock s).
  Definition set_tols s a b := St (it s) (trial s) (init_val s) (prim s) (dual s) (crit s) (mu s) a b (preg s) (preg_last s) (num_iters s) (al_iter s) (conv s) (pv s) (merit s) (log s) (clock s).
  Definition set_preg s v := St (it s) (trial s) (init_val s) (prim s) (dual s) (crit s) (mu s) (inner_tol s) (prim_tol s) v (preg_last s) (num_iters s) (al_iter s) (conv s) (pv s) (merit s) (log s) (clock s).
  Definition set_preg_last s v := St (it s) (trial s) (init_val s) (prim s) (dual s) (crit s) (mu s) (inner_tol s) (prim_tol s) (preg s) v (num_iters s) (al_iter s) (conv s) (pv s) (merit s) (log s) (clock s).
  Definition set_num_iters s v := St (it s) (trial s) (init_val s) (prim s) (dual s) (crit s) (mu s) (inner_tol s) (prim_tol s) (preg s) (preg_last s) v (al_iter s) (conv s) (pv s) (merit s) (log s) (clock s).
  Definition set_al_iter s v := St (it s) (trial s) (init_val s) (prim s) (dual s) (crit s) (mu s) (inner_tol s) (prim_tol s) (preg s) (preg_last s) (num_iters s) v (conv s) (pv s) (merit s) (log s) (clock s).
  Definition set_conv s v := St (it s) (trial s) (init_val s) (prim s) (dual s) (crit s) (mu s) (inner_tol s) (prim_tol s) (preg s) (preg_last s) (num_iters s) (al_iter s) v (pv s) (merit s) (log s) (clock s).
  Definition set_pv s v := St (it s) (trial s) (init_val s) (prim s) (dual s) (crit s) (mu s) (inner_tol s) (prim_tol s) (preg s) (preg_last s) (num_iters s) (al_iter s) (conv s) v (merit s) (log s) (clock s).
  Definition set_merit s v := St (it s) (trial s) (init_val s) (prim s) (dual s) (crit s) (mu s) (inner_tol s) (prim_tol s) (preg s) (preg_last s) (num_iters s) (al_iter s) (conv s) (pv s) v (log s) (clock s).
  Definition set_log s v := St (it s) (trial s) (init_val s) (prim s) (dual s) (crit s) (mu s) (inner_tol s) (prim_tol s) (preg s) (preg_last s) (num_iters s) (al_iter s) (conv s) (pv s) (merit s) v (clock s).
  Definition tick s := St (it s) (trial s) (init_val s) (prim s) (dual s) (crit s) (mu s) (inner_tol s) (prim_tol s) (preg s) (preg_last s) (num_iters s) (al_iter s) (conv s) (pv s) (merit s) (log s) (S (clock s)).

  (** Numerical routines. *)
  Variable init_state : X.                    (* problem.getInitState() *)
  Variable init_res : X -> Q.                 (* norm of the initial condition *)
  (** [computeMultipliers] 219-318, without the initial condition: [None] when
      it returns false *)
  Variable rest_res : Q -> P -> iterate -> option Q.
  Variable dual_of : iterate -> option Q.     (* computeCriterion 703-732 *)
  Variable crit_of : st -> option Q.
  Variable ok : st -> bool.                   (* false: the next routine raises *)
  Variable slope : st -> Q.                   (* dphi0 *)
  Variable merit_of : st -> Q.                (* ALFunction::evaluate *)
  Variable dx0 : st -> T.                     (* first component of the step *)
  Variable zero : T.
  Variable integ : X -> Q -> T -> X.          (* integrate(x, alpha * dx) *)
  Variable trial_rest : st -> Q -> Rest.      (* remaining part of a trial *)
  (** line search: steps evaluated in order, returned step, returned value *)
  Variable ls : st -> list Q * Q * Q.
  Variable new_pv : st -> P.                  (* vs, vs_plus or vs_pdal *)
  (** x |-> pow(x, e) for the four exponents of AlmParams *)
  Variables pow_pa pow_da pow_pb pow_db : Q -> Q.

  Variable o : opts.
  Variable callbacks : list C.

  Definition target_dual : Q := if sync_dual o then target_tol o else dual_tol o. (* 427-428 *)

  (** hpp 339-341 *)
  Definition set_penalty (s : st) (m : Q) : st := set_mu s (Qmax m (mu_lower_bound o)).
  (** [mu_dyn], hpp 313 *)
  Definition mu_dyn (s : st) : Q := (1 # 10) * mu s.
  (** hpp 326-330 *)
  Definition tols_on_failure (s : st) : st :=
    let arg := Qmin (mu s) (99 # 100) in
    set_tols s (inner_tol0 o * pow_da arg) (prim_tol0 o * pow_pa arg).
  (** hpp 332-336 *)
  Definition tols_on_success (s : st) : st :=
    let arg := Qmin (mu s) (99 # 100) in
    set_tols s (inner_tol s * pow_db arg) (prim_tol s * pow_pb arg).
  (** hpp 346-354 *)
  Definition init_reg (s : st) : st :=
    if Qeq_bool (preg_last s) 0 then set_preg s (Qmax (reg_init o) (reg_min o))
    else set_preg s (Qmax (reg_min o) (preg_last s * reg_dec_k o)).
  (** hpp 356-361 *)
  Definition inc_reg (s : st) : st :=
    if Qeq_bool (preg_last s) 0 then set_preg s (preg s * reg_inc_first_k o)
    else set_preg s (preg s * reg_inc_k o).

  (** math.hpp 197-201 with prec = 2^-52 *)
  Definition qabs (x : Q) : Q := if Qle_bool 0 x then x else - x.
  Definition scalar_close (a b : Q) : bool :=
    negb (Qle_bool ((1 # 4503599627370496) * (1 + Qmax (qabs a) (qabs b))) (qabs (a - b))).

  (** [computeMultipliers]: [results_.prim_infeas] is only written at the end
      (315), not when NaN is found. *)
  Definition measure (s : st) (i : iterate) : option Q :=
    match rest_res (mu s) (pv s) i with
    | Some r => Some (Qmax (init_val s) r)
    | None => None
    end.

  (** One evaluation by the line search: [forwardPass] 535-552.  The linear
      step evaluates the whole problem, including the initial condition; the
      nonlinear rollout (324-416) does not evaluate the initial condition.
      [dx0] was set to zero at 635-638 when the initial condition is forced. *)
  Definition forward_pass (s : st) (alpha : Q) : st :=
    let d := if force_init o then zero else dx0 s in
    let i := It (integ (x0 (it s)) alpha d) (trial_rest s alpha) in
    let s1 := set_trial s i in
    let s2 := match rollout_type o with
              | LINEAR => set_init_val s1 (init_res (x0 i))
              | NONLINEAR => s1
              end in
    match measure s2 i with
    | Some r => tick (set_prim s2 r)
    | None => tick s2                 (* raises; caught by the line search *)
    end.

  Inductive inner_result := Returns (b : bool) (s : st) | Raises (s : st).

  (** 582-595: derivatives, Lagrangian, criterion *)
  Definition check (s : st) : st :=
    let s := tick (set_dual s (dual_of (it s))) in tick (set_crit s (crit_of s)).
  (** 598-601 *)
  Definition overall (s : st) : bool :=
    qle_nan (dual s) target_dual && Qle_bool (prim s) (target_tol o).
  Definition stop (s : st) : bool := qle_nan (crit s) (inner_tol s) || overall s.
  (** 648-663: the trial evaluations of the line search *)
  Definition search (s : st) : st := fold_left forward_pass (fst (fst (ls s))) s.
  (** 665-673 *)
  Definition accept (s : st) (phi_new : Q) : st :=
    tick (set_merit (set_it s (trial s)) phi_new).
  (** 690-698 and the increment of the for loop *)
  Definition finish (small : bool) (s : st) : st :=
    let s := if small then inc_reg s else s in
    let s := set_log s (log s ++ map (fun c => (c, (num_iters s, it s))) callbacks) in
    set_num_iters (set_preg_last s (preg s)) (S (num_iters s)).

  (** body of the for loop of [innerLoop], 576-700; [n] iterations remain *)
  Fixpoint inner_iter (n : nat) (s : st) : inner_result :=
    match n with
    | O => Returns false s
    | S k =>
        if negb (ok s) then Raises s else
        let s1 := check s in
        if stop s1 then Returns true s1 else
        let s2 := init_reg s1 in                                 (* 604 *)
        if negb (ok s2) then Raises s2 else                      (* 603-641 *)
        let s3 := tick s2 in
        if Qle_bool (qabs (slope s2)) (dphi_thresh o) then Returns true s3  (* 644-645 *)
        else
        if negb (ok s3) then Raises s3 else
        let s4 := search s3 in
        if negb (ok s4) then Raises s4 else
        let s5 := accept s4 (snd (ls s3)) in
        let small := Qle_bool (snd (fst (ls s3))) (alpha_min o) in
        if small && Qle_bool (reg_max o) (preg s5) then Returns false s5  (* 690-692 *)
        else inner_iter k (finish small s5)
    end.

  (** 569-575; the result of [computeMultipliers] is ignored at 573 *)
  Definition enter (s : st) : st :=
    let s := tick (set_init_val s (init_res (x0 (it s)))) in
    let s := match measure s (it s) with Some r => set_prim s r | None => s end in
    tick (set_merit s (merit_of s)).

  (** [innerLoop], 554-701. *)
  Definition inner_loop (s : st) : inner_result :=
    if negb (ok s) then Raises s else
    inner_iter (max_iters o - num_iters s) (enter s).

  Inductive outcome := Done (b : bool) (s : st) | Threw (s : st) | Diverged.

  (** do-while, 492-494 *)
  Fixpoint shrink_tols (fuel : nat) (s : st) : option st :=
    match fuel with
    | O => None
    | S k =>
        let s := tols_on_success s in
        if qlt_nan (crit s) (inner_tol s) then shrink_tols k s else Some s
    end.

  (** 516-521 *)
  Definition on_failure (s : st) : st :=
    let s := tols_on_failure (set_penalty s (mu s * mu_update_factor o)) in
    if scalar_close (mu s) (mu_lower_bound o) then set_penalty s (mu_init o) else s.

  (** one pass after the inner loop succeeded, 484-526: [inl] = break with
      convergence *)
  Definition after_inner (fuel : nat) (s : st) : option (st + st) :=
    if Qle_bool (prim s) (prim_tol s) then
      match shrink_tols fuel s with
      | None => None
      | Some s1 =>
          let s2 := set_pv s1 (new_pv s1) in
          if overall s2 then Some (inl (set_conv s2 true)) else Some (inr s2)
      end
    else Some (inr (on_failure s)).

  (** 523-526 *)
  Definition next_outer (s : st) : st :=
    let s := set_tols s (Qmax (inner_tol s) ((1 # 100) * target_dual))
                        (Qmax (prim_tol s) (target_tol o)) in
    set_al_iter s (S (al_iter s)).

  (** while loop, 479-527; [k] outer iterations remain; the list collects the
      states at the head of the loop *)
  Fixpoint outer (fuel k : nat) (s : st) : outcome * list st :=
    match k with
    | O => (Done (conv s) s, [s])
    | S k' =>
        if Nat.ltb (num_iters s) (max_iters o) then
          match inner_loop s with
          | Raises s' => (Threw s', [s])
          | Returns false s' =>
              (Done (conv s') (set_al_iter s' (S (al_iter s'))), [s])
          | Returns true s' =>
              match after_inner fuel s' with
              | None => (Diverged, [s])
              | Some (inl s'') => (Done (conv s'') s'', [s])
              | Some (inr s'') =>
                  let r := outer fuel k' (next_outer s'') in (fst r, s :: snd r)
              end
          end
        else (Done (conv s) s, [s])
    end.

  (** [run], 420-531.  [s] carries the warm start in [it] and what is left of
      previous runs in the other fields. *)
  Definition start (s : st) : st :=
    let s := if force_init o then set_trial s (It init_state (rest (trial s))) else s in (* 452-455 *)
    let s := set_penalty s (mu_init o) in                       (* 460 *)
    let s := set_preg_last (set_pv s (new_pv s)) 0 in           (* 462-468 *)
    let s := tols_on_failure s in                               (* 469 *)
    let s := set_tols s (Qmax (inner_tol s) target_dual) (Qmax (prim_tol s) (target_tol o)) in
    set_num_iters (set_al_iter (set_conv s false) 0) 0.

  Definition run (fuel : nat) (s : st) : outcome * list st :=
    outer fuel (max_al_iters o) (start s).
End Alm.
Arguments It {X Rest}. Arguments x0 {X Rest}. Arguments rest {X Rest}.
Arguments St {X Rest P C}.
Arguments it {X Rest P C}.
Arguments trial {X Rest P C}.
Arguments init_val {X Rest P C}.
Arguments prim {X Rest P C}.
Arguments dual {X Rest P C}.
Arguments crit {X Rest P C}.
Arguments mu {X Rest P C}.
Arguments inner_tol {X Rest P C}.
Arguments prim_tol {X Rest P C}.
Arguments preg {X Rest P C}.
Arguments preg_last {X Rest P C}.
Arguments num_iters {X Rest P C}.
Arguments al_iter {X Rest P C}.
Arguments conv {X Rest P C}.
Arguments pv {X Rest P C}.
Arguments merit {X Rest P C}.
Arguments log {X Rest P C}.
Arguments clock {X Rest P C}.
Arguments Returns {X Rest P C}. Arguments Raises {X Rest P C}.
Arguments Done {X Rest P C}. Arguments Threw {X Rest P C}. Arguments Diverged {X Rest P C}.
Arguments set_it {X Rest P C}.
Arguments set_trial {X Rest P C}.
Arguments set_init_val {X Rest P C}.
Arguments set_prim {X Rest P C}.
Arguments set_dual {X Rest P C}.
Arguments set_crit {X Rest P C}.
Arguments set_mu {X Rest P C}.
Arguments set_tols {X Rest P C}.
Arguments set_preg {X Rest P C}.
Arguments set_preg_last {X Rest P C}.
Arguments set_num_iters {X Rest P C}.
Arguments set_al_iter {X Rest P C}.
Arguments set_conv {X Rest P C}.
Arguments set_pv {X Rest P C}.
Arguments set_merit {X Rest P C}.
Arguments set_log {X Rest P C}.
Arguments tick {X Rest P C}.
