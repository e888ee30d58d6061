(** Conversion of Crocoddyl problems: include/aligator/compat/crocoddyl/{action-model-wrap.hpp,
    action-model-wrap.hxx, cost-wrap.hpp, state-wrap.hpp, problem-wrap.hxx}, with the parts of
    core/traj-opt-problem.hxx, core/traj-opt-data.hxx and core/stage-data.hpp which run on the
    converted problem.

    Crocoddyl is external: action models, cost models and states are records of arbitrary
    functions on Crocoddyl's data (whose base class fields are [adata], the rest is of an arbitrary
    type). Scalars are exact reals; vectors and matrices carry their sizes. [None] is an exception,
    a null pointer dereferenced or a violated Eigen assertion. The parallel loops over stages are
    sequential here: each stage has data of its own. Memory is not modelled. *)
Require Import Reals Arith Bool List.
Require Import Verif.CentroidalModel Verif.DynSumModel.
Import ListNotations.
Open Scope R_scope.

Record smtx := SMtx { sm_r : nat; sm_c : nat; sm_at : mtx }.

Section Code.
Variable ext : Type.

(** ** Crocoddyl *)
(** crocoddyl::ActionDataAbstract, and crocoddyl::CostDataAbstract, which has no xnext, Fx, Fu. *)
Record adata := AData {
  a_cost : R; a_xnext : svec; a_Lx : svec; a_Lu : svec;
  a_Lxx : smtx; a_Lxu : smtx; a_Luu : smtx; a_Fx : smtx; a_Fu : smtx; a_ext : ext }.

(** crocoddyl::StateAbstract; Jdiff and Jintegrate give the first and the second Jacobian. *)
Record cstate := CState {
  cs_nx : nat; cs_ndx : nat; cs_zero : vec;
  cs_diff : vec -> vec -> vec; cs_Jdiff : vec -> vec -> mtx * mtx;
  cs_integrate : vec -> vec -> vec; cs_Jintegrate : vec -> vec -> mtx * mtx;
  (* JintegrateTransport on a matrix of so many columns, for the first or the second argument *)
  cs_transport : vec -> vec -> nat -> mtx -> bool -> mtx }.

(** crocoddyl::ActionModelAbstract: createData (which may be a null pointer), calc and calcDiff with
    and without a control. *)
Record action := Action {
  ac_state : cstate; ac_nu : nat; ac_create : option adata;
  ac_calc : adata -> svec -> svec -> adata; ac_calcDiff : adata -> svec -> svec -> adata;
  ac_calcT : adata -> svec -> adata; ac_calcDiffT : adata -> svec -> adata }.

(** crocoddyl::CostModelAbstract. *)
Record cmodel := CModel {
  cm_state : cstate; cm_nu : nat;
  cm_calc : adata -> svec -> svec -> adata; cm_calcDiff : adata -> svec -> svec -> adata }.

(** crocoddyl::ShootingProblem. *)
Record shooting := Shooting { sh_T : nat; sh_x0 : svec; sh_running : list action; sh_terminal : action }.

(** ** StateWrapperTpl (state-wrap.hpp) *)
Inductive jcomp := JFirst | JSecond | JBoth.
(** convert_to_firstsecond (30-38) *)
Definition convert_to_firstsecond (arg : nat) : jcomp :=
  match arg with 0 => JFirst | 1 => JSecond | _ => JBoth end%nat.
(** A Crocoddyl Jacobian routine whose two outputs are the same matrix: the first is written when
    asked for, then the second, over it. *)
Definition jboth (J : mtx * mtx) (c : jcomp) (Jout : mtx) : mtx :=
  match c with JFirst => fst J | JSecond => snd J | JBoth => snd J end.
(** Jintegrate_impl (50-53), Jdifference_impl (60-63), with the size Crocoddyl asks for *)
Definition sw_J (s : cstate) (J : mtx * mtx) (Jout : smtx) (arg : nat) : option smtx :=
  if Nat.eqb (sm_r Jout) (cs_ndx s) && Nat.eqb (sm_c Jout) (cs_ndx s)
  then Some (SMtx (cs_ndx s) (cs_ndx s) (jboth J (convert_to_firstsecond arg) (sm_at Jout))) else None.
Definition sw_Jintegrate (s : cstate) (x v : vec) (Jout : smtx) (arg : nat) := sw_J s (cs_Jintegrate s x v) Jout arg.
Definition sw_Jdifference (s : cstate) (x0 x1 : vec) (Jout : smtx) (arg : nat) := sw_J s (cs_Jdiff s x0 x1) Jout arg.
(** JintegrateTransport_impl (65-69): Crocoddyl takes one argument only, and throws for both *)
Definition sw_transport (s : cstate) (x v : vec) (Jout : smtx) (arg : nat) : option smtx :=
  match convert_to_firstsecond arg with
  | JFirst => Some (SMtx (sm_r Jout) (sm_c Jout) (cs_transport s x v (sm_c Jout) (sm_at Jout) true))
  | JSecond => Some (SMtx (sm_r Jout) (sm_c Jout) (cs_transport s x v (sm_c Jout) (sm_at Jout) false))
  | JBoth => None
  end.

(** ** Cost data and dynamics data of aligator *)
(** CostDataAbstractTpl (core/cost-abstract.hpp 73-114) by its blocks (see ViewModel.v) *)
Record cost_data := CDat {
  cd_ndx : nat; cd_nu : nat; cd_value : R; cd_Lx : vec; cd_Lu : vec;
  cd_Lxx : mtx; cd_Lxu : mtx; cd_Lux : mtx; cd_Luu : mtx }.
Definition cost_make (ndx nu : nat) : cost_data := CDat ndx nu 0 vzero vzero mzero mzero mzero mzero.
(** assignment to a Ref of fixed size *)
Definition setv (n : nat) (s : svec) : option vec := if Nat.eqb n (sv_n s) then Some (sv_at s) else None.
Definition setm (r c : nat) (s : smtx) : option mtx :=
  if Nat.eqb r (sm_r s) && Nat.eqb c (sm_c s) then Some (sm_at s) else None.
Definition set_value (d : cost_data) (v : R) : cost_data :=
  CDat (cd_ndx d) (cd_nu d) v (cd_Lx d) (cd_Lu d) (cd_Lxx d) (cd_Lxu d) (cd_Lux d) (cd_Luu d).
(** Lx_ = ..., Lu_ = ... *)
Definition set_grad (d : cost_data) (lx lu : svec) : option cost_data :=
  match setv (cd_ndx d) lx, setv (cd_nu d) lu with
  | Some a, Some b => Some (CDat (cd_ndx d) (cd_nu d) (cd_value d) a b (cd_Lxx d) (cd_Lxu d) (cd_Lux d) (cd_Luu d))
  | _, _ => None
  end.
(** Lxx_ = ..., Lxu_ = ..., Luu_ = ...; Lux_ is not assigned *)
Definition set_hess (d : cost_data) (lxx lxu luu : smtx) : option cost_data :=
  match setm (cd_ndx d) (cd_ndx d) lxx, setm (cd_ndx d) (cd_nu d) lxu, setm (cd_nu d) (cd_nu d) luu with
  | Some a, Some b, Some c => Some (CDat (cd_ndx d) (cd_nu d) (cd_value d) (cd_Lx d) (cd_Lu d) a b (cd_Lux d) c)
  | _, _, _ => None
  end.

(** ** ActionModelWrapperTpl and ActionDataWrapperTpl (action-model-wrap.hpp, .hxx) *)
Record sdata := SData { sd_croc : adata; sd_cost : cost_data; sd_dyn : edata }.

(** ActionDataWrapperTpl (action-model-wrap.hxx 62-73): the data of the base class are replaced; the
    cost data take their sizes from Crocoddyl's gradients (cost-wrap.hpp 98-104), which are read
    before checkData (75-80) looks for a null pointer. DynamicsDataWrapperTpl (action-model-wrap.hpp 34-43). *)
Definition wrap_create (m : action) : option sdata :=
  match ac_create m with
  | Some a => let ndx := cs_ndx (ac_state m) in
      Some (SData a (cost_make (sv_n (a_Lx a)) (sv_n (a_Lu a)))
              (EData ndx (ac_nu m) ndx (SVec (cs_nx (ac_state m)) vzero) mzero))
  | None => None
  end.
Definition set_xnext (d : edata) (x : svec) : edata := EData (ed_ndx1 d) (ed_nu d) (ed_ndx2 d) x (ed_jac d).
(** evaluate (21-32) *)
Definition wrap_evaluate (m : action) (x u : svec) (d : sdata) : sdata :=
  let a := ac_calc m (sd_croc d) x u in
  SData a (set_value (sd_cost d) (a_cost a)) (set_xnext (sd_dyn d) (a_xnext a)).
(** computeFirstOrderDerivatives (34-52) *)
Definition wrap_first (m : action) (x u : svec) (d : sdata) : option sdata :=
  let a := ac_calcDiff m (sd_croc d) x u in
  match set_grad (sd_cost d) (a_Lx a) (a_Lu a) with
  | Some c1 => match set_hess c1 (a_Lxx a) (a_Lxu a) (a_Luu a) with
    | Some c2 => let e := sd_dyn d in
      match put_Jx e 0 0 (ed_ndx2 e) (ed_ndx1 e) (sm_r (a_Fx a)) (sm_c (a_Fx a)) (sm_at (a_Fx a)) with
      | Some e1 => match put_Ju e1 0 0 (ed_ndx2 e1) (ed_nu e1) (sm_r (a_Fu a)) (sm_c (a_Fu a)) (sm_at (a_Fu a)) with
        | Some e2 => Some (SData a c2 e2) | None => None end
      | None => None end
    | None => None end
  | None => None
  end.
(** computeSecondOrderDerivatives (action-model-wrap.hpp 71-73) *)
Definition wrap_second (m : action) (x u : svec) (d : sdata) : option sdata := Some d.
(** NoOpDynamics (17-32): the dynamics object of the stage *)
Definition noop_forward (x u : svec) (d : edata) : edata := d.
Definition noop_dforward (x u : svec) (d : edata) : edata := d.

(** ** CrocCostModelWrapperTpl (cost-wrap.hpp 13-88) *)
Record cwrap := CWrap { cw_cost : option cmodel; cw_act : option action; cw_state : cstate; cw_nu : nat }.
(** the constructors (27-35) *)
Definition cw_of_cost (m : cmodel) : cwrap := CWrap (Some m) None (cm_state m) (cm_nu m).
Definition cw_of_action (m : action) : cwrap := CWrap None (Some m) (ac_state m) (ac_nu m).
(** CrocCostDataWrapperTpl (90-106) *)
Record cwdata := CWData { cwd_cost : option adata; cwd_act : option adata; cwd : cost_data }.
Definition cwd_of_cost (a : adata) : cwdata := CWData (Some a) None (cost_make (sv_n (a_Lx a)) (sv_n (a_Lu a))).
Definition cwd_of_act (a : adata) : cwdata := CWData None (Some a) (cost_make (sv_n (a_Lx a)) (sv_n (a_Lu a))).

(** evaluate (37-48); the pointer of the other kind is null *)
Definition cw_evaluate (w : cwrap) (x u : svec) (d : cwdata) : option cwdata :=
  match cw_cost w with
  | Some m => match cwd_cost d with
      | Some a => let a' := cm_calc m a x u in Some (CWData (Some a') (cwd_act d) (set_value (cwd d) (a_cost a')))
      | None => None end
  | None => match cw_act w, cwd_act d with
      | Some m, Some a => let a' := ac_calcT m a x in Some (CWData (cwd_cost d) (Some a') (set_value (cwd d) (a_cost a')))
      | _, _ => None end
  end.
(** computeGradients (50-63) *)
Definition cw_gradients (w : cwrap) (x u : svec) (d : cwdata) : option cwdata :=
  match cw_cost w with
  | Some m => match cwd_cost d with
      | Some a => let a' := cm_calcDiff m a x u in
          match set_grad (cwd d) (a_Lx a') (a_Lu a') with Some c => Some (CWData (Some a') (cwd_act d) c) | None => None end
      | None => None end
  | None => match cw_act w, cwd_act d with
      | Some m, Some a => let a' := ac_calcDiffT m a x in
          match set_grad (cwd d) (a_Lx a') (a_Lu a') with Some c => Some (CWData (cwd_cost d) (Some a') c) | None => None end
      | _, _ => None end
  end.
(** computeHessians (65-80) *)
Definition cw_hessians (w : cwrap) (x u : svec) (d : cwdata) : option cwdata :=
  match cw_cost w with
  | Some m => match cwd_cost d with
      | Some a => let a' := cm_calcDiff m a x u in
          match set_hess (cwd d) (a_Lxx a') (a_Lxu a') (a_Luu a') with Some c => Some (CWData (Some a') (cwd_act d) c) | None => None end
      | None => None end
  | None => match cw_act w, cwd_act d with
      | Some m, Some a => let a' := ac_calcDiffT m a x in
          match set_hess (cwd d) (a_Lxx a') (a_Lxu a') (a_Luu a') with Some c => Some (CWData (cwd_cost d) (Some a') c) | None => None end
      | _, _ => None end
  end.
(** createData (82-91): throws without an action model *)
Definition cw_create (w : cwrap) : option cwdata :=
  match cw_act w with
  | Some m => match ac_create m with Some a => Some (cwd_of_act a) | None => None end
  | None => None
  end.

(** ** convertCrocoddylProblem (problem-wrap.hxx 12-35) *)
(** the problem: the initial state error, wrapped stages, terminal cost; no terminal constraints *)
Record problem := Problem { p_init : cstate; p_x0 : svec; p_stages : list action; p_term : cwrap }.
(** running_models[i] for i < n *)
Fixpoint take (n : nat) (l : list action) : option (list action) :=
  match n, l with
  | O, _ => Some []
  | S n, m :: l => match take n l with Some l' => Some (m :: l') | None => None end
  | S _, [] => None
  end.
(** the constructor of the problem reads stages[0] (traj-opt-problem.hxx 32-39) *)
Definition convert (c : shooting) : option problem :=
  match take (sh_T c) (sh_running c) with
  | Some (m :: l) => Some (Problem (ac_state m) (sh_x0 c) (m :: l) (cw_of_action (sh_terminal c)))
  | _ => None
  end.

(** checkIntegrity (traj-opt-problem.hxx 129-158) on it: the next state of a stage is in its own space *)
Fixpoint chain (m : action) (l : list action) (t : cwrap) : bool :=
  let s := ac_state m in
  match l with
  | [] => Nat.eqb (cs_nx s) (cs_nx (cw_state t)) && Nat.eqb (cs_ndx s) (cs_ndx (cw_state t))
  | m' :: l => Nat.eqb (cs_nx s) (cs_nx (ac_state m')) && Nat.eqb (cs_ndx s) (cs_ndx (ac_state m')) && chain m' l t
  end.
Definition check_integrity (p : problem) : bool :=
  match p_stages p with
  | [] => true
  | m :: l => Nat.eqb (cs_ndx (ac_state m)) (cs_ndx (p_init p)) && chain m l (p_term p)
  end.

(** TrajOptDataTpl (core/traj-opt-data.hxx 14-30) *)
Record pdata := PData { pd_init : vec; pd_Jinit : mtx; pd_stages : list sdata; pd_term : cwdata; pd_cost : R }.
Fixpoint create_stages (l : list action) : option (list sdata) :=
  match l with
  | [] => Some []
  | m :: l => match wrap_create m with
      | Some d => match create_stages l with Some ds => Some (d :: ds) | None => None end
      | None => None end
  end.
Definition p_create (p : problem) : option pdata :=
  match create_stages (p_stages p) with
  | Some ds => match cw_create (p_term p) with Some t => Some (PData vzero mzero ds t 0) | None => None end
  | None => None
  end.

(** the loops over stages; xs, us and the data have the lengths checked before *)
Fixpoint eval_stages (l : list action) (xs us : list svec) (ds : list sdata) : option (list sdata) :=
  match l, xs, us, ds with
  | [], _, _, _ => Some []
  | m :: l, x :: xs, u :: us, d :: ds =>
      match eval_stages l xs us ds with Some r => Some (wrap_evaluate m x u d :: r) | None => None end
  | _, _, _, _ => None
  end.
Fixpoint deriv_stages (second : bool) (l : list action) (xs us : list svec) (ds : list sdata) : option (list sdata) :=
  match l, xs, us, ds with
  | [], _, _, _ => Some []
  | m :: l, x :: xs, u :: us, d :: ds =>
      match wrap_first m x u d with
      | Some d1 => match (if second then wrap_second m x u d1 else Some d1) with
          | Some d2 => match deriv_stages second l xs us ds with Some r => Some (d2 :: r) | None => None end
          | None => None end
      | None => None end
  | _, _, _, _ => None
  end.
Definition last_x (xs : list svec) : svec := last xs (SVec 0 vzero).
Definition unone (p : problem) : svec := SVec (cw_nu (p_term p)) vzero.
(** computeTrajectoryCost (core/traj-opt-data.hxx 31-47) *)
Definition traj_cost (ds : list sdata) (t : cwdata) : R :=
  fold_left (fun a d => a + cd_value (sd_cost d)) ds 0 + cd_value (cwd t).

(** evaluate (traj-opt-problem.hxx 55-90) *)
Definition p_evaluate (p : problem) (xs us : list svec) (d : pdata) : option pdata :=
  let n := length (p_stages p) in
  if Nat.eqb (length xs) (n + 1) && Nat.eqb (length us) n then
    match xs with
    | x0 :: _ =>
        match eval_stages (p_stages p) xs us (pd_stages d) with
        | Some ds => match cw_evaluate (p_term p) (last_x xs) (unone p) (pd_term d) with
            | Some t => Some (PData (cs_diff (p_init p) (sv_at (p_x0 p)) (sv_at x0)) (pd_Jinit d) ds t (traj_cost ds t))
            | None => None end
        | None => None end
    | [] => None end
  else None.
(** computeDerivatives (92-127); the Jacobian of the initial condition is Jdifference of its second
    argument (modelling/state-error.hpp 55-57) *)
Definition p_derivatives (second : bool) (p : problem) (xs us : list svec) (d : pdata) : option pdata :=
  let n := length (p_stages p) in
  if Nat.eqb (length xs) (n + 1) && Nat.eqb (length us) n then
    match xs with
    | x0 :: _ =>
        let nd := cs_ndx (p_init p) in
        match sw_Jdifference (p_init p) (sv_at (p_x0 p)) (sv_at x0) (SMtx nd nd (pd_Jinit d)) 1 with
        | Some J => match deriv_stages second (p_stages p) xs us (pd_stages d) with
            | Some ds => match cw_gradients (p_term p) (last_x xs) (unone p) (pd_term d) with
                | Some t => match (if second then cw_hessians (p_term p) (last_x xs) (unone p) t else Some t) with
                    | Some t' => Some (PData (pd_init d) (sm_at J) ds t' (pd_cost d))
                    | None => None end
                | None => None end
            | None => None end
        | None => None end
    | [] => None end
  else None.
End Code.
