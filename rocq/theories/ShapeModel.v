(** Sizes of the buffers of SolverProxDDP: constructors of the problem data, of
    Results and of Workspace (core/traj-opt-data.hxx, core/stage-data.hxx,
    solvers/proxddp/results.hxx, solvers/proxddp/workspace.hxx), every routine of
    an iteration (solvers/proxddp/solver-proxddp.hxx, merit-function.hxx,
    core/lagrangian.hpp) and the proximal Riccati solver
    (gar/proximal-riccati.hxx, gar/riccati-kernel.hxx).

    Only sizes are modelled, not values.  A routine is the list of the size
    effects and of the size checks of its statements, in program order.  Reading
    out of range, an Eigen assertion and an assert of the code make the run
    stop ([None]).  Eigen rules used: assigning to a Matrix or an ArenaMatrix
    (with or without noalias) resizes it; compound assignments, and assignments
    to a Ref or to a block, need equal sizes; products need matching inner
    dimensions.

    Not modelled: allocation and NOMALLOC scopes, branches taken on NaN (they
    only end the routine early), theta > 0, the solve of the parallel and dense
    solvers (their gains are), warm starts other than accepted ones (C33).
    User functions (costs, constraints, dynamics, spaces) keep the sizes of
    the data they were given. *)
From Coq Require Import List Arith Bool.
Import ListNotations.

(** ** Dimensions of a problem *)

(** A constraint: ndx1, nu, nr of the function (core/function-abstract.hpp) and
    the length of the limits if the set is a box (box-constraint.hpp 15-16). *)
Record cstr := Cstr { c_ndx : nat; c_nu : nat; c_nr : nat; c_box : option nat }.

(** StageModelTpl, core/stage-model.hpp 90-96: dimensions of the spaces,
    of the cost and of the constraints. *)
Record stage := Stage {
  nx1 : nat; ndx1 : nat; nu : nat; nx2 : nat; ndx2 : nat;
  k_ndx : nat; k_nu : nat; cs : list cstr }.

(** TrajOptProblemTpl, core/traj-opt-problem.hpp 120-128.  [i_x0] is the size of
    the target when the initial condition is a StateErrorResidual. *)
Record prob := Prob {
  i_ndx : nat; i_nr : nat; i_x0 : option nat;
  stages : list stage;
  t_nx : nat; t_ndx : nat; t_nu : nat; tcs : list cstr }.

Definition dims (l : list cstr) : list nat := map c_nr l.
(** [totalDim], core/constraint.hpp 75-80 *)
Definition total (l : list nat) : nat := fold_right plus 0 l.
Definition offset (l : list nat) (j : nat) : nat := total (firstn j l).
Definition nc (s : stage) : nat := total (dims (cs s)).

(** StageModelTpl::StageModelTpl and addConstraint, core/stage-model.hxx 23-39:
    the control dimensions are checked, the state dimensions are not. *)
Definition stage_accepted (s : stage) : bool :=
  (k_nu s =? nu s) && forallb (fun c => c_nu c =? nu s) (cs s).

Definition st0 : stage := Stage 0 0 0 0 0 0 0 [].
Definition N (p : prob) : nat := length (stages p).
Definition st (p : prob) (i : nat) : stage := nth i (stages p) st0.
Definition ncT (p : prob) : nat := total (dims (tcs p)).
(** constraints of a stage, or terminal ones *)
Definition ctr (p : prob) (i : nat) : list cstr := if i <? N p then cs (st p i) else tcs p.
Definition ncs (p : prob) (i : nat) : nat := total (dims (ctr p i)).

(** checkIntegrity, core/traj-opt-problem.hxx 132-159 (nothing moved from) *)
Definition integrity (p : prob) : bool :=
  if N p =? 0 then true else
  (ndx1 (st p 0) =? i_ndx p) &&
  forallb (fun k => (nx2 (st p (k - 1)) =? nx1 (st p k)) && (ndx2 (st p (k - 1)) =? ndx1 (st p k)))
          (seq 1 (N p - 1)) &&
  (nx2 (st p (N p - 1)) =? t_nx p) && (ndx2 (st p (N p - 1)) =? t_ndx p).

(** ** Memory of sizes *)

Inductive buf :=
(* results *)
| Rxs | Rus | Rvs | Rlams | Rgain
(* workspace: trial point, proximal point, multipliers, constraints *)
| Txs | Tus | Tvs | Tlams | Pxs | Pus | Pvs
| VsPlus | VsPdal | LamsPlus | Slack | Infeas | Shift | Active | ProjJ
| Dxs | Dus | Dvs | Dlams | Lx | Lu | Lv | CorrX | CorrU
| Crits | Viol | StDual | CtDual
(* LQ subproblem *)
| KQ | KS | KR | Kq | Kr | KA | KB | Kf | KC | KD | Kd | G0 | g0
(* Riccati solver *)
| Qhat | Rhat | Shat | qhat | rhat | AtV | BtV | Fff | Ffb | Fkkt | Vxx | vx | K0mat | K0ff
(* problem data: initial condition, dynamics, costs (last one: terminal),
   constraints of a stage *)
| IVal | IJx | IHxx | Xnext | DJx | DJu | DHxx | DHxu | DHuu
| CLx | CLu | CLxx | CLxu | CLuu
| CV (i : nat) | CJx (i : nat) | CJu (i : nat).

Scheme Equality for buf.

(** A std::vector of vectors or matrices: its length, and the rows and columns
    of its elements.  Members that are one object are vectors of length 1. *)
Definition mem := buf -> nat * (nat -> nat * nat).
Definition mem0 : mem := fun _ => (0, fun _ => (0, 1)).

Definition put (m : mem) (b : buf) (v : nat * (nat -> nat * nat)) : mem :=
  fun b' => if buf_beq b b' then v else m b'.
Definition len (m : mem) (b : buf) : nat := fst (m b).
Definition at_ (m : mem) (b : buf) (i : nat) : nat * nat := snd (m b) i.

(** Expressions. *)
Inductive ex :=
| Buf (b : buf) (i : nat)          (* element of a vector *)
| Lit (r c : nat)                  (* object of the given size *)
| Tr (e : ex)
| Add (a b : ex)                   (* coefficient-wise *)
| Mul (a b : ex)
| RowsOf (s n : nat) (e : ex)      (* middleRows, segment, head, topRows *)
| ColsOf (s n : nat) (e : ex)      (* middleCols, leftCols, col *)
| Bottom (a e : ex)                (* tail, bottomRows: as many rows as a *)
| TopAs (a e : ex)                 (* head, topRows: as many rows as a *)
| DropCol (e : ex)                 (* rightCols(cols() - 1) *)
| Longest (l : list (buf * nat)).  (* vector as long as the longest listed *)

Definition same (a b : nat * nat) : bool := (fst a =? fst b) && (snd a =? snd b).

Fixpoint size (m : mem) (e : ex) : option (nat * nat) :=
  match e with
  | Buf b i => if i <? len m b then Some (at_ m b i) else None
  | Lit r c => Some (r, c)
  | Tr e => match size m e with Some (r, c) => Some (c, r) | None => None end
  | Add a b => match size m a, size m b with
               | Some x, Some y => if same x y then Some x else None
               | _, _ => None
               end
  | Mul a b => match size m a, size m b with
               | Some (r, c), Some (r', c') => if c =? r' then Some (r, c') else None
               | _, _ => None
               end
  | RowsOf s n e => match size m e with
                    | Some (r, c) => if s + n <=? r then Some (n, c) else None
                    | None => None
                    end
  | ColsOf s n e => match size m e with
                    | Some (r, c) => if s + n <=? c then Some (r, n) else None
                    | None => None
                    end
  | Bottom a e | TopAs a e =>
      match size m a, size m e with
      | Some (n, _), Some (r, c) => if n <=? r then Some (n, c) else None
      | _, _ => None
      end
  | DropCol e => match size m e with
                 | Some (r, c) => if 1 <=? c then Some (r, c - 1) else None
                 | None => None
                 end
  | Longest l => if forallb (fun x => snd x <? len m (fst x)) l
                 then Some (fold_right Nat.max 0 (map (fun x => fst (at_ m (fst x) (snd x))) l), 1)
                 else None
  end.

(** Statements. *)
Inductive op :=
| Put (b : buf) (i : nat) (e : ex)   (* assignment to an owner: resizes *)
| Fit (a e : ex)                     (* assignment to a view, +=, -=, assert of sizes *)
| Uses (e : ex)                      (* evaluation: norm, dot (Add), test *)
| Chk (c : bool)                     (* access to stages_[i], checked dimension *)
| Resize (b : buf) (n : nat)         (* std::vector::resize, constructor (n) *)
| Copy (b b' : buf)                  (* b = b' *)
| Pop (b : buf)                      (* pop_back *)
| Rot (b : buf) (h t : nat)          (* rotate_vec_left, utils/mpc-util.hpp 17-22 *)
| LenIs (b : buf) (n : nat).         (* assert(b.size() == n) *)

Definition step (m : mem) (o : op) : option mem :=
  match o with
  | Put b i e =>
      match size m e with
      | Some s => if i <? len m b
                  then Some (put m b (len m b, fun j => if i =? j then s else at_ m b j))
                  else None
      | None => None
      end
  | Fit a e => match size m a, size m e with
               | Some x, Some y => if same x y then Some m else None
               | _, _ => None
               end
  | Uses e => match size m e with Some _ => Some m | None => None end
  | Chk c => if c then Some m else None
  | Resize b n => Some (put m b (n, fun j => if j <? len m b then at_ m b j else (0, 1)))
  | Copy b b' => Some (put m b (m b'))
  | Pop b => if 1 <=? len m b then Some (put m b (len m b - 1, at_ m b)) else None
  | LenIs b n => if len m b =? n then Some m else None
  | Rot b h t =>
      (* std::rotate(begin + h, begin + h + 1, end - t) *)
      if h + 1 + t <=? len m b
      then Some (put m b (len m b, fun i =>
             if (i <? h) || (len m b - t <=? i) then at_ m b i
             else if S i =? len m b - t then at_ m b h else at_ m b (S i)))
      else None
  end.
Fixpoint exec (l : list op) (m : mem) : option mem :=
  match l with
  | [] => Some m
  | o :: l => match step m o with Some m' => exec l m' | None => None end
  end.

(** [for (i = 0; i < n; i++)] *)
Definition for_ (n : nat) (f : nat -> list op) : list op := flat_map f (seq 0 n).

Section Programs.
Variable p : prob.
Notation N := (N p).
Notation st := (st p).

(** ** Constructors *)

(** data of one function (core/function-abstract.hxx 30-47), of one cost
    (core/cost-abstract.hpp 94-105) and of the dynamics
    (core/explicit-dynamics.hpp 68-110) *)
Definition cstr_data (i : nat) (l : list cstr) : list op :=
  [Resize (CV i) (length l); Resize (CJx i) (length l); Resize (CJu i) (length l)] ++
  for_ (length l) (fun j =>
    let c := nth j l (Cstr 0 0 0 None) in
    [Put (CV i) j (Lit (c_nr c) 1); Put (CJx i) j (Lit (c_nr c) (c_ndx c));
     Put (CJu i) j (Lit (c_nr c) (c_nu c))]).
Definition cost_data (i ndx nu : nat) : list op :=
  [Put CLx i (Lit ndx 1); Put CLu i (Lit nu 1); Put CLxx i (Lit ndx ndx);
   Put CLxu i (Lit ndx nu); Put CLuu i (Lit nu nu)].
Definition dyn_data (i : nat) : list op :=
  let s := st i in
  [Put DJx i (Lit (ndx2 s) (ndx1 s)); Put DJu i (Lit (ndx2 s) (nu s));
   Put DHxx i (Lit (ndx1 s) (ndx1 s)); Put DHxu i (Lit (ndx1 s) (nu s)); Put DHuu i (Lit (nu s) (nu s));
   Put Xnext i (Lit (nx2 s) 1); Put Xnext i (Lit (nx1 s) 1)].

(** TrajOptDataTpl, core/traj-opt-data.hxx 14-29, and StageDataTpl,
    core/stage-data.hxx 11-21 *)
Definition new_data : list op :=
  [Resize IVal 1; Resize IJx 1; Resize IHxx 1;
   Put IVal 0 (Lit (i_nr p) 1); Put IJx 0 (Lit (i_nr p) (i_ndx p)); Put IHxx 0 (Lit (i_ndx p) (i_ndx p))] ++
  [Resize Xnext N; Resize DJx N; Resize DJu N; Resize DHxx N; Resize DHxu N; Resize DHuu N;
   Resize CLx (S N); Resize CLu (S N); Resize CLxx (S N); Resize CLxu (S N); Resize CLuu (S N)] ++
  for_ N (fun i => cstr_data i (cs (st i)) ++ cost_data i (k_ndx (st i)) (k_nu (st i)) ++ dyn_data i) ++
  cost_data N (t_ndx p) (t_nu p) ++ cstr_data N (tcs p).

(** xs_default_init and us_default_init, core/traj-opt-problem.hpp 284-316 *)
Definition init_xs (bx : buf) : list op :=
  [Resize bx (S N)] ++
  match i_x0 p with
  | Some n => [Put bx 0 (Lit n 1)]
  | None => [Chk (1 <=? N); Put bx 0 (Lit (nx1 (st 0)) 1)]
  end ++
  for_ N (fun i => [Put bx (S i) (Lit (nx2 (st i)) 1)]).
Definition init_us (bu : buf) : list op :=
  [Resize bu N] ++ for_ N (fun i => [Put bu i (Lit (nu (st i)) 1)]).
(** initializeSolution, 244-262 *)
Definition init_sol (bx bu bv bl : buf) : list op :=
  init_xs bx ++ init_us bu ++
  [Resize bv (S N); Resize bl (S N); Put bl 0 (Lit (i_nr p) 1)] ++
  for_ N (fun i => [Put bl (S i) (Lit (ndx2 (st i)) 1); Put bv i (Lit (nc (st i)) 1)]) ++
  match tcs p with [] => [] | _ => [Put bv N (Lit (ncT p) 1)] end.

(** ResultsTpl, results.hxx 15-42 *)
Definition new_results : list op :=
  [Chk (integrity p)] ++ init_sol Rxs Rus Rvs Rlams ++ [Resize Rgain (S N)] ++
  for_ N (fun i => let s := st i in [Put Rgain i (Lit (nu s + nc s + ndx2 s) (ndx1 s + 1))]) ++
  [Put Rgain N (Lit (ncT p) (t_ndx p + 1))].

(** dimensions (nx, nu, nc, nx2) of the knots, workspace.hxx 49-55 with
    gar/lqr-problem.hpp 65-70 *)
Definition k_nx (i : nat) := if i <? N then ndx1 (st i) else t_ndx p.
Definition k_nu_ (i : nat) := if i <? N then nu (st i) else 0.
Definition k_nx2 (i : nat) := if i <? N then ndx1 (st i) else 0.
(** LqrKnotTpl, gar/lqr-problem.hxx 29-52 *)
Definition knot_bufs : list buf := [KQ; KS; KR; Kq; Kr; KA; KB; Kf; KC; KD; Kd].
Definition new_knot (i : nat) : list op :=
  let n := k_nx i in let m := k_nu_ i in let c := ncs p i in let n2 := k_nx2 i in
  [Put KQ i (Lit n n); Put KS i (Lit n m); Put KR i (Lit m m); Put Kq i (Lit n 1); Put Kr i (Lit m 1);
   Put KA i (Lit n2 n); Put KB i (Lit n2 m); Put Kf i (Lit n2 1);
   Put KC i (Lit c n); Put KD i (Lit c m); Put Kd i (Lit c 1)].

(** lqrInitializeSolution, gar/utils.hpp 114-142 *)
Definition lqr_init : list op :=
  [Resize Dxs 0; Resize Dus 0; Resize Dvs 0; Resize Dlams 0;
   Resize Dxs (S N); Resize Dus (S N); Resize Dvs (S N); Resize Dlams (S N);
   Put Dlams 0 (Buf g0 0)] ++
  for_ (S N) (fun i =>
    [Put Dxs i (Lit (k_nx i) 1); Put Dus i (Lit (k_nu_ i) 1); Put Dvs i (Lit (ncs p i) 1)] ++
    (if i =? N then [] else [Put Dlams (S i) (Lit (k_nx2 i) 1)])) ++
  (if k_nu_ N =? 0 then [Pop Dus] else []).

(** WorkspaceBaseTpl, workspace-base.hpp 63-70, and WorkspaceTpl,
    workspace.hxx 16-95 *)
Definition new_workspace : list op :=
  new_data ++ init_xs Txs ++ init_us Tus ++
  [Resize Crits 1; Resize Viol 1; Resize StDual 1; Resize CtDual 1;
   Put Crits 0 (Lit (S N) 1); Put Viol 0 (Lit (S N) 1); Put StDual 0 (Lit (S N) 1); Put CtDual 0 (Lit (S N) 1)] ++
  [Chk (integrity p)] ++
  init_sol Txs Tus Tvs Tlams ++
  [Copy Pxs Txs; Copy Pus Tus; Copy Pvs Tvs; Copy VsPdal Tvs; Copy VsPlus VsPdal;
   Copy LamsPlus Tlams; Copy Slack Tlams; Copy Infeas Tvs; Copy Shift Pvs;
   Resize Active (S N); Resize ProjJ (S N)] ++
  map (fun b => Resize b (S N)) knot_bufs ++ for_ (S N) new_knot ++
  for_ N (fun i => let s := st i in
    [Put ProjJ i (Lit (total (dims (cs s))) (ndx1 s + nu s)); Put Active i (Lit (nc s) 1)]) ++
  [Put ProjJ N (Lit (total (dims (tcs p))) (t_ndx p + 0)); Put Active N (Lit (ncT p) 1)] ++
  [Resize G0 1; Resize g0 1; Put G0 0 (Lit (i_nr p) (i_nr p)); Put g0 0 (Lit (i_nr p) 1)] ++
  lqr_init ++
  [Copy Lx Dxs; Copy Lu Dus; Copy Lv Dvs; Copy CorrX Lx; Copy CorrU Lu].

(** ** Linear solvers: rows of the gains *)
Inductive choice := SERIAL | PARALLEL | STAGEDENSE.
Variable ch : choice.

(** StageFactor, riccati-kernel.hxx 28-31 (the parallel solver has the same ones,
    parallel-solver.hxx 58); DenseKernel::Data, dense-kernel.hpp 30-36 *)
Definition gain_rows (i : nat) : nat :=
  match ch with
  | STAGEDENSE => k_nu_ i + ncs p i + k_nx2 i + k_nx2 i
  | _ => k_nu_ i + ncs p i + k_nx2 i
  end.
Definition factor_bufs : list buf := [Qhat; Rhat; Shat; qhat; rhat; AtV; BtV; Fff; Ffb; Fkkt; Vxx; vx].
(** ProximalRiccatiSolver, proximal-riccati.hxx 13-31, and the initial KKT
    matrix, riccati-kernel.hpp *)
Definition new_solver : list op :=
  map (fun b => Resize b (S N)) factor_bufs ++ [Resize K0mat 1; Resize K0ff 1] ++
  for_ (S N) (fun i =>
    let n := k_nx i in let m := k_nu_ i in let c := ncs p i in let n2 := k_nx2 i in
    [Put Qhat i (Lit n n); Put Rhat i (Lit m m); Put Shat i (Lit n m); Put qhat i (Lit n 1);
     Put rhat i (Lit m 1); Put AtV i (Lit n n2); Put BtV i (Lit m n2);
     Put Fff i (Lit (gain_rows i) 1); Put Ffb i (Lit (gain_rows i) n);
     Put Fkkt i (Lit (m + c) (m + c)); Put Vxx i (Lit n n); Put vx i (Lit n 1)]) ++
  [Put K0mat 0 (Lit (k_nx 0 + i_nr p) (k_nx 0 + i_nr p));
   Put K0ff 0 (Lit (k_nx 0 + i_nr p) 1)].

(** setup, solver-proxddp.hxx 158-199 *)
Definition setup : list op := [Chk (integrity p)] ++ new_results ++ new_workspace ++ new_solver.

(** ** Routines *)

(** access to stages_[i] *)
Definition stage_at (i : nat) : op := Chk (i <? N).
(** a vector of size n *)
Definition is_vec (e : ex) (n : nat) : op := Fit e (Lit n 1).
(** ManifoldAbstract::integrate(x, v, out) and difference(x, y, out) on a space of
    dimensions nx, ndx: the output is a Ref *)
Definition integrate (nx ndx : nat) (x v out : ex) : list op := [is_vec x nx; is_vec v ndx; is_vec out nx].
Definition difference (nx ndx : nat) (x y out : ex) : list op := [is_vec x nx; is_vec y nx; is_vec out ndx].
Definition block_row (l : list nat) (j : nat) (e : ex) : ex := RowsOf (offset l j) (nth j l 0) e.

(** evaluate and computeDerivatives, core/traj-opt-problem.hxx 51-123: lengths of
    the trajectories (data keep their sizes) *)
Definition evaluate (bx bu : buf) : list op :=
  [LenIs bx (S N); LenIs bu N] ++ for_ N (fun i => [Uses (Buf bx i); Uses (Buf bu i)]) ++ [Uses (Buf bx N)].

(** ConstraintSetProduct: blocks of the argument and of the result; a box needs
    its own length (normalConeProjection, computeActiveSet) *)
Definition prod_sets (l : list cstr) (z out : ex) : list op :=
  for_ (length l) (fun j =>
    let c := nth j l (Cstr 0 0 0 None) in
    match c_box c with Some n => [is_vec (block_row (dims l) j z) n] | None => [] end ++
    [Uses (block_row (dims l) j z); Uses (block_row (dims l) j out)]).

(** computeMultipliers, 220-318 *)
Definition mult_block (vs : buf) (i : nat) (l : list cstr) : list op :=
  [Fit (Buf Shift i) (Lit (total (dims l)) 1)] ++
  for_ (length l) (fun j => [Fit (block_row (dims l) j (Buf Shift i)) (Buf (CV i) j)]) ++
  [Fit (Buf Shift i) (Buf Pvs i)] ++
  prod_sets l (Buf Shift i) (Buf VsPlus i) ++
  prod_sets l (Buf Shift i) (Buf Active i) ++
  [Put Lv i (Buf VsPlus i); Fit (Buf Lv i) (Buf vs i); Put VsPlus i (Buf VsPlus i);
   is_vec (Buf Lv i) (total (dims l));
   Put Infeas i (Add (Buf VsPlus i) (Buf Pvs i)); Uses (RowsOf i 1 (Buf Viol 0))].
Definition computeMultipliers (xs lams vs : buf) : list op :=
  [LenIs Lv (S N); LenIs Pvs (S N)] ++
  [Put Slack 0 (Buf IVal 0); Put LamsPlus 0 (Add (Buf lams 0) (Buf Slack 0))] ++
  for_ N (fun i => let s := st i in
    [stage_at i; is_vec (Buf vs i) (nc s); is_vec (Buf lams (S i)) (ndx2 s)] ++
    difference (nx2 s) (ndx2 s) (Buf xs (S i)) (Buf Xnext i) (Buf Slack (S i)) ++
    [Put LamsPlus (S i) (Add (Buf lams (S i)) (Buf Slack (S i)))] ++
    mult_block vs i (cs s)) ++
  match tcs p with [] => [] | _ => mult_block vs N (tcs p) end.

(** ALFunction::evaluate, merit-function.hxx 33-64 *)
Definition merit : list op :=
  [Uses (Buf LamsPlus 0)] ++
  for_ N (fun i => [Uses (Buf LamsPlus (S i)); Uses (Buf VsPlus i)]) ++
  match tcs p with [] => [] | _ => [Uses (Buf VsPlus N)] end.

(** LagrangianDerivatives::compute, core/lagrangian.hpp 29-92 *)
Definition lagrangian (lams vs : buf) : list op :=
  [Put Lx 0 (Mul (Tr (Buf IJx 0)) (Buf lams 0))] ++
  for_ N (fun i => let s := st i in
    [stage_at i; Fit (Buf Lx i) (Buf CLx i); Put Lu i (Buf CLu i);
     Fit (Buf Lx i) (Mul (Tr (Buf DJx i)) (Buf lams (S i)));
     Fit (Buf Lu i) (Mul (Tr (Buf DJu i)) (Buf lams (S i)));
     Fit (Buf vs i) (Lit (total (dims (cs s))) 1)] ++
    for_ (length (cs s)) (fun j =>
      [Fit (Buf Lx i) (Mul (Tr (Buf (CJx i) j)) (block_row (dims (cs s)) j (Buf vs i)));
       Fit (Buf Lu i) (Mul (Tr (Buf (CJu i) j)) (block_row (dims (cs s)) j (Buf vs i)))]) ++
    [Put Lx (S i) (Buf lams (S i))]) ++
  [Fit (Buf Lx N) (Buf CLx N); Fit (Buf vs N) (Lit (ncT p) 1)] ++
  for_ (length (tcs p)) (fun j =>
    [Fit (Buf Lx N) (Mul (Tr (Buf (CJx N) j)) (block_row (dims (tcs p)) j (Buf vs N)))]).

(** computeCriterion, 703-732 *)
Definition criterion : list op :=
  for_ N (fun i => [Uses (Buf Lx i); Uses (Buf Lu i); Uses (Buf Slack i); Uses (Buf Lv i);
    Uses (RowsOf i 1 (Buf Crits 0)); Uses (RowsOf i 1 (Buf StDual 0)); Uses (RowsOf i 1 (Buf CtDual 0))]) ++
  [Uses (Buf Lx N); Uses (Buf Lv N); Uses (RowsOf N 1 (Buf StDual 0)); Uses (RowsOf N 1 (Buf Crits 0))].

(** computeProjectedJacobians, 25-69.  [jac(j, 0)] is a block of the buffer. *)
Definition blk (l : list nat) (j cs ncol : nat) (e : ex) : ex := ColsOf cs ncol (block_row l j e).
Definition projected_jacobians : list op :=
  for_ N (fun i => let s := st i in let l := dims (cs s) in
    [stage_at i] ++
    for_ (length (cs s)) (fun j =>
      [Fit (blk l j 0 (ndx1 s) (Buf ProjJ i)) (Buf (CJx i) j);
       Fit (blk l j (ndx1 s) (nu s) (Buf ProjJ i)) (Buf (CJu i) j)]) ++
    let Px := ColsOf 0 (ndx1 s) (Buf ProjJ i) in
    let Pu := ColsOf (ndx1 s) (nu s) (Buf ProjJ i) in
    [Put CorrX i (Mul (Tr Px) (Buf Lv i)); Put CorrU i (Mul (Tr Pu) (Buf Lv i))] ++
    prod_sets (cs s) (Buf Shift i) (Buf ProjJ i) ++
    [Fit (Buf CorrX i) (Mul (Tr Px) (Buf Lv i)); Fit (Buf CorrU i) (Mul (Tr Pu) (Buf Lv i))]) ++
  match tcs p with
  | [] => []
  | _ =>
    let l := dims (tcs p) in
    for_ (length (tcs p)) (fun j => [Fit (blk l j 0 (t_ndx p) (Buf ProjJ N)) (Buf (CJx N) j)]) ++
    let Px := ColsOf 0 (t_ndx p) (Buf ProjJ N) in
    [Put CorrX N (Mul (Tr Px) (Buf Lv N))] ++
    prod_sets (tcs p) (Buf Shift N) (Buf ProjJ N) ++
    [Fit (Buf CorrX N) (Mul (Tr Px) (Buf Lv N))]
  end.

(** updateLQSubproblem, 734-805; [exact] is hess_approx_ == EXACT *)
Definition update_knots (exact : bool) : list op :=
  [LenIs KQ (S N)] ++
  for_ N (fun i => let s := st i in
    [Put KA i (Buf DJx i); Put KB i (Buf DJu i); Put Kf i (Buf Slack (S i));
     Put KQ i (Buf CLxx i); Put KS i (Buf CLxu i); Put KR i (Buf CLuu i);
     Put Kq i (Buf Lx i); Put Kr i (Buf Lu i)] ++
    (if exact then [Fit (Buf KQ i) (Buf DHxx i); Fit (Buf KS i) (Buf DHxu i); Fit (Buf KR i) (Buf DHuu i)]
     else []) ++
    [Fit (RowsOf 0 (ncs p i) (Buf KC i)) (ColsOf 0 (ndx1 s) (Buf ProjJ i));
     Fit (RowsOf 0 (ncs p i) (Buf KD i)) (ColsOf (ndx1 s) (nu s) (Buf ProjJ i));
     Fit (RowsOf 0 (ncs p i) (Buf Kd i)) (Buf Lv i);
     Fit (RowsOf 0 (k_nx i) (Buf Kq i)) (Buf CorrX i);
     Fit (RowsOf 0 (k_nu_ i) (Buf Kr i)) (Buf CorrU i)]) ++
  [Put KQ N (Buf CLxx N); Put Kq N (Buf Lx N); Put KC N (ColsOf 0 (t_ndx p) (Buf ProjJ N));
   Put Kd N (Buf Lv N); Fit (Buf Kq N) (Buf CorrX N)].
Definition update_init : list op :=
  [Put G0 0 (Buf IJx 0); Put g0 0 (Buf IVal 0); Fit (Buf KQ 0) (Buf IHxx 0)].

(** backward, proximal-riccati.hxx 34-62, with terminalSolve and stageKernelSolve,
    riccati-kernel.hxx 105-193 and 209-312, nth = 0.  Blocks of [ff], [fb], of
    the KKT matrices. *)
Definition fblk (i k : nat) (e : ex) : ex :=
  let d := [k_nu_ i; ncs p i; k_nx2 i] in RowsOf (offset d k) (nth k d 0) e.
Definition kblk (i r c : nat) : ex :=
  let d := [k_nu_ i; ncs p i] in
  ColsOf (offset d c) (nth c d 0) (RowsOf (offset d r) (nth r d 0) (Buf Fkkt i)).
Definition solves (i : nat) (e : ex) : op :=   (* kktChol.solveInPlace on the top two blocks *)
  Uses (Mul (Buf Fkkt i) (RowsOf 0 (k_nu_ i + ncs p i) e)).
Definition terminal_solve (i : nat) : list op :=
  (if k_nu_ i =? 0 then
     [Fit (fblk i 1 (Buf Ffb i)) (Buf KC i); Fit (fblk i 1 (Buf Fff i)) (Buf Kd i)]
   else
     [Fit (kblk i 0 0) (Buf KR i); Fit (kblk i 0 1) (Tr (Buf KD i)); Fit (kblk i 1 0) (Buf KD i);
      Fit (fblk i 0 (Buf Fff i)) (Buf Kr i); Fit (fblk i 1 (Buf Fff i)) (Buf Kd i);
      Fit (fblk i 0 (Buf Ffb i)) (Tr (Buf KS i)); Fit (fblk i 1 (Buf Ffb i)) (Buf KC i);
      solves i (Buf Fff i); solves i (Buf Ffb i)]) ++
  [Put Vxx i (Buf KQ i); Fit (Buf Vxx i) (Mul (Tr (Buf KC i)) (fblk i 1 (Buf Ffb i)));
   Put vx i (Buf Kq i); Fit (Buf vx i) (Mul (Tr (Buf KC i)) (fblk i 1 (Buf Fff i)))] ++
  (if k_nu_ i =? 0 then [] else
     [Fit (Buf Vxx i) (Mul (Buf KS i) (fblk i 0 (Buf Ffb i)));
      Fit (Buf vx i) (Mul (Buf KS i) (fblk i 0 (Buf Fff i)))]).
Definition stage_solve (i : nat) : list op :=
  let vplus := Add (Buf vx (S i)) (Mul (Buf Vxx (S i)) (Buf Kf i)) in
  [Uses vplus;
   Put AtV i (Mul (Tr (Buf KA i)) (Buf Vxx (S i))); Put BtV i (Mul (Tr (Buf KB i)) (Buf Vxx (S i)));
   Put Qhat i (Buf KQ i); Fit (Buf Qhat i) (Mul (Buf AtV i) (Buf KA i));
   Put Rhat i (Buf KR i); Fit (Buf Rhat i) (Mul (Buf BtV i) (Buf KB i));
   Put Shat i (Buf KS i); Fit (Buf Shat i) (Mul (Buf AtV i) (Buf KB i));
   Put qhat i (Buf Kq i); Fit (Buf qhat i) (Mul (Tr (Buf KA i)) vplus);
   Put rhat i (Buf Kr i); Fit (Buf rhat i) (Mul (Tr (Buf KB i)) vplus);
   Fit (kblk i 0 0) (Buf Rhat i); Fit (kblk i 0 1) (Tr (Buf KD i)); Fit (kblk i 1 0) (Buf KD i);
   Fit (fblk i 0 (Buf Fff i)) (Buf rhat i); Fit (fblk i 1 (Buf Fff i)) (Buf Kd i);
   Fit (fblk i 0 (Buf Ffb i)) (Tr (Buf Shat i)); Fit (fblk i 1 (Buf Ffb i)) (Buf KC i);
   solves i (Buf Fff i); solves i (Buf Ffb i);
   Fit (fblk i 2 (Buf Fff i)) (Buf Kf i); Fit (fblk i 2 (Buf Fff i)) (Mul (Buf KB i) (fblk i 0 (Buf Fff i)));
   Fit (fblk i 2 (Buf Ffb i)) (Buf KA i); Fit (fblk i 2 (Buf Ffb i)) (Mul (Buf KB i) (fblk i 0 (Buf Ffb i)));
   Put Vxx i (Buf Qhat i); Fit (Buf Vxx i) (Mul (Buf Shat i) (fblk i 0 (Buf Ffb i)));
   Fit (Buf Vxx i) (Mul (Tr (Buf KC i)) (fblk i 1 (Buf Ffb i)));
   Put vx i (Buf qhat i); Fit (Buf vx i) (Mul (Buf Shat i) (fblk i 0 (Buf Fff i)));
   Fit (Buf vx i) (Mul (Tr (Buf KC i)) (fblk i 1 (Buf Fff i)))].
Definition k0_blk (r c : nat) : ex :=
  let d := [k_nx 0; i_nr p] in ColsOf (offset d c) (nth c d 0) (RowsOf (offset d r) (nth r d 0) (Buf K0mat 0)).
Definition k0_seg (r : nat) : ex :=
  let d := [k_nx 0; i_nr p] in RowsOf (offset d r) (nth r d 0) (Buf K0ff 0).
Definition backward : list op :=
  terminal_solve N ++ flat_map stage_solve (rev (seq 0 N)) ++
  [Fit (k0_blk 0 0) (Buf Vxx 0); Fit (k0_blk 1 0) (Buf G0 0); Fit (k0_blk 0 1) (Tr (Buf G0 0));
   Fit (k0_seg 0) (Buf vx 0); Fit (k0_seg 1) (Buf g0 0); Uses (Mul (Buf K0mat 0) (Buf K0ff 0))].

(** forward, proximal-riccati.hxx 65-76, computeInitial and forwardImpl,
    riccati-kernel.hxx 196-207 and 315-377 *)
Definition forward : list op :=
  [Fit (Buf Dxs 0) (k0_seg 0); Fit (Buf Dlams 0) (k0_seg 1)] ++
  for_ (S N) (fun t =>
    [is_vec (Buf Dxs t) (k_nx t); is_vec (Buf Dvs t) (ncs p t)] ++
    (if k_nu_ t =? 0 then [] else
       [is_vec (Buf Dus t) (k_nu_ t); Put Dus t (fblk t 0 (Buf Fff t));
        Fit (Buf Dus t) (Mul (fblk t 0 (Buf Ffb t)) (Buf Dxs t))]) ++
    [Put Dvs t (fblk t 1 (Buf Fff t)); Fit (Buf Dvs t) (Mul (fblk t 1 (Buf Ffb t)) (Buf Dxs t))] ++
    (if t =? N then [] else
       [Fit (Buf Dlams (S t)) (Buf Kf t); Put Dxs (S t) (fblk t 2 (Buf Fff t));
        Fit (Buf Dxs (S t)) (Mul (fblk t 2 (Buf Ffb t)) (Buf Dxs t));
        Put Dlams (S t) (Buf vx (S t)); Fit (Buf Dlams (S t)) (Mul (Buf Vxx (S t)) (Buf Dxs (S t)))])).

(** innerLoop 605-611: the LQ problem is updated, then solved (serial solver) *)
Definition lq_step (exact : bool) : list op :=
  update_knots exact ++ update_init ++ match ch with SERIAL => backward ++ forward | _ => [] end.

(** 614-633: copy of the gains; the targets are Refs on the results
    (results-base.hpp 41-54) *)
Definition copy_gains : list op :=
  for_ N (fun i => [Fit (ColsOf 0 1 (Buf Rgain i)) (Buf Fff i); Fit (DropCol (Buf Rgain i)) (Buf Ffb i)]) ++
  [Fit (RowsOf 0 (ncT p) (ColsOf 0 1 (Buf Rgain N))) (Buf Fff N);
   Fit (ColsOf 0 1 (Buf Rgain N)) (Bottom (Buf Rgain N) (Buf Fff N));
   Fit (DropCol (Buf Rgain N)) (Bottom (Buf Rgain N) (Buf Ffb N))].
(** getCtrlFeedbacks, getCtrlFeedforwards, results-base.hpp 56-76 *)
Definition ctrl_gains : list op :=
  for_ N (fun i => [Uses (TopAs (Buf Rus i) (DropCol (Buf Rgain i)));
                    Uses (TopAs (Buf Rus i) (ColsOf 0 1 (Buf Rgain i)))]).

(** ALFunction::directionalDerivative, merit-function.hxx 67-105 *)
Definition slope : list op :=
  lagrangian LamsPlus VsPlus ++
  [LenIs Dxs (S N); LenIs Dus N; LenIs Dvs (S N); LenIs Dlams (S N); Uses (Add (Buf Lx 0) (Buf Dxs 0))] ++
  for_ N (fun i => [Uses (Add (Buf Lx (S i)) (Buf Dxs (S i))); Uses (Add (Buf Lu i) (Buf Dus i))]).

(** tryLinearStep, 111-155, with vectorMultiplyAdd, math.hpp 226-235 *)
Definition multiply_add (a b c : buf) : list op :=
  [LenIs a (S N); LenIs b (S N); LenIs c (S N)] ++
  for_ (S N) (fun i => [Put c i (Add (Buf a i) (Buf b i))]).
Definition linear_step : list op :=
  [LenIs Rxs (S N); LenIs Rus N; LenIs Rlams (S N); LenIs Rvs (S N)] ++
  multiply_add Rlams Dlams Tlams ++ multiply_add Rvs Dvs Tvs ++
  let dx_tmp := Longest (map (pair Dxs) (seq 0 N) ++ [(Dxs, N)]) in
  let du_tmp := Longest (map (pair Dus) (seq 0 N)) in
  for_ N (fun i => let s := st i in
    [stage_at i; Fit (RowsOf 0 (ndx1 s) dx_tmp) (Buf Dxs i); Fit (RowsOf 0 (nu s) du_tmp) (Buf Dus i)] ++
    integrate (nx1 s) (ndx1 s) (Buf Rxs i) (RowsOf 0 (ndx1 s) dx_tmp) (Buf Txs i) ++
    integrate (nu s) (nu s) (Buf Rus i) (RowsOf 0 (nu s) du_tmp) (Buf Tus i)) ++
  [Chk (1 <=? N); Fit (TopAs (Buf Dxs N) dx_tmp) (Buf Dxs N)] ++
  let s := st (N - 1) in
  integrate (nx2 s) (ndx2 s) (Buf Rxs N) (TopAs (Buf Dxs N) dx_tmp) (Buf Txs N) ++
  evaluate Txs Tus.

(** tryNonlinearRollout, 325-416.  [lams[0]] is used as a temporary first. *)
Definition rollout_first : list op :=
  [stage_at 0; Put Tlams 0 (Buf Dxs 0)] ++
  integrate (nx1 (st 0)) (ndx1 (st 0)) (Buf Rxs 0) (Buf Tlams 0) (Buf Txs 0) ++
  [Put Tlams 0 (Add (Buf Rlams 0) (Buf Dlams 0))].
Definition rollout_stages : list op :=
  for_ N (fun t => let s := st t in
    let d := [nu s; nc s; ndx2 s] in
    let b k e := RowsOf (offset d k) (nth k d 0) e in
    [stage_at t; Fit (Buf Fff t) (Lit (total d) 1); Fit (Buf Ffb t) (Lit (total d) (ndx1 s));
     Put Dus t (b 0 (Buf Fff t)); Fit (Buf Dus t) (Mul (b 0 (Buf Ffb t)) (Buf Dxs t))] ++
    integrate (nu s) (nu s) (Buf Rus t) (Buf Dus t) (Buf Tus t) ++
    [Put Dvs t (b 1 (Buf Fff t)); Fit (Buf Dvs t) (Mul (b 1 (Buf Ffb t)) (Buf Dxs t));
     Put Tvs t (Add (Buf Rvs t) (Buf Dvs t)); Put Txs (S t) (Buf Xnext t)] ++
    difference (nx2 s) (ndx2 s) (Buf Rxs (S t)) (Buf Txs (S t)) (Buf Dxs (S t)) ++
    [Put Tlams (S t) (Add (Buf Rlams (S t)) (Buf Dlams (S t)))]) ++
  match tcs p with
  | [] => []
  | _ =>
    let d := [k_nu_ N; ncs p N] in
    let b k e := RowsOf (offset d k) (nth k d 0) e in
    [Fit (Buf Fff N) (Lit (total d) 1); Fit (Buf Ffb N) (Lit (total d) (k_nx N));
     Put Dvs N (b 1 (Buf Fff N)); Fit (Buf Dvs N) (Mul (b 1 (Buf Ffb N)) (Buf Dxs N));
     Put Tvs N (Add (Buf Rvs N) (Buf Dvs N))]
  end.
Definition nonlinear_rollout : list op := rollout_first ++ rollout_stages.

(** run, 441-470, with the default guess or an accepted one (same sizes), and the
    forced initial condition *)
Definition start (default force : bool) : list op :=
  (if default then init_xs Rxs ++ init_us Rus else []) ++
  (if force then match i_x0 p with Some n => [Put Txs 0 (Lit n 1)] | None => [] end else []) ++
  [Copy Pxs Rxs; Copy Pus Rus; Copy Pvs Rvs].
(** 665-668 and 487-504 *)
Definition accept : list op := [Copy Rxs Txs; Copy Rus Tus; Copy Rvs Tvs; Copy Rlams Tlams].
Inductive mode := NEWTON | PRIMAL | PRIMAL_DUAL.
Definition outer (update : option mode) : list op :=
  [Copy Pxs Rxs; Copy Pus Rus] ++
  match update with
  | None => []
  | Some NEWTON => [Copy Pvs Rvs]
  | Some PRIMAL => [Copy Pvs VsPlus]
  | Some PRIMAL_DUAL => [Copy Pvs VsPdal]
  end.

(** The calls a run is made of. *)
Inductive call :=
| Start (default force : bool) | Evaluate (trial : bool) | Multipliers (trial : bool) | Merit
| Lagrangian | Criterion | Projected | LqStep (exact : bool) | CopyGains | CtrlGains | Slope
| LinearStep | Rollout | Accept | Outer (update : option mode).
Definition code (c : call) : list op :=
  match c with
  | Start d f => start d f
  | Evaluate false => evaluate Rxs Rus
  | Evaluate true => evaluate Txs Tus
  | Multipliers false => computeMultipliers Rxs Rlams Rvs
  | Multipliers true => computeMultipliers Txs Tlams Tvs
  | Merit => merit
  | Lagrangian => lagrangian Rlams Rvs
  | Criterion => criterion
  | Projected => projected_jacobians
  | LqStep e => lq_step e
  | CopyGains => copy_gains
  | CtrlGains => ctrl_gains
  | Slope => slope
  | LinearStep => linear_step
  | Rollout => nonlinear_rollout
  | Accept => accept
  | Outer u => outer u
  end.
(** setup followed by any calls *)
Definition session (l : list call) : list op := setup ++ flat_map code l.

(** ** Receding horizon: cycleProblem; [p] is the new problem *)

(** ResultsTpl::cycleAppend, results.hxx 44-72, called with
    problem.getInitState() (which throws unless the initial condition is a state
    error, core/traj-opt-problem.hpp 166-172) *)
Definition cycle_results : list op :=
  let s := st (N - 1) in
  match i_x0 p with
  | None => [Chk false]
  | Some k =>
    [Put Rxs 0 (Buf Rxs N); Put Rus 0 (Buf Rus (N - 1));
     Rot Rxs 0 0; Rot Rus 0 0; Rot Rvs 0 1; Rot Rlams 0 0; Rot Rgain 0 1;
     Put Rxs 0 (Lit k 1);
     Put Rgain (N - 1) (Lit (nu s + nc s + ndx2 s) (ndx1 s + 1)); Put Rvs (N - 1) (Lit (nc s) 1);
     Put Rlams N (Lit (ndx2 s) 1); Put Rlams 0 (Lit (i_nr p) 1)] ++
    match tcs p with
    | [] => []
    | _ => [Put Rgain N (Lit (ncT p) (t_ndx p + 1)); Put Rvs N (Lit (ncT p) 1)]
    end
  end.

(** WorkspaceTpl::cycleAppend, workspace.hxx 97-155.  The data of the stages are
    rotated (the terminal cost data are not in the same vector), and the last ones
    replaced by the data created by the new stage. *)
Definition dyn_bufs : list buf := [Xnext; DJx; DJu; DHxx; DHxu; DHuu].
Definition cost_bufs : list buf := [CLx; CLu; CLxx; CLxu; CLuu].
Definition cycle_data1 : list op := map (fun b => Rot b 0 0) dyn_bufs ++ map (fun b => Rot b 0 1) cost_bufs.
Definition cycle_data2 : list op :=
  for_ (N - 1) (fun i => [Copy (CV i) (CV (S i)); Copy (CJx i) (CJx (S i)); Copy (CJu i) (CJu (S i))]).
Definition cycle_data3 : list op :=
  let s := st (N - 1) in
  [Resize (CV (N - 1)) 0; Resize (CJx (N - 1)) 0; Resize (CJu (N - 1)) 0] ++
  cstr_data (N - 1) (cs s) ++ cost_data (N - 1) (k_ndx s) (k_nu s) ++ dyn_data (N - 1).
Definition cycle_ws1 : list op :=
  let s := st (N - 1) in
  [Chk (integrity p);
   Rot Txs 1 0; Rot Tus 1 0; Rot Tvs 0 1; Put Tvs (N - 1) (Lit (nc s) 1); Rot Tlams 1 0;
   Rot Pxs 0 0; Rot Pus 0 0; Rot Pvs 0 1; Put Pvs (N - 1) (Lit (nc s) 1)].
Definition cycle_ws2 : list op :=
  [Copy VsPdal Tvs; Copy VsPlus VsPdal; Copy LamsPlus Tlams; Copy Slack Tlams; Copy Infeas Tvs;
   Copy Shift Pvs].
Definition cycle_ws3 : list op :=
  let s := st (N - 1) in
  map (fun b => Rot b 0 1) knot_bufs ++ new_knot (N - 1) ++
  [Rot ProjJ 0 1; Put ProjJ (N - 1) (Lit (total (dims (cs s))) (ndx1 s + nu s));
   Rot Active 0 1; Put Active (N - 1) (Lit (nc s) 1)].
Definition cycle_ws4 : list op := [Copy Lx Dxs; Copy Lu Dus; Copy Lv Dvs; Copy CorrX Lx; Copy CorrU Lu].

(** cycleAppend of the linear solvers: proximal-riccati.hxx 78-86,
    parallel-solver.hxx 246-258 (everything is built again),
    dense-riccati.hxx 119-146 (the last factor is only set to zero: it keeps the
    sizes of the stage that left) *)
Definition factor (i : nat) : list op :=
  let n := k_nx i in let m := k_nu_ i in let c := ncs p i in let n2 := k_nx2 i in
  [Put Qhat i (Lit n n); Put Rhat i (Lit m m); Put Shat i (Lit n m); Put qhat i (Lit n 1);
   Put rhat i (Lit m 1); Put AtV i (Lit n n2); Put BtV i (Lit m n2);
   Put Fff i (Lit (gain_rows i) 1); Put Ffb i (Lit (gain_rows i) n);
   Put Fkkt i (Lit (m + c) (m + c)); Put Vxx i (Lit n n); Put vx i (Lit n 1)].
Definition cycle_solver : list op :=
  match ch with
  | PARALLEL => map (fun b => Resize b 0) factor_bufs ++ new_solver
  | SERIAL => map (fun b => Rot b 0 1) factor_bufs ++ factor (N - 1)
  | STAGEDENSE =>
      map (fun b => Rot b 0 1) factor_bufs ++
      [Put Vxx (N - 1) (Lit (k_nx (N - 1)) (k_nx (N - 1))); Put vx (N - 1) (Lit (k_nx (N - 1)) 1)]
  end.

(** cycleProblem, solver-proxddp.hxx 201-209 *)
Definition cycle : list op :=
  cycle_results ++ cycle_data1 ++ cycle_data2 ++ cycle_data3 ++ cycle_ws1 ++ cycle_ws2 ++ cycle_ws3 ++
  lqr_init ++ cycle_ws4 ++ cycle_solver.
End Programs.

(** replaceStageCircular, core/traj-opt-problem.hxx 167-174 *)
Definition cycled (p : prob) (s : stage) : prob :=
  Prob (i_ndx p) (i_nr p) (i_x0 p) (tl (stages p) ++ [s]) (t_nx p) (t_ndx p) (t_nu p) (tcs p).

(** A session of a receding-horizon controller. *)
Inductive event := Call (c : call) | Cycle (s : stage).
Fixpoint events (p : prob) (ch : choice) (l : list event) : list op :=
  match l with
  | [] => []
  | Call c :: l => code p ch c ++ events p ch l
  | Cycle s :: l => cycle (cycled p s) ch ++ events (cycled p s) ch l
  end.
Fixpoint last_problem (p : prob) (l : list event) : prob :=
  match l with
  | [] => p
  | Call _ :: l => last_problem p l
  | Cycle s :: l => last_problem (cycled p s) l
  end.
Definition mpc (p : prob) (ch : choice) (l : list event) : list op := setup p ch ++ events p ch l.
