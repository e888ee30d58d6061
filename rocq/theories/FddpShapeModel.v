(** Sizes of the buffers of SolverFDDP, and its no-allocation scopes:
    ResultsFDDP (solvers/fddp/results.hpp), WorkspaceFDDP (fddp/workspace.hxx,
    solvers/workspace-base.hpp, solvers/value-function.hpp), every routine of an
    iteration (fddp/solver-fddp.hxx, solver-fddp.hpp) and cycleAppend.

    Only sizes are modelled, not values.  A routine is the list of the size
    effects and of the size checks of its statements, in program order.  Eigen
    rules used: assigning to a Matrix (with or without noalias) resizes it, which
    allocates when the number of coefficients changes and is not zero
    (DenseStorage::resize); compound assignments and assignments to a Ref or to a
    block need equal sizes; products need matching inner dimensions.

    With ALIGATOR_EIGEN_CHECK_MALLOC (math.hpp 29-52) an Eigen allocation between
    ALIGATOR_NOMALLOC_BEGIN and ALIGATOR_NOMALLOC_END fails an assertion.

    Costs, dynamics and constraints keep the sizes of the data they were given and
    may allocate; the operations of the spaces do not.  Not modelled: buffers
    internal to Eigen's products and decompositions, threads. *)
From Coq Require Import List Arith Bool.
From Verif Require Import ShapeModel.
Import ListNotations.

(** ** Memory of sizes *)

Inductive fbuf :=
(* results: xs, us, gains_ *)
| Rxs | Rus | Rgain
(* workspace: trial_xs, trial_us, dyn_slacks, dxs, dus, Quuks_, ftVxx_, kktRhs,
   llts_, JtH_temp_ *)
| Txs | Tus | Gap | Dxs | Dus | Quuk | FtV | Kkt | Llt | JtH
(* value_params: Vx_, Vxx_; q_params: grad_, hess_ and (ndx_, nu_) *)
| Vx | Vxx | Qg | Qh | Qd
(* data of the stages: xnext_, jac_buffer_; grad_, hess_ and (ndx_, nu_) of the
   running costs, then of the terminal cost *)
| Xnext | Jac | Cg | Ch | Cd | Tg | Th | Td.
Scheme Equality for fbuf.

(** Length of a std::vector; rows and columns of its elements.  [lock]: Eigen
    allocations are forbidden. *)
Record mem := Mem { cells : fbuf -> nat * (nat -> nat * nat); lock : bool }.
Definition mem0 : mem := Mem (fun _ => (0, fun _ => (0, 1))) false.
Definition len (m : mem) (b : fbuf) : nat := fst (cells m b).
Definition at_ (m : mem) (b : fbuf) (i : nat) : nat * nat := snd (cells m b) i.
Definition put (m : mem) (b : fbuf) (v : nat * (nat -> nat * nat)) : mem :=
  Mem (fun b' => if fbuf_beq b b' then v else cells m b') (lock m).

Inductive reason :=
| Range    (* access out of the range of a vector *)
| Size     (* sizes that do not match: Eigen assertion, or memory error *)
| Dangle   (* the object of a Ref has been reallocated *)
| Malloc   (* Eigen allocation while it is forbidden *)
| Throw    (* RuntimeError *)
| Assert.  (* assert of the code *)
Inductive res (A : Type) := Ok (a : A) | Stop (r : reason).
Arguments Ok {A}. Arguments Stop {A}.
Definition bind {A B} (x : res A) (f : A -> res B) : res B :=
  match x with Ok a => f a | Stop r => Stop r end.

Inductive ex :=
| Buf (b : fbuf) (i : nat)
| Lit (r c : nat)
| Tr (e : ex)
| Add (a b : ex)
| Mul (a b : ex)
| ColsOf (s n : nat) (e : ex)       (* leftCols, col *)
| LastCols (n : nat) (e : ex)       (* rightCols(n) *)
| DropCol (e : ex)                  (* rightCols(cols() - 1) *)
| Diag (e : ex)                     (* diagonal *)
(* Ref members on grad_ (head(ndx), segment(ndx, nu)) and on hess_ (blocks), with
   (ndx, nu) = d[i]; [true] is the part of u *)
| Seg (d g : fbuf) (i : nat) (u : bool)
| Blk (d h : fbuf) (i : nat) (r c : bool).

Definition pick (d : nat * nat) (u : bool) : nat := if u then snd d else fst d.
Fixpoint size (m : mem) (e : ex) : res (nat * nat) :=
  match e with
  | Buf b i => if i <? len m b then Ok (at_ m b i) else Stop Range
  | Lit r c => Ok (r, c)
  | Tr e => bind (size m e) (fun x => Ok (snd x, fst x))
  | Add a b => bind (size m a) (fun x => bind (size m b) (fun y =>
                 if same x y then Ok x else Stop Size))
  | Mul a b => bind (size m a) (fun x => bind (size m b) (fun y =>
                 if snd x =? fst y then Ok (fst x, snd y) else Stop Size))
  | ColsOf s n e => bind (size m e) (fun x => if s + n <=? snd x then Ok (fst x, n) else Stop Size)
  | LastCols n e => bind (size m e) (fun x => if n <=? snd x then Ok (fst x, n) else Stop Size)
  | DropCol e => bind (size m e) (fun x => if 1 <=? snd x then Ok (fst x, snd x - 1) else Stop Size)
  | Diag e => bind (size m e) (fun x => Ok (Nat.min (fst x) (snd x), 1))
  | Seg d g i u =>
      if (i <? len m d) && (i <? len m g)
      then if same (at_ m g i) (fst (at_ m d i) + snd (at_ m d i), 1)
           then Ok (pick (at_ m d i) u, 1) else Stop Dangle
      else Stop Range
  | Blk d h i r c =>
      if (i <? len m d) && (i <? len m h)
      then let k := fst (at_ m d i) + snd (at_ m d i) in
           if same (at_ m h i) (k, k)
           then Ok (pick (at_ m d i) r, pick (at_ m d i) c) else Stop Dangle
      else Stop Range
  end.

(** number of coefficients *)
Definition count (s : nat * nat) : nat := fst s * snd s.
(** resizing from [s] to [s'] allocates *)
Definition allocates (s s' : nat * nat) : bool := negb (count s =? count s') && negb (count s' =? 0).

Inductive op :=
| Put (b : fbuf) (i : nat) (e : ex)   (* assignment to an owner: resizes *)
| PutR (b : fbuf) (i : nat) (e : ex)  (* the same, to an owner with Refs on it *)
| Fit (a e : ex)                      (* assignment to a view, +=, dimension of an argument *)
| Uses (e : ex)                       (* evaluation: norm, dot *)
| Temp (e : ex)                       (* temporary object *)
| Chk (r : reason) (c : bool)
| IsSize (r : reason) (e : ex) (a b : nat)   (* test of a size *)
| LenIs (r : reason) (b : fbuf) (n : nat)
| Resize (b : fbuf) (n : nat)         (* std::vector::resize *)
| Push (b : fbuf) (e : ex)            (* emplace_back of a new object *)
| Pop (b : fbuf)
| Rot (b : fbuf) (h : nat)            (* rotate_vec_left, utils/mpc-util.hpp 16-22 *)
| Copy (b b' : fbuf)                  (* b = b' *)
| User                                (* call of a cost, of a dynamics or of a constraint *)
| Lock (l : bool).                    (* ALIGATOR_NOMALLOC_BEGIN / END *)

Definition set_at (m : mem) (b : fbuf) (i : nat) (s : nat * nat) : mem :=
  put m b (len m b, fun j => if i =? j then s else at_ m b j).

Definition step (m : mem) (o : op) : res mem :=
  match o with
  | Put b i e => bind (size m e) (fun s =>
      if i <? len m b
      then if lock m && allocates (at_ m b i) s then Stop Malloc else Ok (set_at m b i s)
      else Stop Range)
  | PutR b i e => bind (size m e) (fun s =>
      if i <? len m b
      then if negb (count (at_ m b i) =? count s) then Stop Dangle else Ok (set_at m b i s)
      else Stop Range)
  | Fit a e => bind (size m a) (fun x => bind (size m e) (fun y => if same x y then Ok m else Stop Size))
  | Uses e => bind (size m e) (fun _ => Ok m)
  | Temp e => bind (size m e) (fun s => if lock m && negb (count s =? 0) then Stop Malloc else Ok m)
  | Chk r c => if c then Ok m else Stop r
  | IsSize r e a b => bind (size m e) (fun x => if same x (a, b) then Ok m else Stop r)
  | LenIs r b n => if len m b =? n then Ok m else Stop r
  | Resize b n => Ok (put m b (n, fun j => if j <? len m b then at_ m b j else (0, 1)))
  | Push b e => bind (size m e) (fun s =>
      if lock m && negb (count s =? 0) then Stop Malloc
      else Ok (put m b (S (len m b), fun j => if j <? len m b then at_ m b j else s)))
  | Pop b => if 1 <=? len m b then Ok (put m b (len m b - 1, at_ m b)) else Stop Range
  | Rot b h =>
      (* std::rotate(begin + h, begin + h + 1, end) *)
      if h + 1 <=? len m b
      then Ok (put m b (len m b, fun i =>
             if i <? h then at_ m b i else if S i =? len m b then at_ m b h else at_ m b (S i)))
      else Stop Range
  | Copy b b' =>
      if lock m && negb ((len m b =? len m b') &&
           forallb (fun i => negb (allocates (at_ m b i) (at_ m b' i))) (seq 0 (len m b')))
      then Stop Malloc else Ok (put m b (cells m b'))
  | User => if lock m then Stop Malloc else Ok m
  | Lock l => Ok (Mem (cells m) l)
  end.
Fixpoint exec (l : list op) (m : mem) : res mem :=
  match l with
  | [] => Ok m
  | o :: l => bind (step m o) (exec l)
  end.
Definition for_ (n : nat) (f : nat -> list op) : list op := flat_map f (seq 0 n).

Section Programs.
(** [chk]: the macro ALIGATOR_EIGEN_CHECK_MALLOC is defined *)
Variable chk : bool.
Variable p : prob.
(** coefficients in the Eigen objects that a copy of the stage model i makes
    (its costs, dynamics, spaces and constraints are values) *)
Variable owned : nat -> nat.
Notation N := (N p).
Notation st := (st p).

Definition BEGIN : list op := if chk then [Lock true] else [].
Definition END : list op := if chk then [Lock false] else [].
Definition scope (l : list op) : list op := BEGIN ++ l ++ END.
Definition stage_at (i : nat) : op := Chk Range (i <? N).
Definition is_vec (e : ex) (n : nat) : op := Fit e (Lit n 1).
(** ManifoldAbstract::integrate(x, v, out) and difference(x, y, out) on a space of
    dimensions nx, ndx *)
Definition integrate (nx ndx : nat) (x v out : ex) : list op := [is_vec x nx; is_vec v ndx; is_vec out nx].
Definition difference (nx ndx : nat) (x y out : ex) : list op := [is_vec x nx; is_vec y nx; is_vec out ndx].

(** ** Constructors *)

(** CostDataAbstractTpl, core/cost-abstract.hpp 94-110, and
    ExplicitDynamicsDataTpl, core/explicit-dynamics.hpp 68-110: xnext_ is made with
    nx2 entries, then assigned the neutral element of the first space *)
Definition stage_data (s : stage) : list op :=
  [Push Cg (Lit (k_ndx s + k_nu s) 1); Push Ch (Lit (k_ndx s + k_nu s) (k_ndx s + k_nu s));
   Push Cd (Lit (k_ndx s) (k_nu s));
   Push Xnext (Lit (nx1 s) 1); Push Jac (Lit (ndx2 s) (ndx1 s + nu s))].
(** TrajOptDataTpl, core/traj-opt-data.hxx 14-29 (constraints are not used) *)
Definition new_data : list op :=
  for_ N (fun i => stage_data (st i)) ++
  [Push Tg (Lit (t_ndx p + t_nu p) 1); Push Th (Lit (t_ndx p + t_nu p) (t_ndx p + t_nu p));
   Push Td (Lit (t_ndx p) (t_nu p))].

(** xs_default_init and us_default_init, core/traj-opt-problem.hpp 284-316: neutral()
    returns a temporary, which is moved *)
Definition init_xs (bx : fbuf) : list op :=
  [Resize bx (S N)] ++
  match i_x0 p with
  | Some n => [Put bx 0 (Lit n 1)]
  | None => [Chk Throw (1 <=? N); Temp (Lit (nx1 (st 0)) 1); Put bx 0 (Lit (nx1 (st 0)) 1)]
  end ++
  for_ N (fun i => [Temp (Lit (nx2 (st i)) 1); Put bx (S i) (Lit (nx2 (st i)) 1)]).
Definition init_us (bu : fbuf) : list op :=
  [Resize bu N] ++ for_ N (fun i => [Temp (Lit (nu (st i)) 1); Put bu i (Lit (nu (st i)) 1)]).

(** ResultsFDDPTpl, results.hpp 25-48 *)
Definition new_results : list op :=
  [Chk Throw (integrity p); Resize Rxs (S N); Resize Rus N] ++ init_xs Rxs ++ init_us Rus ++
  [Resize Rgain N] ++ for_ N (fun i => [Put Rgain i (Lit (nu (st i)) (ndx1 (st i) + 1))]).

(** WorkspaceBaseTpl, workspace-base.hpp 61-68, and WorkspaceFDDPTpl, workspace.hxx
    8-63, ValueFunctionTpl and QFunctionTpl, value-function.hpp 24-30 and 68-88.
    For an empty problem the constructor returns early and the solver refuses to
    run. *)
Definition new_workspace : list op :=
  new_data ++ init_xs Txs ++ init_us Tus ++
  [Chk Throw (integrity p);
   Resize Gap (S N); Resize Dxs (S N); Resize Dus N; Resize Quuk N; Resize FtV (S N); Resize Kkt N] ++
  (if 1 <=? N then
     [Put Gap 0 (Lit (ndx1 (st 0)) 1); Put FtV 0 (Lit (ndx1 (st 0)) 1)] ++
     for_ N (fun i => let s := st i in
       [Push Vx (Lit (ndx1 s) 1); Push Vxx (Lit (ndx1 s) (ndx1 s));
        Push Qg (Lit (ndx1 s + nu s) 1); Push Qh (Lit (ndx1 s + nu s) (ndx1 s + nu s));
        Push Qd (Lit (ndx1 s) (nu s));
        Put Gap (S i) (Lit (ndx2 s) 1); Put Dxs i (Lit (ndx1 s) 1); Put Dus i (Lit (nu s) 1);
        Put Quuk i (Lit (nu s) 1); Put FtV (S i) (Lit (ndx2 s) 1);
        Put Kkt i (Lit (nu s) (ndx1 s + 1)); Push Llt (Lit (nu s) (nu s));
        Push JtH (Lit (ndx1 s + nu s) (ndx1 s))]) ++
     [Put Dxs N (Lit (t_ndx p) 1); Push Vx (Lit (t_ndx p) 1); Push Vxx (Lit (t_ndx p) (t_ndx p));
      LenIs Assert Llt N]
   else []).

(** setup, solver-fddp.hxx 29-56 *)
Definition setup : list op := [Chk Throw (integrity p)] ++ new_results ++ new_workspace.

(** ** Routines *)

(** run, 283-300, with check_initial_guess_and_assign, core/traj-opt-problem.hpp
    328-346; a guess has the sizes of the problem.  assign_no_resize compares the
    sizes. *)
Inductive guess := Default | OnlyXs | Both.
Definition assign_no_resize (b : fbuf) (k : nat) (s : nat -> nat) : list op :=
  [LenIs Throw b k] ++ for_ k (fun i => [IsSize Throw (Buf b i) (s i) 1]).
Definition xs_size (i : nat) : nat := match i with 0 => nx1 (st 0) | S j => nx2 (st j) end.
Definition start (g : guess) (force : bool) : list op :=
  [Chk Throw (1 <=? N)] ++
  match g with
  | Default => init_xs Rxs ++ init_us Rus
  | OnlyXs => init_us Rus
  | Both => assign_no_resize Rxs (S N) xs_size ++ assign_no_resize Rus N (fun i => nu (st i))
  end ++
  (if force then match i_x0 p with Some n => [Put Txs 0 (Lit n 1)] | None => [Chk Throw false] end else []).

(** evaluation of the functions of a stage, and of the terminal cost with the
    control [u] *)
Definition stage_eval (bx bu : fbuf) (i : nat) : list op :=
  [stage_at i; is_vec (Buf bx i) (nx1 (st i)); is_vec (Buf bu i) (nu (st i)); Uses (Buf Cg i);
   Uses (Buf Xnext i); User].
Definition term_eval (bx : fbuf) (u : ex) : list op :=
  [is_vec (Buf bx N) (t_nx p); is_vec u (t_nu p); Uses (Buf Tg 0); User].
(** evaluate and computeDerivatives, core/traj-opt-problem.hxx 51-123; [unone_] has
    the size of the terminal cost *)
Definition evaluate : list op :=
  [LenIs Throw Rxs (S N); LenIs Throw Rus N; User] ++ for_ N (stage_eval Rxs Rus) ++
  term_eval Rxs (Lit (t_nu p) 1).

(** computeInfeasibility, 168-188: the gap of the next state is computed in the space
    of the current one *)
Definition init_state : list op := [Chk Throw (match i_x0 p with Some _ => true | None => false end)].
Definition init_size : nat := match i_x0 p with Some n => n | None => 0 end.
Definition infeasibility : list op :=
  scope ([stage_at 0] ++ init_state ++
    difference (nx1 (st 0)) (ndx1 (st 0)) (Buf Rxs 0) (Lit init_size 1) (Buf Gap 0) ++
    for_ N (fun i => let s := st i in
      [stage_at i] ++ difference (nx1 s) (ndx1 s) (Buf Rxs (S i)) (Buf Xnext i) (Buf Gap (S i)))).

(** backwardPass, 204-280 *)
Definition term_value : list op :=
  [Put Vx N (Seg Td Tg 0 false); Put Vxx N (Blk Td Th 0 false false); Uses (Diag (Buf Vxx N));
   Put FtV N (Mul (Buf Vxx N) (Buf Gap N)); Fit (Buf Vx N) (Buf FtV N)].
Definition stage_backward (i : nat) : list op :=
  let s := st i in
  let J := ColsOf 0 (ndx1 s + nu s) (Buf Jac i) in
  let Qu := Seg Qd Qg i true in
  let Quu := Blk Qd Qh i true true in
  let Qxu := Blk Qd Qh i false true in
  let ff := ColsOf 0 1 (Buf Kkt i) in
  let fb := LastCols (ndx1 s) (Buf Kkt i) in
  [stage_at i;
   Temp (Lit (owned i) 1);                                 (* StageModel sm = *problem.stages_[i] *)
   IsSize Assert (Buf Qg i) (ndx1 s + nu s) 1;
   PutR Qg i (Buf Cg i); Fit (Buf Qg i) (Mul (Tr J) (Buf Vx (S i)));
   Put JtH i (Mul (Tr J) (Buf Vxx (S i)));
   PutR Qh i (Buf Ch i); Fit (Buf Qh i) (Mul (Buf JtH i) J); Uses (Diag Quu);
   Fit ff Qu; Fit fb (Tr Qxu);
   Put Llt i Quu; Uses (Mul (Buf Llt i) (Buf Kkt i));
   Put Quuk i (Mul Quu ff);
   Put Vx i (Seg Qd Qg i false); Fit (Buf Vx i) (Mul (Tr fb) Qu);
   Put Vxx i (Blk Qd Qh i false false); Fit (Buf Vxx i) (Mul Qxu fb); Uses (Diag (Buf Vxx i));
   Put FtV i (Mul (Buf Vxx i) (Buf Gap i)); Fit (Buf Vx i) (Buf FtV i)].
Definition backward : list op := scope (term_value ++ flat_map stage_backward (rev (seq 0 N))).

(** computeCriterion, 191-201 *)
Definition criterion : list op := scope (for_ N (fun i => [Uses (Seg Qd Qg i true)])).

(** acceptGains, solver-fddp.hpp 144-149.  ALIGATOR_NOMALLOC_SCOPED restores the
    previous status; taken as allowed here. *)
Definition accept_gains : list op :=
  [LenIs Assert Kkt N; LenIs Assert Rgain N] ++ scope [Copy Rgain Kkt].

(** updateExpectedImprovement, 140-165 *)
Definition update_improvement : list op :=
  scope (for_ N (fun i => let ff := ColsOf 0 1 (Buf Rgain i) in
           [Uses (Add (Seg Qd Qg i true) ff); Uses (Add ff (Buf Quuk i))]) ++
         for_ (S N) (fun i => [Uses (Add (Buf Vx i) (Buf Gap i)); Uses (Add (Buf FtV i) (Buf Gap i))])).
(** expectedImprovement, 122-137 *)
Definition improvement : list op := scope (for_ (S N) (fun i => [Uses (Add (Buf Dxs i) (Buf FtV i))])).

(** forwardPass, 59-119: start, the part of a stage before the call of its
    functions, from there to the tests for NaN, and the rest *)
Definition fwd_start : list op :=
  BEGIN ++ [stage_at 0; Put Dxs 0 (Buf Gap 0)] ++
  integrate (nx1 (st 0)) (ndx1 (st 0)) (Buf Rxs 0) (Buf Dxs 0) (Buf Txs 0).
Definition fwd_control (i : nat) : list op :=
  let s := st i in
  [stage_at i; Put Dus i (ColsOf 0 1 (Buf Rgain i));
   Fit (Buf Dus i) (Mul (DropCol (Buf Rgain i)) (Buf Dxs i))] ++
  integrate (nu s) (nu s) (Buf Rus i) (Buf Dus i) (Buf Tus i) ++ END.
Definition fwd_state (i : nat) : list op :=
  let s := st i in
  stage_eval Txs Tus i ++ BEGIN ++
  [Put Dxs (S i) (Buf Gap (S i))] ++
  integrate (nx2 s) (ndx2 s) (Buf Xnext i) (Buf Dxs (S i)) (Buf Txs (S i)).
Definition fwd_rest (i : nat) : list op :=
  let s := st i in difference (nx1 s) (ndx1 s) (Buf Rxs (S i)) (Buf Txs (S i)) (Buf Dxs (S i)).
Definition fwd_stage (i : nat) : list op := fwd_control i ++ fwd_state i ++ fwd_rest i.
Definition fwd_end : list op :=
  END ++ [Chk Range (1 <=? N)] ++ term_eval Txs (Buf Tus (N - 1)) ++ BEGIN ++
  difference (t_nx p) (t_ndx p) (Buf Rxs N) (Buf Txs N) (Buf Dxs N) ++ END.
Definition forward : list op := fwd_start ++ for_ N fwd_stage ++ fwd_end.
(** the pass left by an exception of the functions of stage k, or of the tests for
    NaN of stage k; fddp_goldstein_linesearch (linesearch.hpp 32-37) catches it *)
Definition forward_fails (k : nat) (nan : bool) : list op :=
  fwd_start ++ for_ (Nat.min k (N - 1)) fwd_stage ++ fwd_control (Nat.min k (N - 1)) ++
  if nan then fwd_state (Nat.min k (N - 1)) else [].

(** 373-374 *)
Definition accept : list op := [Copy Rxs Txs; Copy Rus Tus].

Inductive call :=
| Start (g : guess) (force : bool) | Evaluate | Infeasibility | Backward | Criterion | AcceptGains
| UpdateImprovement | Improvement | Forward | ForwardFails (k : nat) (nan : bool) | Accept.
Definition code (c : call) : list op :=
  match c with
  | Start g f => start g f
  | Evaluate => evaluate
  | Infeasibility => infeasibility
  | Backward => backward
  | Criterion => criterion
  | AcceptGains => accept_gains
  | UpdateImprovement => update_improvement
  | Improvement => improvement
  | Forward => forward
  | ForwardFails k nan => forward_fails k nan
  | Accept => accept
  end.

(** ** Receding horizon: WorkspaceFDDP::cycleAppend with the data of the last stage;
    [p] is the new problem.  The results are left as they are. *)
Definition data_bufs : list fbuf := [Cg; Ch; Cd; Xnext; Jac].
Definition cycle : list op :=
  [Chk Range (1 <=? N)] ++
  stage_data (st (N - 1)) ++
  (* WorkspaceBase::cycleLeft, workspace-base.hpp 70-77 *)
  map (fun b => Rot b 0) data_bufs ++ [Rot Txs 0; Rot Tus 0; Rot Gap 1] ++
  (* WorkspaceFDDP::cycleLeft, workspace.hxx 65-78 *)
  [Rot Dxs 0; Rot Dus 0; Rot Quuk 0; Rot FtV 1; Rot Kkt 0; Rot Llt 0; Rot JtH 0;
   Rot Vx 0; Rot Vxx 0; Rot Qg 0; Rot Qh 0; Rot Qd 0] ++
  map Pop data_bufs.
End Programs.

Inductive event := Call (c : call) | Cycle (s : stage).
Fixpoint events (chk : bool) (p : prob) (owned : nat -> nat) (l : list event) : list op :=
  match l with
  | [] => []
  | Call c :: l => code chk p owned c ++ events chk p owned l
  | Cycle s :: l => cycle (cycled p s) ++ events chk (cycled p s) owned l
  end.
(** setup followed by any calls *)
Definition session (chk : bool) (p : prob) (owned : nat -> nat) (l : list event) : list op :=
  setup p ++ events chk p owned l.
