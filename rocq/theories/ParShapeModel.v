(** Sizes of the buffers of ParallelRiccatiSolver, /repo/include/aligator/gar/parallel-solver.hxx
    30-81 and 244-289: the constructor, initialize, initializeTridiagSystem and cycleAppend.

    Only sizes are modelled, not values.  A StageFactor is given by the dimensions passed to
    its constructor.  Reading out of range and the exception of the constructor make a routine
    stop ([None]).  Left out: the values, reserve, the assert at 80 (proved in P_parshape). *)
From Coq Require Import List Arith Bool NArith.
From Verif Require Import WorkModel KnotModel DenseShapeModel.
Import ListNotations.
Open Scope nat_scope.

(** LqrKnotTpl::addParameterization, lqr-problem.hxx 232-240 *)
Definition add_par (k : nat) (d : dims) : dims := Dims (nx d) (nu d) (nc d) (nx2 d) k.
(** LqrProblemTpl::addParameterization, lqr-problem.hpp 155-161 *)
Definition add_par_all (k : nat) (p : lqp) : lqp := Lqp (map (add_par k) (stages p)) (G0 p) (g0 p).

(** parallel-solver.hpp 53-68, 93-97, 118-120: datas, the six vectors of CondensedKkt,
    rhsDims_, and the size of condensedKktRhs, condensedKktSolution and condensedErr *)
Record par := Par { datas : list dims; subd : list sz; diag : list sz; supd : list sz;
  dfac : list sz; ufac : list sz; ldl : list nat; rhs : list nat; total : nat }.
Definition no_par : par := Par [] [] [] [] [] [] [] [] 0.

(** get_work, 23-28 *)
Definition work_beg (N nt i : nat) : nat := N.to_nat (fst (get_work (N.of_nat N) (N.of_nat i) (N.of_nat nt))).
Definition work_end (N nt i : nat) : nat := N.to_nat (snd (get_work (N.of_nat N) (N.of_nat i) (N.of_nat nt))).

Fixpoint foldo {A S} (f : S -> A -> option S) (l : list A) (s : S) : option S :=
  match l with
  | [] => Some s
  | a :: l' => match f s a with Some s' => foldo f l' s' | None => None end
  end.

(** allocate_leg, 51-59, on the knots and datas.  For [e] = 0 the index end - 1 is 4294967295. *)
Definition visit (last : bool) (k : nat) (s : list dims * list dims) (t : nat) : option (list dims * list dims) :=
  match nth_error (fst s) t with
  | Some d => let d' := if last then d else add_par k d in Some (set_nth (fst s) t d', snd s ++ [d'])
  | None => None
  end.
Definition allocate_leg (b e : nat) (last : bool) (s : list dims * list dims) : option (list dims * list dims) :=
  if e =? 0 then None else
  match nth_error (fst s) (e - 1) with
  | Some d => foldo (visit last (nx2 d)) (seq b (e - b)) s
  | None => None
  end.

(** rhsDims_, 67-72 *)
Definition rhs_dims (nc0 : nat) (ks : list dims) (N nt : nat) : option (list nat) :=
  match nth_error ks 0 with
  | Some d => foldo (fun l i =>
      if work_end N nt i =? 0 then None else
      match nth_error ks (work_beg N nt i), nth_error ks (work_end N nt i - 1) with
      | Some a, Some b => Some (l ++ [nx a; nx b])
      | _, _ => None
      end) (seq 0 (nt - 1)) [nc0; nx d]
  | None => None
  end.

(** initializeTridiagSystem, 260-289: everything is appended to what is there *)
Definition emplace_factor (n : nat) (s : par) : par :=
  Par (datas s) (subd s) (diag s) (supd s) (dfac s ++ [(n, n)]) (ufac s ++ [(n, n)]) (ldl s ++ [n]) (rhs s) (total s).
Fixpoint tridiag_from (n : nat) (l : list nat) (s : par) : par :=
  match l with
  | [] => s
  | m :: l' => tridiag_from m l' (emplace_factor m
      (Par (datas s) (subd s ++ [(m, n)]) (diag s ++ [(m, m)]) (supd s ++ [(n, m)]) (dfac s) (ufac s) (ldl s) (rhs s) (total s)))
  end.
Definition tridiag (s : par) : option par :=
  match rhs s with
  | [] => None
  | n :: l => Some (tridiag_from n l (emplace_factor n
      (Par (datas s) (subd s) (diag s ++ [(n, n)]) (supd s) (dfac s) (ufac s) (ldl s) (rhs s) (total s))))
  end.

(** initialize, 50-81 *)
Definition initialize (p : lqp) (nt : nat) (s : par) : option (lqp * par) :=
  let N := horizon p in
  match foldo (fun st i => allocate_leg (work_beg N nt i) (work_end N nt i) (i =? nt - 1) st)
              (seq 0 nt) (stages p, datas s) with
  | Some (ks, ds) =>
    match rhs_dims (fst (g0 p)) ks N nt with
    | Some r =>
      match tridiag (Par ds (subd s) (diag s) (supd s) (dfac s) (ufac s) (ldl s) r (list_sum r)) with
      | Some s' => Some (Lqp ks (G0 p) (g0 p), s')
      | None => None
      end
    | None => None
    end
  | None => None
  end.
(** the constructor, 30-48 *)
Definition construct (p : lqp) (nt : nat) : option (lqp * par) :=
  if nt <? 2 then None else initialize p nt no_par.
(** cycleAppend, 244-257; its argument is not used *)
Definition cycle_append (p : lqp) (nt : nat) (s : par) : option (lqp * par) :=
  initialize (add_par_all 0 p) nt (Par [] [] [] [] [] [] [] (rhs s) (total s)).

(** SolverProxDDP::cycleProblem, solver-proxddp.hxx 207-208, once for each knot [ds]; the
    workspace rotates the problem ([DenseShapeModel.cycled]) *)
Fixpoint cycles (nt : nat) (ds : list dims) (p : lqp) (s : par) : option (lqp * par) :=
  match ds with
  | [] => Some (p, s)
  | d :: ds' => match cycle_append (cycled p d) nt s with
                | Some (p', s') => cycles nt ds' p' s'
                | None => None
                end
  end.
