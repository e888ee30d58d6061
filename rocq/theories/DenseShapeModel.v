(** Sizes of the buffers of RiccatiSolverDense, /repo/include/aligator/gar/dense-riccati.hxx
    12-148 and dense-kernel.hpp 13-211.

    Only sizes are modelled, not values.  Reading out of range, an Eigen assertion and an
    assert of the code make a routine stop ([None]).  Eigen rules used: assigning to a Matrix
    resizes it; assignments to a Ref or to a block, and compound assignments, need equal sizes;
    products need matching inner dimensions.  BunchKaufman::compute takes the size of the
    matrix it is given (bunchkaufman.hpp 656-661), so that the member ldl needs no size here;
    the blocks of a BlkMatrix are within its matrix (core/blk-matrix.hpp 55-64, 104-108).
    Left out: NOMALLOC scopes. *)
From Coq Require Import List Arith Bool.
From Verif Require Import KnotModel.
Import ListNotations.
Open Scope nat_scope.

Definition sz := (nat * nat)%type.
Definition same (a b : sz) : bool := (fst a =? fst b) && (snd a =? snd b).
Definition fit (a b : option sz) : bool :=
  match a, b with Some a, Some b => same a b | _, _ => false end.
Definition add (a b : option sz) : option sz := if fit a b then a else None.
Definition mul (a b : option sz) : option sz :=
  match a, b with Some (r, c), Some (r', c') => if c =? r' then Some (r, c') else None | _, _ => None end.
Definition tr (a : option sz) : option sz := option_map (fun s => (snd s, fst s)) a.

(** LqrProblemTpl, lqr-problem.hpp 104-114: the dimensions of the knots, whose matrices have
    the sizes [KnotModel.shape], and the sizes of G0 and g0 *)
Record lqp := Lqp { stages : list dims; G0 : sz; g0 : sz }.
Definition horizon (p : lqp) : nat := length (stages p) - 1.

(** DenseKernel::Data, dense-kernel.hpp 19-38: the block rows of kktMat, fb, ft and ff (and
    the block columns of kktMat), the columns of fb and of ft *)
Record data := Data { blk : list nat; fbc : nat; ftc : nat }.
Definition new_data (d : dims) : data := Data [nu d; nc d; nx2 d; nx2 d] (nx d) (nth d).
(** DenseKernel::value, 47-53 *)
Record value := Value { Pxx : sz; Pxt : sz; Ptt : sz; px : sz; pt : sz }.
(** dense-riccati.hxx 26-30, 139-143 *)
Definition new_value (d : dims) : value :=
  Value (nx d, nx d) (nx d, nth d) (nth d, nth d) (nx d, 1) (nth d, 1).

(** RiccatiSolverDense, dense-riccati.hpp 28-42: stage_factors, the vectors Pxx to pt (which
    have the same length and are always handled together: one vector of [value]), the block
    rows of kkt0 and the columns of kkt0.fth, thGrad and thHess *)
Record dense := Dense { fac : list data; vals : list value; k0 : sz; k0c : nat; thG : sz; thH : sz }.

(** the constructor, dense-riccati.hxx 12-44.  The horizon of an empty problem is
    4294967295 and the loop reads stages[0]. *)
Definition construct (p : lqp) : option dense :=
  match stages p with
  | [] => None
  | d0 :: _ =>
    Some (Dense (map new_data (stages p)) (map new_value (stages p))
                (nx d0, fst (g0 p)) (nth d0) (nth d0, 1) (nth d0, nth d0))
  end.

Section Kernel.
Variables (d : dims) (f : data) (v : value).
Definition K (i : nat) : option sz := Some (shape d i).
Definition row (i : nat) : nat := List.nth i (blk f) 0.
Definition kkt (i j : nat) : option sz := Some (row i, row j).
Definition ff (i : nat) : option sz := Some (row i, 1).
Definition fb (i : nat) : option sz := Some (row i, fbc f).
Definition ft (i : nat) : option sz := Some (row i, ftc f).

(** terminalSolve, dense-kernel.hpp 55-94.  0 Q, 1 S, 2 R, 3 q, 4 r, 5 A, 6 B, 7 f, 8 C, 9 D,
    10 d, 11 Gth, 12 Gx, 13 Gu, 14 Gv, 15 gamma *)
Definition terminal_checks : list bool :=
  [fit (kkt 0 0) (K 2); fit (kkt 0 1) (tr (K 9)); fit (kkt 1 0) (K 9);
   fit (ff 0) (K 4); fit (ff 1) (K 10); fit (fb 0) (tr (K 1)); fit (fb 1) (K 8);
   fit (ft 0) (K 13); fit (ft 1) (K 14);
   fit (Some (Pxx v)) (add (K 0) (mul (K 1) (fb 0))); fit (Some (Pxx v)) (mul (tr (K 8)) (fb 1));
   fit (Some (Pxt v)) (add (K 12) (mul (tr (fb 0)) (K 13))); fit (Some (Pxt v)) (mul (tr (fb 1)) (K 14));
   fit (Some (Ptt v)) (add (K 11) (mul (tr (K 13)) (ft 0))); fit (Some (Ptt v)) (mul (tr (K 14)) (ft 1));
   fit (Some (px v)) (add (K 3) (mul (K 1) (ff 0))); fit (Some (px v)) (mul (tr (K 8)) (ff 1));
   fit (Some (pt v)) (add (K 15) (mul (tr (K 13)) (ff 0))); fit (Some (pt v)) (mul (tr (K 14)) (ff 1))].

(** stageKernelSolve, dense-kernel.hpp 96-170; [w] is the next value *)
Definition stage_checks (w : value) : list bool :=
  [fit (kkt 0 0) (K 2); fit (kkt 1 0) (K 9); fit (kkt 0 1) (tr (K 9));
   fit (kkt 2 0) (K 6); fit (kkt 0 2) (tr (K 6)); fit (kkt 3 3) (Some (Pxx w));
   fit (ff 0) (K 4); fit (ff 1) (K 10); fit (ff 2) (K 7); fit (ff 3) (Some (px w));
   fit (fb 0) (tr (K 1)); fit (fb 1) (K 8); fit (fb 2) (K 5);
   fit (ft 0) (K 13); fit (ft 1) (K 14); fit (ft 3) (Some (Pxt w));
   fit (Some (Pxx v)) (add (K 0) (mul (K 1) (fb 0))); fit (Some (Pxx v)) (mul (tr (K 8)) (fb 1));
   fit (Some (Pxx v)) (mul (tr (K 5)) (fb 2));
   fit (Some (Pxt v)) (K 12); fit (Some (Pxt v)) (mul (tr (fb 0)) (K 13));
   fit (Some (Pxt v)) (mul (tr (fb 1)) (K 14)); fit (Some (Pxt v)) (mul (tr (fb 3)) (Some (Pxt w)));
   fit (Some (Ptt v)) (K 11); fit (Some (Ptt v)) (mul (tr (ft 0)) (K 13));
   fit (Some (Ptt v)) (mul (tr (ft 1)) (K 14)); fit (Some (Ptt v)) (mul (tr (ft 3)) (Some (Pxt w)));
   fit (Some (px v)) (add (K 3) (mul (K 1) (ff 0))); fit (Some (px v)) (mul (tr (K 8)) (ff 1));
   fit (Some (px v)) (mul (tr (K 5)) (ff 2));
   fit (Some (pt v)) (add (K 15) (mul (tr (K 13)) (ff 0))); fit (Some (pt v)) (mul (tr (K 14)) (ff 1));
   fit (Some (pt v)) (mul (tr (Some (Pxt w))) (ff 3))].
End Kernel.
Definition all (l : list bool) : bool := forallb (fun b => b) l.

(** backward, dense-riccati.hxx 46-63.  With N = 0 the index N - 1 is 4294967295. *)
Definition stage_runs (p : lqp) (s : dense) (i : nat) : bool :=
  match nth_error (stages p) i, nth_error (fac s) i, nth_error (vals s) i, nth_error (vals s) (S i) with
  | Some d, Some f, Some v, Some w => all (stage_checks d f v w)
  | _, _, _, _ => false
  end.
Definition terminal_runs (p : lqp) (s : dense) : bool :=
  match nth_error (stages p) (horizon p), nth_error (fac s) (horizon p), nth_error (vals s) (horizon p) with
  | Some d, Some f, Some v => all (terminal_checks d f v)
  | _, _, _ => false
  end.
(** 65-89: the initial stage *)
Definition backward (p : lqp) (s : dense) : option dense :=
  if horizon p =? 0 then None else
  if terminal_runs p s && forallb (stage_runs p s) (seq 0 (horizon p)) then
    match nth_error (vals s) 0 with
    | None => None
    | Some v =>
      let n := fst (k0 s) in let m := snd (k0 s) in
      if all [fit (Some (n, n)) (Some (Pxx v)); fit (Some (n, m)) (tr (Some (G0 p)));
              fit (Some (m, n)) (Some (G0 p)); fit (Some (n, 1)) (Some (px v));
              fit (Some (m, 1)) (Some (g0 p)); fit (Some (n, k0c s)) (Some (Pxt v))]
      then
        match add (Some (pt v)) (mul (tr (Some (Pxt v))) (Some (n, 1))),
              add (Some (Ptt v)) (mul (tr (Some (Pxt v))) (Some (n, k0c s))) with
        | Some g, Some h => Some (Dense (fac s) (vals s) (k0 s) (k0c s) g h)
        | _, _ => None
        end
      else None
    end
  else None.

(** ** forward, dense-riccati.hxx 93-117 and forwardStep, dense-kernel.hpp 172-210 *)
(** an affine map with c columns for the state, of size x, and ct for the parameter *)
Definition affine (c x : nat) (ct : nat) (th : option nat) : bool :=
  (c =? x) && match th with Some t => ct =? t | None => true end.
(** the sizes of the vectors written: x, u (left alone without controls), v, costates *)
Record sizes := Sizes { xs : list nat; us : list (option nat); vs : list nat; ls : list nat }.
(** stages from number i on, for the state of size x; [nus] vectors in us *)
Fixpoint forward_from (l : list dims) (fs : list data) (i x nus : nat) (th : option nat) : option sizes :=
  match l, fs with
  | d :: l', f :: fs' =>
    if affine (fbc f) x (ftc f) th && ((nu d =? 0) || (i <? nus)) then
      let u := if nu d =? 0 then None else Some (row f 0) in
      match l' with
      | [] => Some (Sizes [x] [u] [row f 1] [])
      | _ =>
        match forward_from l' fs' (S i) (row f 3) nus th with
        | Some o => Some (Sizes (x :: xs o) (u :: us o) (row f 1 :: vs o) (row f 2 :: ls o))
        | None => None
        end
      end
    else None
  | _, _ => None
  end.
(** the lengths of xs, us, vs, lbdas as given, 106-109 *)
Record given := Given { g_xs : nat; g_us : nat; g_vs : nat; g_ls : nat }.
Definition forward (p : lqp) (s : dense) (g : given) (th : option nat) : option sizes :=
  let N := horizon p in
  if (g_xs g =? N + 1) && (N <=? g_us g) && (g_vs g =? N + 1) && (g_ls g =? N + 1) &&
     match th with Some t => k0c s =? t | None => true end then
    match forward_from (stages p) (fac s) 0 (fst (k0 s)) (g_us g) th with
    | Some o => Some (Sizes (xs o) (us o) (vs o) (snd (k0 s) :: ls o))
    | None => None
    end
  else None.

(** ** cycleAppend, dense-riccati.hxx 118-144 *)
(** rotate_vec_left(v, 0, 1), utils/mpc-util.hpp 17-22 *)
Definition rotate {A} (l : list A) : list A :=
  match l with
  | [] => []
  | a :: t => removelast t ++ [a; last t a]
  end.
Fixpoint set_nth {A} (l : list A) (i : nat) (a : A) : list A :=
  match l, i with
  | [], _ => []
  | _ :: t, O => a :: t
  | b :: t, S i => b :: set_nth t i a
  end.
(** the factors at N - 1 are set to zero, in the size they have; the values are resized *)
Definition cycle_append (p : lqp) (s : dense) (d : dims) : option dense :=
  if horizon p =? 0 then None else
  Some (Dense (rotate (fac s)) (set_nth (rotate (vals s)) (horizon p - 1) (new_value d))
              (k0 s) (k0c s) (thG s) (thH s)).
(** the problem of WorkspaceTpl::cycleAppend, solvers/proxddp/workspace.hxx 127-131, which
    SolverProxDDP::cycleProblem changes before (solver-proxddp.hxx 207-208) *)
Definition cycled (p : lqp) (d : dims) : lqp :=
  match stages p with
  | [] => p
  | a :: t => Lqp (removelast t ++ [d; last t a]) (G0 p) (g0 p)
  end.

(** ** Sessions *)
Inductive event := Backward | Forward (g : given) (th : option nat) | Cycle (d : dims).
(** the outputs of the forward calls, the problem and the solver at the end *)
Fixpoint session (p : lqp) (s : dense) (l : list event) : option (list sizes * (lqp * dense)) :=
  match l with
  | [] => Some ([], (p, s))
  | Backward :: l' => match backward p s with Some s' => session p s' l' | None => None end
  | Forward g th :: l' =>
    match forward p s g th with
    | Some o => match session p s l' with Some (os, e) => Some (o :: os, e) | None => None end
    | None => None
    end
  | Cycle d :: l' =>
    match cycle_append (cycled p d) s d with Some s' => session (cycled p d) s' l' | None => None end
  end.
