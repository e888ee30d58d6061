(** Model of the storage of LqrKnotTpl, /repo/include/aligator/gar/lqr-problem.hpp 34-103 and
    lqr-problem.hxx 8-240: sixteen arena matrices (ArenaModel) and five dimensions, and of
    what the stages vector of LqrProblemTpl and WorkspaceTpl::cycleAppend do with knots.

    Matrix i of knot k is the arena object 16 k + i, in the order of the declarations (46-61).
    Vectors are matrices with one column.  Exceptions of the allocator are left out. *)
From Coq Require Import ZArith List Bool Arith.
From Verif Require Import ArenaModel.
Import ListNotations.
Open Scope nat_scope.

(** lqr-problem.hpp 40-44 *)
Record dims := Dims { nx : nat; nu : nat; nc : nat; nx2 : nat; nth : nat }.

(** the shapes given by the constructor, lqr-problem.hxx 36-51 *)
Definition shape (d : dims) (i : nat) : nat * nat :=
  match i with
  | 0 => (nx d, nx d) | 1 => (nx d, nu d) | 2 => (nu d, nu d)
  | 3 => (nx d, 1) | 4 => (nu d, 1)
  | 5 => (nx2 d, nx d) | 6 => (nx2 d, nu d) | 7 => (nx2 d, 1)
  | 8 => (nc d, nx d) | 9 => (nc d, nu d) | 10 => (nc d, 1)
  | 11 => (nth d, nth d) | 12 => (nx d, nth d) | 13 => (nu d, nth d) | 14 => (nc d, nth d)
  | _ => (nth d, 1)
  end.
Definition at_ (k i : nat) : nat := 16 * k + i.
Definition zeros (s : nat * nat) : content := repeat (Some 0%Z) (fst s * snd s).
Definition fields (g : nat -> op) : list op := map g (seq 0 16).

(** the matrices, and the dimensions of the knots alive; dimensions that were never given a
    value are [None] *)
Record kstate := KSt { ar : state; kd : nat -> option (option dims) }.
Definition kinit : kstate := KSt init (fun _ => None).

Inductive kop :=
| KNew0 (k r : nat)              (* lqr-problem.hxx 8-26 *)
| KNew (k r : nat) (d : dims)    (* 28-73 *)
| KCopy (k j r : nat)            (* 103-126 *)
| KMove (k j : nat)              (* 130-153 *)
| KMoveExt (k j r : nat)         (* 157-180 *)
| KAssign (k j : nat)            (* 75-100, 182-186 *)
| KMoveAssign (k j : nat)        (* 188-229 *)
| KAddParam (k n : nat)          (* 231-240 *)
| KSet (k i : nat) (l : content) (* writing one matrix *)
| KDestroy (k : nat).

Definition klive (s : kstate) (k : nat) : res (option dims) :=
  match kd s k with Some d => Ok d | None => Err Ended end.
Definition kfresh (s : kstate) (k : nat) : res unit :=
  match kd s k with Some _ => Err Ended | None => Ok tt end.
Definition krun1 (s : kstate) (l : list op) (k : nat) (d : option (option dims)) : res kstate :=
  bind (run (ar s) l) (fun a => Ok (KSt a (upd (kd s) k d))).

(** addParameterization: dimensions with another number of parameters *)
Definition with_nth (d : dims) (n : nat) : dims := Dims (nx d) (nu d) (nc d) (nx2 d) n.

Definition kstep (s : kstate) (o : kop) : res kstate :=
  match o with
  | KNew0 k r =>
    bind (kfresh s k) (fun _ => krun1 s (fields (fun i => New0 (at_ k i) r)) k (Some None))
  | KNew k r d =>
    bind (kfresh s k) (fun _ =>
    krun1 s (fields (fun i => New (at_ k i) r (fst (shape d i)) (snd (shape d i))) ++
             fields (fun i => Fill (at_ k i) (zeros (shape d i)))) k (Some (Some d)))
  | KCopy k j r =>
    bind (kfresh s k) (fun _ => bind (klive s j) (fun d =>
    krun1 s (fields (fun i => CopyCtor (at_ k i) (at_ j i) r)) k (Some d)))
  | KMove k j =>
    bind (kfresh s k) (fun _ => bind (klive s j) (fun d =>
    krun1 s (fields (fun i => MoveCtor (at_ k i) (at_ j i))) k (Some d)))
  | KMoveExt k j r =>
    bind (kfresh s k) (fun _ => bind (klive s j) (fun d =>
    krun1 s (fields (fun i => MoveExt (at_ k i) (at_ j i) r)) k (Some d)))
  | KAssign k j | KMoveAssign k j =>
    bind (klive s k) (fun _ => bind (klive s j) (fun d =>
    krun1 s (fields (fun i => CopyAssign (at_ k i) (at_ j i))) k (Some d)))
  | KAddParam k n =>
    bind (klive s k) (fun od =>
    match od with
    | None => Err BadAccess
    | Some d =>
      let d' := with_nth d n in
      krun1 s (map (fun i => Assign (at_ k i) (fst (shape d' i)) (snd (shape d' i)) (zeros (shape d' i)))
                   (seq 11 5)) k (Some (Some d'))
    end)
  | KSet k i l => bind (klive s k) (fun d => krun1 s [Fill (at_ k i) l] k (Some d))
  | KDestroy k =>
    bind (klive s k) (fun _ => krun1 s (fields (fun i => Destroy (at_ k i))) k None)
  end.
Fixpoint krun (s : kstate) (l : list kop) : res kstate :=
  match l with
  | [] => Ok s
  | o :: t => bind (kstep s o) (fun s' => krun s' t)
  end.

(** ** Vectors of knots *)
(** emplace_back when the capacity is used up: the knots [old] are moved to the new storage
    [new], with the allocator of the vector, and destroyed *)
Definition grow (r : nat) (new old : list nat) : list kop :=
  flat_map (fun p => [KMoveExt (fst p) (snd p) r; KDestroy (snd p)]) (combine new old).
(** std::swap, with the temporary t *)
Definition kswap (t a b : nat) : list kop := [KMove t a; KMoveAssign a b; KMoveAssign b t; KDestroy t].
(** std::rotate(beg, beg + 1, end), as rotate_vec_left (utils/mpc-util.hpp 17-22) calls it:
    each knot is swapped with the next *)
Fixpoint rotate_left (t : nat) (ks : list nat) : list kop :=
  match ks with
  | a :: (b :: _) as ks' => kswap t a b ++ rotate_left t ks'
  | _ => []
  end.
(** WorkspaceTpl::cycleAppend, solvers/proxddp/workspace.hxx 127-131: all knots but the
    terminal one are rotated, and the last of them is replaced by a new one *)
Definition cycle_append (r t : nat) (ks : list nat) (d : dims) : list kop :=
  rotate_left t (removelast ks) ++
  [KNew t r d; KMoveAssign (last (removelast ks) 0) t; KDestroy t].
(** stages = std::move(other.stages), lqr-problem.hpp 149, when the resources differ: the
    knots there are assigned, those missing are constructed in the storage [new], and
    other.stages is cleared *)
Definition move_stages (r : nat) (mine new other : list nat) : list kop :=
  map (fun p => KMoveAssign (fst p) (snd p)) (combine mine other) ++
  map (fun p => KMoveExt (fst p) (snd p) r) (combine new (skipn (length mine) other)) ++
  map KDestroy other.
(** stages(knots, alloc), lqr-problem.hxx 269, for the copy constructors of LqrProblemTpl *)
Definition copy_stages (r : nat) (new old : list nat) : list kop :=
  map (fun p => KCopy (fst p) (snd p) r) (combine new old).
(** LqrProblemTpl::addParameterization, lqr-problem.hpp 155-161 *)
Definition add_parameterization (ks : list nat) (n : nat) : list kop := map (fun k => KAddParam k n) ks.
