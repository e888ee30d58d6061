(** Model of the rollout overloads (utils/rollout.hpp) and of forwardDynamics
    (utils/forward-dyn.hpp).

    States are any type with a size; the buffer of a state may have any size, and
    writing to a reference of the wrong size is undefined behaviour (an Eigen
    assertion, off in release builds). *)
From Coq Require Import QArith List Bool Arith.
From Verif Require Import SearchModel.
Import ListNotations.
Open Scope nat_scope.

Inductive res (A : Type) := Ok (a : A) | Throw | UB | OutOfFuel.
Arguments Ok {A}. Arguments Throw {A}. Arguments UB {A}. Arguments OutOfFuel {A}.

(** Writing element [i] of a vector; out of bounds is undefined. *)
Fixpoint write {A} (l : list A) (i : nat) (a : A) : res (list A) :=
  match l, i with
  | [], _ => UB
  | _ :: t, O => Ok (a :: t)
  | b :: t, S j => match write t j a with Ok t' => Ok (b :: t') | r => r end
  end.

Section Rollout.
  Variables X U V D : Type.
  (** number of coefficients of a stored vector, and the empty vector *)
  Variable size : X -> nat.
  Variable empty : X.

  (** [std::vector::resize]: truncates or appends empty vectors. *)
  Definition resize (l : list X) (n : nat) : list X :=
    firstn n l ++ repeat empty (n - length l).

  (** ** Explicit dynamics *)

  (** [forward] of an explicit model: the content of data->xnext_, or an
      exception. *)
  Variable forward : nat -> X -> U -> option X.

  (** Loop of rollout.hpp 74-79 and 95-98 (model [model i] at step [i]). *)
  Fixpoint explicit_loop (model : nat -> nat) (i : nat) (us : list U) (xout : list X)
    : res (list X) :=
    match us with
    | [] => Ok xout
    | u :: us' =>
        match nth_error xout i with
        | None => UB
        | Some x =>
            match forward (model i) x u with
            | None => Throw
            | Some y =>
                match write xout (S i) y with
                | Ok xout' => explicit_loop model (S i) us' xout'
                | r => r
                end
            end
        end
    end.

  (** rollout.hpp 57-80: several explicit models; also gives the content of
      [xout] when the size check throws. *)
  Definition rollout_explicit_multi (n_models : nat) (x0 : X) (us : list U)
    (xout : list X) : res (list X) * list X :=
    let N := length us in
    match write (resize xout (S N)) 0 x0 with
    | Ok xout' =>
        if negb (n_models =? N) then (Throw, xout')
        else (explicit_loop (fun i => i) 0 us xout', xout')
    | r => (r, xout)
    end.

  (** rollout.hpp 83-99: one explicit model. *)
  Definition rollout_explicit_single (x0 : X) (us : list U) (xout : list X)
    : res (list X) :=
    match write (resize xout (S (length us))) 0 x0 with
    | Ok xout' => explicit_loop (fun _ => 0) 0 us xout'
    | r => r
    end.

  (** rollout.hpp 102-126: the overloads which allocate the output ([reserve]
      leaves the vector empty). *)
  Definition rollout_explicit_multi' n_models x0 us :=
    fst (rollout_explicit_multi n_models x0 us []).
  Definition rollout_explicit_single' x0 us := rollout_explicit_single x0 us [].

  (** ** Implicit dynamics *)

  (** residual of model [i], norm, Newton direction and retraction, as in
      SearchModel; [nx i] is the size of the states of model [i], [neutral] its
      neutral element. *)
  Variable resid : nat -> X -> U -> X -> V.
  Variable nrm : V -> option Q.
  Variable dir : nat -> X -> U -> X -> V -> D.
  Variable move : X -> Q -> D -> X.
  Variables eps alpha_min ls_beta c1 : Q.
  Variables fuel max_iters : nat.
  Variable nx : nat -> nat.
  Variable neutral : nat -> X.

  (** forward-dyn.hpp 23-42 (no gap): the output is a reference to a vector which
      cannot be resized; the Boolean returned by Newton is dropped. *)
  Definition forwardDynamics (i : nat) (x : X) (u : U) (buf : X) : res X :=
    if negb (size buf =? nx i) then UB else
    match nr_run X V D (resid i x u) nrm (dir i x u) move eps alpha_min ls_beta c1
                 fuel max_iters x with
    | Some (_, r, _) => Ok (xout r)
    | None => OutOfFuel
    end.

  (** One turn of the loops 26-31 and 47-51: push a neutral element, then write
      [xs[i+1]]. *)
  Fixpoint implicit_loop (model : nat -> nat) (i : nat) (us : list U) (xs : list X)
    : res (list X) :=
    match us with
    | [] => Ok xs
    | u :: us' =>
        let xs1 := xs ++ [neutral (model i)] in
        match nth_error xs1 i, nth_error xs1 (S i) with
        | Some x, Some buf =>
            match forwardDynamics (model i) x u buf with
            | Ok y =>
                match write xs1 (S i) y with
                | Ok xs2 => implicit_loop model (S i) us' xs2
                | r => r
                end
            | Throw => Throw | UB => UB | OutOfFuel => OutOfFuel
            end
        | _, _ => UB
        end
    end.

  (** rollout.hpp 11-33: several implicit models. *)
  Definition rollout_implicit_multi (n_models : nat) (x0 : X) (us : list U)
    (xout : list X) : res (list X) :=
    let N := length us in
    if negb (n_models =? N) then Throw else
    match write (resize xout (S N)) 0 x0 with
    | Ok xout' => implicit_loop (fun i => i) 0 us xout'
    | r => r
    end.

  (** rollout.hpp 36-53: one implicit model. *)
  Definition rollout_implicit_single (x0 : X) (us : list U) : res (list X) :=
    implicit_loop (fun _ => 0) 0 us [x0].
End Rollout.
