(** Model of the filter line search, /repo/include/aligator/core/filter.hpp.
    Scalars are rationals (no rounding, no NaN). *)
From Coq Require Import QArith List Bool Arith.
Import ListNotations.
Local Open Scope Q_scope.

Definition pair_t := (Q * Q)%type.

(** filter.hpp 17-22: the data members. *)
Record filter := Filter {
  filter_pairs : list pair_t; beta : Q; alpha_min : Q; max_num_steps : nat }.

(** filter.hpp 24-30 (constructor) and 34-40 ([resetFilter]). *)
Definition new_filter (b am : Q) (n : nat) : filter := Filter [] b am n.
Definition reset_filter (F : filter) (b am : Q) (n : nat) : filter :=
  Filter [] b am n.

(** filter.hpp 80-86: the rejection test against one stored element. *)
Definition rejects (b : Q) (el f : pair_t) : bool :=
  Qle_bool (fst el + b * snd el) (fst f) && Qle_bool (snd el + b * snd el) (snd f).

(** filter.hpp 91: the element is erased when the new pair is no worse. *)
Definition erased_by (f el : pair_t) : bool :=
  Qle_bool (fst f) (fst el) && Qle_bool (snd f) (snd el).

(** filter.hpp 78-102. *)
Definition accept_pair (F : filter) (f : pair_t) : bool * filter :=
  if existsb (fun el => rejects (beta F) el f) (filter_pairs F)
  then (false, F)
  else (true, Filter (List.filter (fun el => negb (erased_by f el)) (filter_pairs F) ++ [f])
                (beta F) (alpha_min F) (max_num_steps F)).

(** [run], filter.hpp 42-76.  The merit function may raise: [None]. *)
Inductive outcome :=
| Returned (value : Q) (alpha : Q) (F : filter)   (* normal return *)
| Raised (F : filter)                             (* exception escapes run *)
| NoFuel.                                         (* model artefact *)

Section Run.
  Variable phi : Q -> option pair_t.

  (** First loop, 47-58.  Returns the step and the content of [fpair], which
      is value-initialised to (0,0) at line 45. *)
  Fixpoint first_loop (fuel : nat) (am alpha : Q) : option (Q * pair_t) :=
    match fuel with
    | O => None
    | S k =>
        match phi alpha with
        | Some fp => Some (alpha, fp)
        | None =>
            let alpha' := alpha * (1 # 2) in
            if Qle_bool alpha' am then Some (am, (0, 0))
            else first_loop k am alpha'
        end
    end.

  (** Second loop, 61-72: [n] is the number of remaining iterations. *)
  Fixpoint second_loop (n : nat) (F : filter) (alpha : Q) (fp : pair_t)
    : outcome :=
    match n with
    | O => Returned (fst fp) alpha F
    | S k =>
        let '(ok, F') := accept_pair F fp in
        if ok then Returned (fst fp) alpha F'
        else
          let alpha' := alpha * (1 # 2) in
          if Qle_bool alpha' (alpha_min F') then
            match phi (alpha_min F') with
            | Some fp' => Returned (fst fp') (alpha_min F') F'
            | None => Raised F'
            end
          else
            match phi alpha' with
            | Some fp' => second_loop k F' alpha' fp'
            | None => Raised F'
            end
    end.

  Definition run (fuel : nat) (F : filter) : outcome :=
    match first_loop fuel (alpha_min F) 1 with
    | Some (alpha, fp) => second_loop (max_num_steps F) F alpha fp
    | None => NoFuel
    end.
End Run.

(** Operations of a client. *)
Inductive op := Submit (f : pair_t) | Reset (b am : Q) (n : nat).
Definition step (F : filter) (o : op) : filter :=
  match o with
  | Submit f => snd (accept_pair F f)
  | Reset b am n => reset_filter F b am n
  end.
Definition exec (F : filter) (ops : list op) : filter := fold_left step ops F.
