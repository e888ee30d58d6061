(** Model of CostStackTpl (modelling/costs/sum-of-costs.hpp, .hxx).

    The boost hash map is an association list with distinct keys; iterating over
    it goes through the entries in an arbitrary order (an explicit permutation).
    A component is any cost; its value, gradient and Hessian entries at the
    current point are rationals. *)
From Coq Require Import QArith List Bool Arith.
Import ListNotations.
Open Scope nat_scope.

(** sum-of-costs.hpp 28: std::variant<std::size_t, std::string>; strings are
    numbered. *)
Inductive key := KNum (n : nat) | KStr (n : nat).
Definition key_eqb (a b : key) : bool :=
  match a, b with
  | KNum x, KNum y => x =? y
  | KStr x, KStr y => x =? y
  | _, _ => false
  end.

(** A component cost at the point of evaluation: dimensions, value, gradient and
    Hessian entries. *)
Record comp := { c_nx : nat; c_ndx : nat; c_nu : nat; c_val : Q;
                 c_grad : nat -> Q; c_hess : nat -> nat -> Q }.

Definition item := (comp * Q)%type.
Definition cmap := list (key * item).
Record stack := { st_nx : nat; st_ndx : nat; st_nu : nat; components : cmap }.

Inductive res (A : Type) := Ok (a : A) | Throw | UB.
Arguments Ok {A}. Arguments Throw {A}. Arguments UB {A}.

Fixpoint find (k : key) (m : cmap) : option item :=
  match m with
  | [] => None
  | (k', i) :: t => if key_eqb k k' then Some i else find k t
  end.

(** [emplace]: inserts only if the key is new. *)
Definition emplace (k : key) (i : item) (m : cmap) : cmap :=
  match find k m with Some _ => m | None => m ++ [(k, i)] end.

(** sum-of-costs.hxx 38-42. *)
Definition checkDimension (s : stack) (c : comp) : bool :=
  (c_nx c =? st_nx s) && (c_ndx c =? st_ndx s) && (c_nu c =? st_nu s).

Definition with_components (s : stack) (m : cmap) : stack :=
  {| st_nx := st_nx s; st_ndx := st_ndx s; st_nu := st_nu s; components := m |}.

(** sum-of-costs.hxx 44-55: addCost(key, cost, weight); the second result is the
    item returned by [components_.at(key)]. *)
Definition addCostKey (s : stack) (k : key) (c : comp) (w : Q) : res (stack * item) :=
  if negb (checkDimension s c) then Throw else
  let m := emplace k (c, w) (components s) in
  match find k m with
  | None => Throw
  | Some i => Ok (with_components s m, i)
  end.

(** sum-of-costs.hpp 63-66: addCost(cost, weight), key = number of components. *)
Definition addCost (s : stack) (c : comp) (w : Q) : res (stack * item) :=
  addCostKey s (KNum (length (components s))) c w.

(** sum-of-costs.hpp 101-105: setWeight ([at] throws on a missing key). *)
Fixpoint update (k : key) (w : Q) (m : cmap) : cmap :=
  match m with
  | [] => []
  | (k', (c, w')) :: t =>
      if key_eqb k k' then (k', (c, w)) :: t else (k', (c, w')) :: update k w t
  end.
Definition setWeight (s : stack) (k : key) (w : Q) : res stack :=
  match find k (components s) with
  | None => Throw
  | Some _ => Ok (with_components s (update k w (components s)))
  end.

(** sum-of-costs.hpp 153-160: operator*. *)
Definition scale (u : Q) (s : stack) : stack :=
  with_components s (map (fun e => (fst e, (fst (snd e), (snd (snd e) * u)%Q)))
                         (components s)).

(** sum-of-costs.hxx 7-30: the constructor from vectors. *)
Fixpoint enumerate {A} (k : nat) (l : list A) : list (nat * A) :=
  match l with [] => [] | a :: t => (k, a) :: enumerate (S k) t end.
Definition make (nx ndx nu : nat) (comps : list comp) (weights : list Q) : res stack :=
  let s := {| st_nx := nx; st_ndx := ndx; st_nu := nu; components := [] |} in
  if negb (length comps =? length weights) then Throw else
  if negb (forallb (checkDimension s) comps) then Throw else
  Ok (with_components s
        (fold_left (fun m e => emplace (KNum (fst e)) (snd e) m)
                   (enumerate 0 (combine comps weights)) [])).

(** sum-of-costs.hxx 93-107: the keys for which sub-data exists are those present
    when the data was created. *)
Definition sub_data := list key.
Definition createData (s : stack) : sub_data := map fst (components s).

(** sum-of-costs.hxx 57-91: evaluate, computeGradients, computeHessians: the
    same loop with the value, one gradient or one Hessian entry; [order] is the
    iteration order of the map.  [sub_cost_data[key]] is a null pointer if there
    is no data for the key. *)
Definition accumulate (f : comp -> Q) (order : cmap) (d : sub_data) : res Q :=
  fold_left (fun acc e =>
    match acc with
    | Ok a => if existsb (key_eqb (fst e)) d
              then Ok (a + snd (snd e) * f (fst (snd e)))%Q else UB
    | r => r
    end) order (Ok 0%Q).
Definition evaluate := accumulate c_val.
Definition gradient (i : nat) := accumulate (fun c => c_grad c i).
Definition hessian (i j : nat) := accumulate (fun c => c_hess c i j).
