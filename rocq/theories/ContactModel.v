(** Model of the contact map,
    /repo/include/aligator/modelling/contact-map.hpp. *)
From Coq Require Import List Bool Arith.
Import ListNotations.

(** Outcome of a call: normal, exception, or undefined behaviour. *)
Inductive res (A : Type) := Ok (a : A) | Throw | UB.
Arguments Ok {A}. Arguments Throw {A}. Arguments UB {A}.

Section Contact.
  Variables name pose : Type.
  Variable name_eqb : name -> name -> bool.

  (** members, 78-81 *)
  Record cmap := Cmap { names : list name; states : list bool;
                        poses : list pose; size_ : nat }.

  (** constructor, 13-26: the number of names is not checked *)
  Definition construct (n : list name) (s : list bool) (p : list pose) : res cmap :=
    if Nat.eqb (length s) (length p) then Ok (Cmap n s p (length s)) else Throw.

  (** [addContact], 28-34 *)
  Definition add_contact (m : cmap) (n : name) (s : bool) (p : pose) : cmap :=
    Cmap (names m ++ [n]) (states m ++ [s]) (poses m ++ [p]) (S (size_ m)).

  (** [vector::erase(begin()+i)]: undefined when [i] is not a valid position *)
  Definition erase {A} (l : list A) (i : nat) : option (list A) :=
    if Nat.ltb i (length l) then Some (firstn i l ++ skipn (S i) l) else None.

  (** [removeContact], 36-45 *)
  Definition remove_contact (m : cmap) (i : nat) : res cmap :=
    if Nat.eqb (size_ m) 0 then Throw
    else match erase (names m) i, erase (states m) i, erase (poses m) i with
         | Some n, Some s, Some p => Ok (Cmap n s p (size_ m - 1))
         | _, _, _ => UB
         end.

  (** [std::find] and index *)
  Fixpoint find_idx (l : list name) (n : name) : option nat :=
    match l with
    | [] => None
    | x :: r => if name_eqb x n then Some 0 else option_map S (find_idx r n)
    end.

  Definition read {A} (l : list A) (i : nat) : res A :=
    match nth_error l i with Some a => Ok a | None => UB end.

  (** [getContactState], 47-55 *)
  Definition get_state (m : cmap) (n : name) : res bool :=
    match find_idx (names m) n with None => Throw | Some i => read (states m) i end.
  (** [getContactPose], 57-65 *)
  Definition get_pose (m : cmap) (n : name) : res pose :=
    match find_idx (names m) n with None => Throw | Some i => read (poses m) i end.
  (** [setContactPose], 67-75 *)
  Fixpoint write {A} (l : list A) (i : nat) (a : A) : option (list A) :=
    match l, i with
    | [], _ => None
    | _ :: r, O => Some (a :: r)
    | x :: r, S k => option_map (cons x) (write r k a)
    end.
  Definition set_pose (m : cmap) (n : name) (p : pose) : res cmap :=
    match find_idx (names m) n with
    | None => Throw
    | Some i => match write (poses m) i p with
                | Some l => Ok (Cmap (names m) (states m) l (size_ m))
                | None => UB
                end
    end.

  (** Client operations; a throwing call leaves the map as it was. *)
  Inductive cop := Add (n : name) (s : bool) (p : pose) | Remove (i : nat)
                 | SetPose (n : name) (p : pose).
  Definition cstep (m : cmap) (o : cop) : res cmap :=
    match o with
    | Add n s p => Ok (add_contact m n s p)
    | Remove i => remove_contact m i
    | SetPose n p => set_pose m n p
    end.
  Fixpoint cexec (m : cmap) (ops : list cop) : res cmap :=
    match ops with
    | [] => Ok m
    | o :: r => match cstep m o with
                | Ok m' => cexec m' r
                | Throw => cexec m r      (* exception caught by the caller *)
                | UB => UB
                end
    end.
End Contact.
Arguments Cmap {name pose}. Arguments names {name pose}. Arguments states {name pose}.
Arguments poses {name pose}. Arguments size_ {name pose}.
