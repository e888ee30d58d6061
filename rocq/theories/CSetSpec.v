(** Specification of constraint sets, independent of the routines: a (possibly
    nested) product of sets is a list of scalar sets / penalties, one per
    coordinate. *)
From Coq Require Import Reals List Lra Bool Arith.
From Verif Require Import CSetModel.
Import ListNotations.
Local Open Scope R_scope.

Inductive kind :=
| KEq                (* y = 0 *)
| KNeg               (* y <= 0 *)
| KBox (l u : R)     (* l <= y <= u *)
| KL1 (mu : R)       (* penalty |y| with proximal parameter mu *)
| KFree.             (* coordinate not covered by any block *)

(** Which scalar set governs which coordinate of a vector of size [n].
    [None]: the sizes do not fit. *)
Fixpoint layout (s : cset) (n : nat) : option (list kind) :=
  match s with
  | SEq _ => Some (repeat KEq n)
  | SNeg _ => Some (repeat KNeg n)
  | SBox lo up _ =>
      if Nat.eqb (length lo) n && Nat.eqb (length up) n
      then Some (zip_with KBox lo up) else None
  | SL1 p => Some (repeat (KL1 (pp_mu p)) n)
  | SProd cs ns _ =>
      (fix go cs ns n :=
         match cs, ns with
         | [], [] => Some (repeat KFree n)
         | c :: cs', m :: ns' =>
             if Nat.leb m n then
               match layout c m, go cs' ns' (n - m)%nat with
               | Some a, Some b => Some (a ++ b)
               | _, _ => None
               end
             else None
         | _, _ => None
         end) cs ns n
  end.

(** Membership, penalty value, and admissible parameters. *)
Definition dom (k : kind) (y : R) : Prop :=
  match k with
  | KEq => y = 0 | KNeg => y <= 0 | KBox l u => l <= y <= u
  | KL1 _ => True | KFree => True
  end.
Definition pen (k : kind) (y : R) : R :=
  match k with KL1 _ => Rabs y | _ => 0 end.
Definition is_set (k : kind) : Prop :=
  match k with KEq | KNeg => True | KBox l u => l <= u | _ => False end.
(** Sets, or L1 penalties all using the parameter [mu]. *)
Definition prox_ok (mu : R) (k : kind) : Prop :=
  match k with
  | KEq | KNeg => True | KBox l u => l <= u | KL1 m => m = mu | KFree => False
  end.

Definition in_set (ks : list kind) (y : list R) : Prop := Forall2 dom ks y.
Fixpoint penalty (ks : list kind) (y : list R) : R :=
  match ks, y with
  | k :: ks', a :: y' => pen k a + penalty ks' y'
  | _, _ => 0
  end.
(** Squared distance. *)
Fixpoint dist2 (x y : list R) : R :=
  match x, y with
  | a :: x', b :: y' => (a - b) * (a - b) + dist2 x' y'
  | _, _ => 0
  end.
Definition vadd (x y : list R) : list R := zip_with Rplus x y.
Definition vdot (x y : list R) : R := fold_right Rplus 0 (zip_with Rmult x y).
Definition mvmul (J : list (list R)) (e : list R) : list R :=
  map (fun r => vdot r e) J.

(** [z] is not at a kink of the projection. *)
Definition off_kink (k : kind) (z : R) : Prop :=
  match k with
  | KEq => True | KNeg => z <> 0 | KBox l u => z <> l /\ z <> u
  | KL1 mu => Rabs z <> mu | KFree => False
  end.

(** [w] is a normal vector of the scalar set at [p]: w (y - p) <= 0 on the
    set. *)
Definition normal_at (k : kind) (p w : R) : Prop :=
  forall y, dom k y -> w * (y - p) <= 0.
