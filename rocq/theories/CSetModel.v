(** Model of the constraint sets of aligator.

    Sources (relative to /repo/include/aligator):
    - core/constraint-set.hpp 16-114, core/constraint-set.hxx 9-37
    - modelling/constraints/equality-constraint.hpp 17-56
    - modelling/constraints/negative-orthant.hpp 19-45
    - modelling/constraints/box-constraint.hpp 10-44
    - modelling/constraints/l1-penalty.hpp 18-53
    - modelling/constraints/constraint-set-product.hpp 10-121

    Scalars are real numbers (no rounding, no NaN/infinite bounds).  Vectors are
    lists, matrices lists of rows.  Every routine of the library writes through
    an output reference: the model takes the old content of the output and
    returns the new one.  [None] is undefined behaviour / an Eigen assertion
    (size mismatch, block out of range). *)
From Coq Require Import Reals List Lia Lra Bool Arith.
Import ListNotations.
Local Open Scope R_scope.

(** constraint-set.hpp 112-113: [mutable Scalar mu_ = 0.; mutable Scalar
    mu_inv_;].  [mu_inv_] is left uninitialised by the constructor: [None]. *)
Record prox_param := PP { pp_mu : R; pp_mu_inv : option R }.
Definition pp_default : prox_param := PP 0 None.

(** The class hierarchy: one constructor per derived class, each carrying the
    base-class proximal parameter.  Products own copies of their components
    (constraint-set-product.hpp 119: vector of polymorphic values). *)
Inductive cset : Type :=
| SEq (p : prox_param)
| SNeg (p : prox_param)
| SBox (lower upper : list R) (p : prox_param)
| SL1 (p : prox_param)
| SProd (components : list cset) (block_sizes : list nat) (p : prox_param).

Definition param (s : cset) : prox_param :=
  match s with
  | SEq p | SNeg p | SL1 p => p
  | SBox _ _ p => p
  | SProd _ _ p => p
  end.

(** constraint-set.hpp 68-71.  The method is not virtual and touches only the
    object it is called on. *)
Definition set_prox_parameter (mu : R) (s : cset) : cset :=
  let p := PP mu (Some (1 / mu)) in
  match s with
  | SEq _ => SEq p
  | SNeg _ => SNeg p
  | SBox l u _ => SBox l u p
  | SL1 _ => SL1 p
  | SProd cs ns _ => SProd cs ns p
  end.

(** constraint-set-product.hpp 45-53: the constructor raises when the numbers
    of components and of block sizes differ. *)
Definition make_product (cs : list cset) (ns : list nat) : option cset :=
  if Nat.eqb (length cs) (length ns) then Some (SProd cs ns pp_default)
  else None.

(** blockVectorGetRow / blockMatrixGetRow, constraint-set-product.hpp 10-32:
    [segment(start, n)] asserts that the block is inside the vector. *)
Definition seg {A} (v : list A) (start n : nat) : option (list A) :=
  if Nat.leb (start + n) (length v) then Some (firstn n (skipn start v))
  else None.

(** Writing a block through the view returned by [segment]. *)
Definition put {A} (v : list A) (start : nat) (b : list A) : list A :=
  firstn start v ++ b ++ skipn (start + length b) v.

(** The loop shared by all the overrides of the product class
    (constraint-set-product.hpp 69-111).  The start index is accumulated
    instead of being recomputed as a prefix sum at each iteration. *)
Definition blk_loop {A} (f : cset -> list R -> list A -> option (list A))
  (z : list R) :=
  fix go (cs : list cset) (ns : list nat) (start : nat) (out : list A)
    {struct cs} : option (list A) :=
    match cs, ns with
    | [], [] => Some out
    | c :: cs', n :: ns' =>
        match seg z start n, seg out start n with
        | Some zi, Some oi =>
            match f c zi oi with
            | Some o' => go cs' ns' (start + n)%nat (put out start o')
            | None => None
            end
        | _, _ => None
        end
    | _, _ => None
    end.

Definition same_len {A B} (l : list A) (l' : list B) : bool :=
  Nat.eqb (length l) (length l').

(** Eigen's coefficient-wise binary operation. *)
Definition zip_with {A B C} (f : A -> B -> C) : list A -> list B -> list C :=
  fix go l l' :=
    match l, l' with
    | a :: l1, b :: l2 => f a b :: go l1 l2
    | _, _ => []
    end.

(** Eigen's [sign]. *)
Definition Rsign (x : R) : R :=
  if Rlt_dec 0 x then 1 else if Rlt_dec x 0 then -1 else 0.

(** box-constraint.hpp 27-29. *)
Definition box_proj (lo up z : list R) : list R :=
  zip_with Rmax (zip_with Rmin z up) lo.

(** l1-penalty.hpp 36-39. *)
Definition soft (mu z : R) : R := Rsign z * Rmax (Rabs z - mu) 0.

(** [projection]: equality-constraint.hpp 33-35, negative-orthant.hpp 32-34,
    box-constraint.hpp 31-33, l1-penalty.hpp 41-43,
    constraint-set-product.hpp 69-75. *)
Fixpoint projection (s : cset) (z out : list R) : option (list R) :=
  match s with
  | SProd cs ns _ => blk_loop projection z cs ns 0%nat out
  | SEq _ => if same_len z out then Some (map (fun _ => 0) out) else None
  | SNeg _ => if same_len z out then Some (map (fun x => Rmin x 0) z) else None
  | SBox lo up _ =>
      if same_len z out && same_len z lo && same_len z up
      then Some (box_proj lo up z) else None
  | SL1 p => if same_len z out then Some (map (soft (pp_mu p)) z) else None
  end.

(** [normalConeProjection]: equality-constraint.hpp 37-40,
    negative-orthant.hpp 36-38, box-constraint.hpp 35-37, l1-penalty.hpp 45-47,
    constraint-set-product.hpp 77-84. *)
Fixpoint normal_cone_projection (s : cset) (z out : list R)
  : option (list R) :=
  match s with
  | SProd cs ns _ => blk_loop normal_cone_projection z cs ns 0%nat out
  | SEq _ => if same_len z out then Some z else None
  | SNeg _ => if same_len z out then Some (map (fun x => Rmax x 0) z) else None
  | SBox lo up _ =>
      if same_len z out && same_len z lo && same_len z up
      then Some (zip_with Rminus z (box_proj lo up z)) else None
  | SL1 p =>
      if same_len z out
      then Some (zip_with Rminus z (map (soft (pp_mu p)) z)) else None
  end.

Definition gtb (x y : R) : bool := if Rlt_dec y x then true else false.
Definition leb (x y : R) : bool := if Rle_dec x y then true else false.

(** [computeActiveSet]: equality-constraint.hpp 52-55, negative-orthant.hpp
    41-44, box-constraint.hpp 39-43, l1-penalty.hpp 49-52,
    constraint-set-product.hpp 104-111. *)
Fixpoint active_set (s : cset) (z : list R) (out : list bool)
  : option (list bool) :=
  match s with
  | SProd cs ns _ => blk_loop active_set z cs ns 0%nat out
  | SEq _ => if same_len z out then Some (map (fun _ => true) out) else None
  | SNeg _ => if same_len z out then Some (map (fun x => gtb x 0) z) else None
  | SBox lo up _ =>
      if same_len z out && same_len z lo && same_len z up
      then Some (zip_with orb (zip_with gtb z up)
                   (zip_with (fun x l => gtb l x) z lo)) else None
  | SL1 p =>
      if same_len z out
      then Some (map (fun x => leb (Rabs x) (pp_mu p)) z) else None
  end.

Definition zero_row (r : list R) : list R := map (fun _ => 0) r.

(** constraint-set.hxx 9-22: rows of active components are zeroed. *)
Definition clear_rows (keep : bool -> bool) (act : list bool)
  (J : list (list R)) : list (list R) :=
  zip_with (fun (a : bool) r => if keep a then r else zero_row r) act J.

Definition leaf_jac (keep : bool -> bool) (s : cset) (z : list R)
  (J : list (list R)) : option (list (list R)) :=
  if same_len z J then
    match active_set s z (map (fun _ => false) z) with
    | Some act => Some (clear_rows keep act J)
    | None => None
    end
  else None.

(** [applyProjectionJacobian]: constraint-set.hxx 9-22, overridden in
    equality-constraint.hpp 42-45 and constraint-set-product.hpp 86-93. *)
Fixpoint apply_projection_jacobian (s : cset) (z : list R)
  (J : list (list R)) : option (list (list R)) :=
  match s with
  | SProd cs ns _ => blk_loop apply_projection_jacobian z cs ns 0%nat J
  | SEq _ => if same_len z J then Some (map zero_row J) else None
  | _ => leaf_jac negb s z J
  end.

(** [applyNormalConeProjectionJacobian]: constraint-set.hxx 24-37, overridden
    in equality-constraint.hpp 47-50 and constraint-set-product.hpp 95-102. *)
Fixpoint apply_normal_cone_jacobian (s : cset) (z : list R)
  (J : list (list R)) : option (list (list R)) :=
  match s with
  | SProd cs ns _ => blk_loop apply_normal_cone_jacobian z cs ns 0%nat J
  | SEq _ => if same_len z J then Some J else None
  | _ => leaf_jac (fun a => a) s z J
  end.

Definition norm1 (v : list R) : R := fold_right Rplus 0 (map Rabs v).
Definition sqnorm (v : list R) : R := fold_right Rplus 0 (map (fun x => x * x) v).

(** [evaluate]: constraint-set.hpp 31 (0 for sets), l1-penalty.hpp 32-34,
    constraint-set-product.hpp 60-67 (sum over the blocks). *)
Fixpoint evaluate (s : cset) (z : list R) : option R :=
  match s with
  | SL1 _ => Some (norm1 z)
  | SProd cs ns _ =>
      (fix go (cs : list cset) (ns : list nat) (start : nat) : option R :=
         match cs, ns with
         | [], [] => Some 0
         | c :: cs', n :: ns' =>
             match seg z start n with
             | Some zi =>
                 match evaluate c zi, go cs' ns' (start + n)%nat with
                 | Some a, Some b => Some (a + b)
                 | _, _ => None
                 end
             | None => None
             end
         | _, _ => None
         end) cs ns 0%nat
  | _ => Some 0
  end.

(** [evaluateMoreauEnvelope], constraint-set.hpp 93-98; reading the
    uninitialised [mu_inv_] is [None]. *)
Definition evaluate_moreau (s : cset) (zin zproj : list R) : option R :=
  match evaluate s (zip_with Rminus zin zproj), pp_mu_inv (param s) with
  | Some e, Some mi => Some (e + 1 / 2 * mi * sqnorm zproj)
  | _, _ => None
  end.

(** [computeMoreauEnvelope], constraint-set.hpp 102-106. *)
Definition compute_moreau (s : cset) (zin out : list R)
  : option (list R * R) :=
  match normal_cone_projection s zin out with
  | Some p => match evaluate_moreau s zin p with
              | Some e => Some (p, e)
              | None => None
              end
  | None => None
  end.
