(** Model of the norm and finiteness helpers of include/aligator/math.hpp.

    Scalars are IEEE values with the finite ones taken exactly (rationals):
    NaN, the two infinities and the finite values.  Rounding plays no role
    here, only comparisons and absolute values, which are exact in IEEE. *)
From Coq Require Import QArith Qabs List Bool.
Import ListNotations.
Open Scope Q_scope.

Inductive fl := NaN | PInf | MInf | Fin (q : Q).

(** IEEE comparison [a < b]: false as soon as one side is NaN. *)
Definition flt (a b : fl) : bool :=
  match a, b with
  | NaN, _ | _, NaN => false
  | MInf, MInf => false
  | MInf, _ => true
  | _, MInf => false
  | PInf, _ => false
  | Fin _, PInf => true
  | Fin x, Fin y => negb (Qle_bool y x)
  end.

Definition fabs (a : fl) : fl :=
  match a with NaN => NaN | PInf | MInf => PInf | Fin q => Fin (Qabs q) end.

Definition isnan (a : fl) : bool := match a with NaN => true | _ => false end.
Definition isinf (a : fl) : bool :=
  match a with PInf | MInf => true | _ => false end.

(** [std::max(a, b)]: "(a < b) ? b : a" (C++17 [alg.min.max]). *)
Definition stdmax (a b : fl) : fl := if flt a b then b else a.

Section Norm.

(** What Eigen's [lpNorm<Infinity>] (= [cwiseAbs().maxCoeff()]) returns on a
    block which contains a NaN is left open by Eigen (NaN propagation policy
    [PropagateFast]); it is an arbitrary function here. *)
Variable redux : list fl -> fl.

(** math.hpp 149-156: [infty_norm] of one Eigen object, given by its
    coefficients; 0 for an empty one.  Simplified: the reduction order of
    Eigen is the list order (irrelevant for the maximum of non-NaN values). *)
Definition norm_block (z : list fl) : fl :=
  match z with
  | [] => Fin 0
  | c :: z' =>
      if existsb isnan z then redux z
      else fold_left (fun m x => stdmax m (fabs x)) z' (fabs c)
  end.

(** math.hpp 158-166: [infty_norm] of a [std::vector] of Eigen objects. *)
Definition norm_blocks (zs : list (list fl)) : fl :=
  fold_left (fun out z => stdmax out (norm_block z)) zs (Fin 0).

(** solver-proxddp.hxx 315-316: [prim_infeas]. *)
Definition prim_infeas (stage_infeas dyn_slacks : list (list fl)) : fl :=
  stdmax (norm_blocks stage_infeas) (norm_blocks dyn_slacks).

(** solver-proxddp.hxx 729-731: [dual_infeas]; here the arguments are single
    Eigen vectors. *)
Definition dual_infeas (st ct : list fl) : fl :=
  stdmax (norm_block st) (norm_block ct).

End Norm.

(** math.hpp 168-171: [check_scalar]. *)
Definition check_scalar (x : fl) : bool := isnan x || isinf x.

(** math.hpp 189-192: [check_value] of an Eigen object,
    [hasNaN() || !allFinite()]. *)
Definition check_block (z : list fl) : bool :=
  existsb isnan z || negb (forallb (fun x => negb (check_scalar x)) z).

(** math.hpp 173-181: [check_value] of a [std::vector]. *)
Fixpoint check_blocks (zs : list (list fl)) : bool :=
  match zs with
  | [] => false
  | z :: t => if check_block z then true else check_blocks t
  end.
