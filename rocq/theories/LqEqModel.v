(** Model of LqrKnotTpl::isApprox and LqrProblemTpl::isApprox,
    /repo/include/aligator/gar/lqr-problem.hxx 243-264 and lqr-problem.hpp
    171-182.  Scalars are rationals; a matrix is its size and its list of
    coefficients. *)
From Coq Require Import QArith List Arith Bool.
Import ListNotations.

Record mat := Mat { rows : nat; cols : nat; coeffs : list Q }.
Fixpoint sqdist (a b : list Q) : Q :=
  match a, b with
  | x :: a', y :: b' => (x - y) * (x - y) + sqdist a' b'
  | _, _ => 0
  end.
Fixpoint sqnorm (a : list Q) : Q := match a with x :: a' => x * x + sqnorm a' | [] => 0 end.
Definition Qminb (a b : Q) : Q := if Qle_bool a b then a else b.
(** Eigen's DenseBase::isApprox (Fuzzy.h): |a - b|^2 <= prec^2 min(|a|^2, |b|^2);
    the sizes must be equal (assertion), [None] otherwise *)
Definition mat_isApprox (prec : Q) (a b : mat) : option bool :=
  if (rows a =? rows b) && (cols a =? cols b)
  then Some (Qle_bool (sqdist (coeffs a) (coeffs b)) (prec * prec * Qminb (sqnorm (coeffs a)) (sqnorm (coeffs b))))
  else None.

(** LqrKnotTpl, hpp 40-61 *)
Record lknot := LKnot {
  nx : nat; nu : nat; nc : nat; nx2 : nat; nth : nat;
  kQ : mat; kS : mat; kR : mat; kq : mat; kr : mat; kA : mat; kB : mat; kf : mat;
  kC : mat; kD : mat; kd : mat; kGth : mat; kGx : mat; kGu : mat; kGv : mat; kgamma : mat }.
(** lqrKnotsSameDim, hpp 197-202 *)
Definition lqrKnotsSameDim (a b : lknot) : bool :=
  (nx a =? nx b) && (nu a =? nu b) && (nc a =? nc b) && (nx2 a =? nx2 b) && (nth a =? nth b).
(** && with evaluation from left to right *)
Definition oand (a : option bool) (b : option bool) : option bool :=
  match a with Some true => b | _ => a end.
Fixpoint all_approx (prec : Q) (l : list (mat * mat)) : option bool :=
  match l with
  | [] => Some true
  | (a, b) :: r => oand (mat_isApprox prec a b) (all_approx prec r)
  end.
Definition fields (a b : lknot) : list (mat * mat) :=
  [(kQ a, kQ b); (kS a, kS b); (kR a, kR b); (kq a, kq b); (kr a, kr b);
   (kA a, kA b); (kB a, kB b); (kf a, kf b); (kC a, kC b); (kD a, kD b); (kd a, kd b);
   (kGth a, kGth b); (kGx a, kGx b); (kGu a, kGu b); (kGv a, kGv b); (kgamma a, kgamma b)].
(** LqrKnotTpl::isApprox, hxx 243-264 *)
Definition knot_isApprox (prec : Q) (a b : lknot) : option bool :=
  if negb (lqrKnotsSameDim a b) then Some false else all_approx prec (fields a b).

Record lqproblem := LProb { G0 : mat; g0 : mat; stages : list lknot }.
(** LqrProblemTpl::isApprox, hpp 171-182, with the precisions of Eigen
    ([dummy]) and of the knots ([eps]); [None]: assertion or access outside
    stages.  With no stage horizon() is -1 and the loop bound uint(-1). *)
Fixpoint stages_isApprox (eps : Q) (n : nat) (a b : list lknot) : option bool :=
  match n with
  | O => Some true
  | S n' => match a, b with
            | x :: a', y :: b' => oand (knot_isApprox eps x y) (stages_isApprox eps n' a' b')
            | _, _ => None
            end
  end.
Definition isApprox (dummy eps : Q) (p q : lqproblem) : option bool :=
  if negb (length (stages p) =? length (stages q)) then Some false
  else oand (mat_isApprox dummy (G0 p) (G0 q)) (oand (mat_isApprox dummy (g0 p) (g0 q))
    match stages p with
    | [] => None
    | _ => stages_isApprox eps (length (stages p) - 1) (stages p) (stages q)
    end).
