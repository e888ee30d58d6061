(** Model of the quadratic costs (QuadraticCost, QuadraticResidualCost and so
    QuadraticStateCost and QuadraticControlCost, ConstantCost), of the direct sum
    of two costs and of the finite-difference gradient of a cost, over an arbitrary
    field, on vector spaces.

    As in FunModel a cost is an object with data of any type, changed by the calls
    evaluate, computeGradients and computeHessians; [cout] reads the buffers of
    CostDataAbstract. *)
From mathcomp Require Import all_ssreflect all_algebra.
From Verif Require Import MxRing FunModel.
Set Implicit Arguments.
Unset Strict Implicit.
Import GRing.Theory.
Local Open Scope ring_scope.

Section Cost.
Variable F : fieldType.

(** CostDataAbstractTpl, core/cost-abstract.hpp 73-109: value_, grad_ and hess_
    with Lx_, Lu_ the two parts of the gradient and Lxx_, Lxu_, Lux_, Luu_ the four
    blocks of the Hessian. *)
Record cdata n m := CData { cval : F; cgrad : 'cV[F]_(n + m); chess : 'M[F]_(n + m) }.
Definition cdata0 n m : cdata n m := CData 0 0 0.
Definition set_cval n m (d : cdata n m) v := CData v (cgrad d) (chess d).
Definition set_cgrad n m (d : cdata n m) g := CData (cval d) g (chess d).
Definition set_chess n m (d : cdata n m) H := CData (cval d) (cgrad d) H.

(** CostAbstractTpl.  [None]: the residual's vector-Hessian product fails. *)
Record cost n m := Cost {
  cst : Type;
  cnew : cst;
  ceval : 'cV[F]_n -> 'cV[F]_m -> cst -> cst;
  cgrads : 'cV[F]_n -> 'cV[F]_m -> cst -> cst;
  chesss : 'cV[F]_n -> 'cV[F]_m -> cst -> option cst;
  cout : cst -> cdata n m }.

Definition half : F := (2%:R)^-1.

(** ** ConstantCostTpl, modelling/costs/constant-cost.hpp 14-34 *)
Definition const_cost n m (c : F) : cost n m :=
  @Cost n m (cdata n m) (set_cval (cdata0 n m) c)
    (fun x u s => set_cval s c) (fun x u s => s) (fun x u s => Some s) id.

(** ** QuadraticCostTpl, modelling/costs/quad-costs.hpp *)

(** QuadraticCostDataTpl, 149-165 (cross_x_ and cross_u_ are written before they
    are read in each call and are left out). *)
Record qdata n m := QData { qbase : cdata n m; w_x : 'cV[F]_n; w_u : 'cV[F]_m }.

Section Quad.
Variables (n m : nat) (Wxx : 'M[F]_n) (Wuu : 'M[F]_m) (cross : option 'M[F]_(n, m))
          (px : 'cV[F]_n) (pu : 'cV[F]_m).
(** the weight is zero without cross term, 41-55 *)
Definition Wxu : 'M[F]_(n, m) := odflt 0 cross.

(** createData, 106-113 *)
Definition quad_new : qdata n m :=
  QData (set_chess (cdata0 n m) (block_mx Wxx Wxu Wxu^T Wuu)) 0 0.

(** evaluate, 80-94 *)
Definition quad_eval (x : 'cV[F]_n) (u : 'cV[F]_m) (d : qdata n m) : qdata n m :=
  let wx := Wxx *m x in
  let wu := Wuu *m u in
  let wx := if cross is Some W then wx + W *m u else wx in
  let wu := if cross is Some W then wu + W^T *m x else wu in
  QData (set_cval (qbase d)
           (half * dot x (wx + 2%:R *: px) + half * dot u (wu + 2%:R *: pu)))
        wx wu.

(** computeGradients, 96-101: from the products of the last evaluation *)
Definition quad_grads (x : 'cV[F]_n) (u : 'cV[F]_m) (d : qdata n m) : qdata n m :=
  QData (set_cgrad (qbase d) (col_mx (w_x d + px) (w_u d + pu))) (w_x d) (w_u d).

(** computeHessians, 103-104, does nothing *)
Definition quad_cost : cost n m :=
  @Cost n m (qdata n m) quad_new quad_eval quad_grads (fun x u d => Some d) (@qbase n m).
End Quad.

(** ** QuadraticResidualCostTpl, modelling/costs/quad-residual-cost.hxx *)

(** CompositeCostDataTpl, composite-costs.hpp 15-31 (JtW_buf is written before it
    is read; Wv_buf is read by computeHessians). *)
Record rdata n m r (f : sfun F n m r) := RData {
  rbase : cdata n m; rres : fst_t f; rWv : 'cV[F]_r }.

Section Res.
Variables (n m r : nat) (f : sfun F n m r) (W : 'M[F]_r) (gauss_newton : bool).

(** evaluate, 23-33 *)
Definition res_eval (x : 'cV[F]_n) (u : 'cV[F]_m) (d : rdata f) : rdata f :=
  let rd := feval x u (rres d) in
  let v := fval (fout rd) in
  let Wv := W *m v in
  RData (set_cval (rbase d) (half * dot v Wv)) rd Wv.

(** computeGradients, 35-46 *)
Definition res_grads (x : 'cV[F]_n) (u : 'cV[F]_m) (d : rdata f) : rdata f :=
  let rd := fjacs x u (rres d) in
  let Wv := W *m fval (fout rd) in
  RData (set_cgrad (rbase d) ((fjac (fout rd))^T *m Wv)) rd Wv.

(** computeHessians, 48-64: without Gauss-Newton the vector-Hessian product
    replaces the first term *)
Definition res_hess (x : 'cV[F]_n) (u : 'cV[F]_m) (d : rdata f) : option (rdata f) :=
  let J := fjac (fout (rres d)) in
  let d1 := RData (set_chess (rbase d) (J^T *m W *m J)) (rres d) (rWv d) in
  if gauss_newton then Some d1
  else if fvhps x u (rWv d1) (rres d1) is Some rd then
    Some (RData (set_chess (rbase d1) (fvhp (fout rd))) rd (rWv d1))
  else None.

Definition res_cost : cost n m :=
  @Cost n m (rdata f) (RData (cdata0 n m) (fnew f) 0) res_eval res_grads res_hess (@rbase n m r f).
End Res.

(** ** DirectSumCostTpl, modelling/costs/cost-direct-sum.hpp *)
Section Sum.
Variables (n1 m1 n2 m2 : nat) (c1 : cost n1 m1) (c2 : cost n2 m2).
Let n := (n1 + n2)%N.
Let m := (m1 + m2)%N.
Record sdata := SData { sbase : cdata n m; s1 : cst c1; s2 : cst c2 }.

(** evaluate, 55-69 (the states are split by the product of the two spaces) *)
Definition sum_eval (x : 'cV[F]_n) (u : 'cV[F]_m) (d : sdata) : sdata :=
  let d1 := ceval (usubmx x) (usubmx u) (s1 d) in
  let d2 := ceval (dsubmx x) (dsubmx u) (s2 d) in
  SData (set_cval (sbase d) (cval (cout d1) + cval (cout d2))) d1 d2.

(** computeGradients, 71-91 *)
Definition sum_grads (x : 'cV[F]_n) (u : 'cV[F]_m) (d : sdata) : sdata :=
  let d1 := cgrads (usubmx x) (usubmx u) (s1 d) in
  let d2 := cgrads (dsubmx x) (dsubmx u) (s2 d) in
  let g1 := cgrad (cout d1) in
  let g2 := cgrad (cout d2) in
  SData (set_cgrad (sbase d)
           (col_mx (col_mx (usubmx g1) (usubmx g2)) (col_mx (dsubmx g1) (dsubmx g2)))) d1 d2.

(** computeHessians, 93-119: the diagonal blocks are written, the others keep
    what they had; Lux_ becomes the transpose of Lxu_ *)
Definition sum_hess (x : 'cV[F]_n) (u : 'cV[F]_m) (d : sdata) : option sdata :=
  if chesss (usubmx x) (usubmx u) (s1 d) is Some d1 then
  if chesss (dsubmx x) (dsubmx u) (s2 d) is Some d2 then
    let H1 := chess (cout d1) in
    let H2 := chess (cout d2) in
    let H := chess (sbase d) in
    let Lxx := ulsubmx H in
    let Luu := drsubmx H in
    let Lxu := ursubmx H in
    let Lxx := block_mx (ulsubmx H1) (ursubmx Lxx) (dlsubmx Lxx) (ulsubmx H2) in
    let Luu := block_mx (drsubmx H1) (ursubmx Luu) (dlsubmx Luu) (drsubmx H2) in
    let Lxu := block_mx (ursubmx H1) (ursubmx Lxu) (dlsubmx Lxu) (ursubmx H2) in
    Some (SData (set_chess (sbase d) (block_mx Lxx Lxu Lxu^T Luu)) d1 d2)
  else None else None.

Definition sum_cost : cost n m :=
  @Cost n m sdata (SData (cdata0 n m) (cnew c1) (cnew c2)) sum_eval sum_grads sum_hess sbase.
End Sum.

(** ** CostFiniteDifferenceHelper, modelling/autodiff/cost-finite-difference.hxx *)
Section Fd.
Variables (n m : nat) (c : cost n m) (eps : F).
Record cfd_data := CfdData {
  k_base : cdata n m; k_c1 : cst c; k_c2 : cst c; k_dx : 'cV[F]_n; k_du : 'cV[F]_m }.

(** evaluate, 15-22 *)
Definition cfd_eval x u (d : cfd_data) : cfd_data :=
  let c1 := ceval x u (k_c1 d) in
  CfdData (set_cval (k_base d) (cval (cout c1))) c1 (k_c2 d) (k_dx d) (k_du d).

(** one turn of the loops of computeGradients, 33-40 and 43-50 *)
Definition cfd_turn_x x u (d : cfd_data) (i : 'I_n) : cfd_data :=
  let dx := set_entry (k_dx d) i eps in
  let c2 := ceval (x + dx) u (k_c2 d) in
  let q := (cval (cout c2) - cval (cout (k_c1 d))) / eps in
  CfdData (set_cgrad (k_base d)
             (col_mx (set_entry (usubmx (cgrad (k_base d))) i q) (dsubmx (cgrad (k_base d)))))
          (k_c1 d) c2 (set_entry dx i 0) (k_du d).
Definition cfd_turn_u x u (d : cfd_data) (i : 'I_m) : cfd_data :=
  let du := set_entry (k_du d) i eps in
  let c2 := ceval x (u + du) (k_c2 d) in
  let q := (cval (cout c2) - cval (cout (k_c1 d))) / eps in
  CfdData (set_cgrad (k_base d)
             (col_mx (usubmx (cgrad (k_base d))) (set_entry (dsubmx (cgrad (k_base d))) i q)))
          (k_c1 d) c2 (k_dx d) (set_entry du i 0).

(** computeGradients, 24-51 *)
Definition cfd_grads x u (d : cfd_data) : cfd_data :=
  let c1 := ceval x u (k_c1 d) in
  let d := CfdData (k_base d) c1 (k_c2 d) 0 (k_du d) in
  let d := foldl (cfd_turn_x x u) d (enum 'I_n) in
  let d := CfdData (k_base d) (k_c1 d) (k_c2 d) (k_dx d) 0 in
  foldl (cfd_turn_u x u) d (enum 'I_m).

(** computeHessians does nothing (cost-finite-difference.hpp 30-31) *)
Definition cost_fd : cost n m :=
  @Cost n m cfd_data (CfdData (cdata0 n m) (cnew c) (cnew c) 0 0)
    cfd_eval cfd_grads (fun x u d => Some d) k_base.
End Fd.

End Cost.
