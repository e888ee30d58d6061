(** Model of LogResidualCost and RelaxedLogBarrierCost
    (modelling/costs/log-residual-cost.hxx, relaxed-log-barrier.hxx).

    Real scalars (the logarithm of a nonpositive number, NaN or -inf in the code,
    is outside the domain).  The argument is the stacked vector (x, u) of a vector
    space: jac_buffer_.leftCols(grad_.size()) are the columns of x and u.  Vectors
    are lists, matrices lists of rows. *)
From Coq Require Import Reals List Bool.
From Verif Require Import CSetModel MultModel MeritModel.
Import ListNotations.
Local Open Scope R_scope.

(** the residual: value and Jacobian (StageFunction::evaluate, computeJacobians) *)
Record rfun := RFun { r_n : nat; r_nr : nat; r_eval : list R -> list R; r_jac : list R -> list (list R) }.
(** CompositeCostData (composite-costs.hpp): the cost data and those of the residual *)
Record bdata := BData { res_v : list R; res_J : list (list R); b_val : R; b_grad : list R;
  b_hess : list (list R) }.

(** Outer product g^T g of a row, sum and scaling of matrices *)
Definition outer (g : list R) : list (list R) := map (fun a => vscale a g) g.
Definition madd (A B : list (list R)) : list (list R) := zip_with vplus' A B.
Definition mscale (a : R) (A : list (list R)) : list (list R) := map (vscale a) A.

(** log-residual-cost.hxx 9-25, relaxed-log-barrier.hxx 9-29 (without the threshold):
    the constructor throws (None) on a wrong size or a nonpositive weight *)
Definition make_weights (f : rfun) (w : list R) : option (list R) :=
  if Nat.eqb (length w) (r_nr f) then
    if existsb (fun a => if Rle_dec a 0 then true else false) w then None else Some w
  else None.
(** relaxed-log-barrier.hxx 18-28 *)
Definition make_relaxed (f : rfun) (w : list R) (thr : R) : option (list R) :=
  match make_weights f w with
  | Some w => if Rle_dec thr 0 then None else Some w
  | None => None
  end.

(** log-residual-cost.hxx 35-44 *)
Definition log_evaluate (f : rfun) (w : list R) (z : list R) (d : bdata) : bdata :=
  let v := r_eval f z in
  BData v (res_J d) (- vdot w (map ln v)) (b_grad d) (b_hess d).
(** log-residual-cost.hxx 57-60 *)
Fixpoint log_grad_loop (w : list R) (J : list (list R)) (v : list R) (g : list R) : list R :=
  match w, J, v with
  | wi :: w, gi :: J, vi :: v => log_grad_loop w J v (vplus' g (vscale (- wi / vi) gi))
  | _, _, _ => g
  end.
(** log-residual-cost.hxx 46-61 *)
Definition log_gradients (f : rfun) (w : list R) (z : list R) (d : bdata) : bdata :=
  let J := r_jac f z in
  BData (res_v d) J (b_val d) (log_grad_loop w J (res_v d) (repeat 0 (r_n f))) (b_hess d).
(** log-residual-cost.hxx 73-77 *)
Fixpoint log_hess_loop (w : list R) (J : list (list R)) (v : list R) (H : list (list R)) :=
  match w, J, v with
  | wi :: w, gi :: J, vi :: v =>
      log_hess_loop w J v (madd H (mscale (- wi / (vi * vi)) (outer gi)))
  | _, _, _ => H
  end.
(** log-residual-cost.hxx 63-78 *)
Definition log_hessians (f : rfun) (w : list R) (d : bdata) : bdata :=
  BData (res_v d) (res_J d) (b_val d) (b_grad d)
    (log_hess_loop w (res_J d) (res_v d) (repeat (repeat 0 (r_n f)) (r_n f))).

(** relaxed-log-barrier.hxx 48-56 *)
Fixpoint rel_value_loop (thr : R) (w v : list R) (c : R) : R :=
  match w, v with
  | wi :: w, vi :: v =>
      rel_value_loop thr w v
        (if Rlt_dec vi thr then
           let sq := (vi - 2 * thr) / thr in c + wi * (/ 2 * (sq * sq - 1) - ln thr)
         else c - wi * ln vi)
  | _, _ => c
  end.
(** relaxed-log-barrier.hxx 40-57 *)
Definition rel_evaluate (f : rfun) (thr : R) (w : list R) (z : list R) (d : bdata) : bdata :=
  let v := r_eval f z in
  BData v (res_J d) (rel_value_loop thr w v 0) (b_grad d) (b_hess d).
(** relaxed-log-barrier.hxx 70-78 *)
Fixpoint rel_grad_loop (thr : R) (w : list R) (J : list (list R)) (v : list R) (g : list R) : list R :=
  match w, J, v with
  | wi :: w, gi :: J, vi :: v =>
      rel_grad_loop thr w J v
        (if Rlt_dec vi thr then vplus' g (vscale (wi * (vi - 2 * thr) / (thr * thr)) gi)
         else vplus' g (vscale (- (wi / vi)) gi))
  | _, _, _ => g
  end.
(** relaxed-log-barrier.hxx 59-79 *)
Definition rel_gradients (f : rfun) (thr : R) (w : list R) (z : list R) (d : bdata) : bdata :=
  let J := r_jac f z in
  BData (res_v d) J (b_val d) (rel_grad_loop thr w J (res_v d) (repeat 0 (r_n f))) (b_hess d).
(** relaxed-log-barrier.hxx 91-101 *)
Fixpoint rel_hess_loop (thr : R) (w : list R) (J : list (list R)) (v : list R) (H : list (list R)) :=
  match w, J, v with
  | wi :: w, gi :: J, vi :: v =>
      rel_hess_loop thr w J v
        (madd H (if Rlt_dec vi thr then
                   let sq := (vi - 2 * thr) / (thr * thr) in mscale (wi * wi * sq * sq) (outer gi)
                 else mscale (wi * wi / (vi * vi)) (outer gi)))
  | _, _, _ => H
  end.
(** relaxed-log-barrier.hxx 81-102 *)
Definition rel_hessians (f : rfun) (thr : R) (w : list R) (d : bdata) : bdata :=
  BData (res_v d) (res_J d) (b_val d) (b_grad d)
    (rel_hess_loop thr w (res_J d) (res_v d) (repeat (repeat 0 (r_n f)) (r_n f))).
