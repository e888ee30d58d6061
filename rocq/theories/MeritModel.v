(** Model of ALFunction::evaluate and ALFunction::directionalDerivative
    (solvers/proxddp/merit-function.hxx 32-107), and of forwardPass
    (solver-proxddp.hxx 534-552) as seen by the line search.

    Real scalars: the NaN guards never fire.  Vectors are lists, matrices lists
    of rows.  The constraints of a stage are one stacked function (tiling: C35);
    the gradients of the Lagrangian are those of C36 for lists. *)
From Coq Require Import Reals List Bool Arith.
From Verif Require Import CSetModel MultModel.
Import ListNotations.
Local Open Scope R_scope.

Definition vdot (x y : list R) : R := fold_right Rplus 0 (zip_with Rmult x y).
Definition squaredNorm (x : list R) : R := fold_right Rplus 0 (map (fun a => a * a) x).
Definition mulv (J : list (list R)) (d : list R) : list R := map (fun row => vdot row d) J.
(** J^T v, for J with [n] columns *)
Definition tmulv (n : nat) (J : list (list R)) (v : list R) : list R :=
  fold_right vplus' (repeat 0 n) (zip_with (fun row a => vscale a row) J v).

(** ALFunction::evaluate, 32-64: [lams], [vs] are lams_plus and vs_plus.  The loop
    54-58 adds the terms of the [nsteps] stages, those of the co-states if
    [has_lbdas]; the terminal block is only counted if there are terminal
    constraints (60-62). *)
Fixpoint penalty_loop (mudyn mucstr : R) (has_lbdas has_term : bool) (nsteps : nat)
  (lams vs : list (list R)) (p : R) : R :=
  match nsteps with
  | S k =>
      let p := if has_lbdas then p + 1 / 2 * (mudyn * squaredNorm (hd [] lams)) else p in
      let p := p + 1 / 2 * (mucstr * squaredNorm (hd [] vs)) in
      penalty_loop mudyn mucstr has_lbdas has_term k (tl lams) (tl vs) p
  | O => if has_term then p + 1 / 2 * (mucstr * squaredNorm (hd [] vs)) else p
  end.
Definition al_evaluate (mudyn mucstr cost : R) (nsteps : nat) (lams vs : list (list R))
  (has_term : bool) : R :=
  match lams with
  | l0 :: ls =>
      cost + penalty_loop mudyn mucstr true has_term nsteps ls vs (1 / 2 * (mucstr * squaredNorm l0))
  | [] => cost + penalty_loop mudyn mucstr false has_term nsteps [] vs 0
  end.

(** Derivatives of one stage (the terminal node only uses [s_lx], [s_Jx]). *)
Record sdata := SData {
  s_lx : list R; s_lu : list R; s_A : list (list R); s_B : list (list R);
  s_Jx : list (list R); s_Ju : list (list R) }.

(** LagrangianDerivatives::compute (lagrangian.hpp 27-92) with multipliers [lams]
    of the next nodes and [vs]; [Lx] is the content of Lxs[i]. *)
Fixpoint lagr_loop (Lx : list R) (st : list sdata) (tm : sdata) (lams vs : list (list R))
  : list (list R) * list (list R) :=
  match st, lams, vs with
  | s :: st', l :: lams', v :: vs' =>
      let n := length (s_lx s) in
      let m := length (s_lu s) in
      let Lx := vplus' (vplus' (vplus' Lx (s_lx s)) (tmulv n (s_A s) l)) (tmulv n (s_Jx s) v) in
      let Lu := vplus' (vplus' (s_lu s) (tmulv m (s_B s) l)) (tmulv m (s_Ju s) v) in
      let r := lagr_loop (map Ropp l) st' tm lams' vs' in
      (Lx :: fst r, Lu :: snd r)
  | [], _, v :: _ =>
      ([vplus' (vplus' Lx (s_lx tm)) (tmulv (length (s_lx tm)) (s_Jx tm) v)], [])
  | _, _, _ => ([], [])
  end.

(** ALFunction::directionalDerivative, 66-107. *)
Fixpoint slope_loop (Lxs Lus dxs dus : list (list R)) (d1 : R) : R :=
  match Lxs, Lus, dxs, dus with
  | lx :: Lxs', lu :: Lus', dx :: dxs', du :: dus' =>
      slope_loop Lxs' Lus' dxs' dus' (d1 + vdot lx dx + vdot lu du)
  | _, _, _, _ => d1
  end.
Definition directionalDerivative (n0 : nat) (J0 : list (list R)) (st : list sdata) (tm : sdata)
  (lams vs dxs dus : list (list R)) : R :=
  match lams with
  | l0 :: ls =>
      match lagr_loop (tmulv n0 J0 l0) st tm ls vs, dxs with
      | (lx0 :: Lxs, Lus), dx0 :: dxs' => slope_loop Lxs Lus dxs' dus (0 + vdot lx0 dx0)
      | _, _ => 0
      end
  | [] => 0
  end.

(** forwardPass: the merit function at a trial point with cost [cost], gaps,
    constraint data and co-states [lams]. *)
Definition merit (mu cost : R) (lam0 gap0 : list R) (lams gaps : list (list R))
  (stages : list stage_in) (has_term : bool) : option R :=
  match computeMultipliers mu lam0 gap0 lams gaps stages with
  | None => None
  | Some out => Some (al_evaluate (mu_dyn mu) mu cost (length gaps) (m_lams out)
                       (map o_vplus (m_stages out)) has_term)
  end.
