(** Model of the kinematic residuals of modelling/multibody/*.hxx.

    Real scalars; vectors and matrices are functions of their indices as in
    CentroidalModel.  Pinocchio is a record of functions [pin] about which nothing is
    assumed here.  Its data object is kept as the arguments at which each stored
    quantity was computed, so that a routine which reads stored quantities sees those of
    the last call.  Routines which Pinocchio documents as writing only the columns of the
    joints that support a frame do so.  x has [nx] entries (q, v, ...), a tangent vector
    [ndx]; both sizes are those passed to the constructors. *)
From Coq Require Import Reals List Arith Bool.
From Verif Require Import CentroidalModel P_centroidal.
Local Open Scope R_scope.

(** pinocchio::ReferenceFrame *)
Inductive rframe := LOCAL | WORLD | LWA.
(** pinocchio::SE3 *)
Record se3 := SE3 { sR : mtx; sp : vec }.
Definition transp (A : mtx) : mtx := fun i j => A j i.
Definition mmul (n : nat) (A B : mtx) : mtx := fun i j => rsum n (fun k => A i k * B k j).
Definition vsub (a b : vec) : vec := fun k => a k - b k.
Definition msub (A B : mtx) : mtx := fun i j => A i j - B i j.
(** pinocchio::skew *)
Definition skew (a : vec) : mtx :=
  m3 0 (- a 2%nat) (a 1%nat) (a 2%nat) 0 (- a 0%nat) (- a 1%nat) (a 0%nat) 0.
(** act, actInv, inverse, operator* of SE3 *)
Definition se3_act (a b : se3) : se3 :=
  SE3 (mmul 3 (sR a) (sR b)) (fun k => mv 3 (sR a) (sp b) k + sp a k).
Definition se3_act_inv (a b : se3) : se3 :=
  SE3 (mmul 3 (transp (sR a)) (sR b)) (mv 3 (transp (sR a)) (vsub (sp b) (sp a))).
Definition se3_inverse (a : se3) : se3 :=
  SE3 (transp (sR a)) (fun k => - mv 3 (transp (sR a)) (sp a) k).
(** toActionMatrixInverse, on (linear; angular) motions *)
Definition action_inverse (a : se3) : mtx := fun i j =>
  let Rt := transp (sR a) in
  if Nat.ltb i 3 then if Nat.ltb j 3 then Rt i j else - mmul 3 Rt (skew (sp a)) i (j - 3)%nat
  else if Nat.ltb j 3 then 0 else Rt (i - 3)%nat (j - 3)%nat.

(** Pinocchio: geometry and routines of a given robot model.  Arguments are the
    configurations and velocities at which the stored quantities read were computed. *)
Record pin := Pin {
  p_place : nat -> vec -> se3;                        (* oMf[id], from oMi *)
  p_supp : nat -> nat -> bool;                        (* column j supports frame id *)
  p_jac : rframe -> nat -> vec -> vec -> mtx;         (* getFrameJacobian: oMi, J *)
  p_vel : rframe -> nat -> vec -> vec -> vec -> vec;  (* getFrameVelocity: oMi, (q, v) of data.v *)
  p_dvel_dq : rframe -> nat -> vec -> vec -> vec -> vec -> mtx; (* getFrameVelocityDerivatives: oMi, (q, v), J *)
  p_dvel_dv : rframe -> nat -> vec -> vec -> vec -> vec -> mtx;
  p_com : vec -> vec;                                 (* com[0] *)
  p_vcom : vec -> vec -> vec;                         (* vcom[0] *)
  p_Jcom : vec -> mtx;
  p_dvcom : option (vec * vec) -> vec -> vec -> vec -> mtx; (* subtree com and vcom; oMi, (q, v) of data.v *)
  p_Ag : vec -> mtx;                                  (* data.Ag *)
  p_dh_dq : vec -> vec -> mtx;
  p_log6 : se3 -> vec;
  p_Jlog6 : se3 -> mtx
}.
(** pinocchio::Data: where each stored quantity was computed *)
Record pcache := PC {
  c_oMi : vec; c_vq : vec; c_vv : vec; c_oMf : nat -> vec; c_J : vec;
  c_com : vec; c_vcom : vec * vec; c_sub : option (vec * vec); c_Jcom : vec; c_Ag : vec
}.
(** forwardKinematics(model, data, q) and (model, data, q, v) *)
Definition fwd_kin (q : vec) (c : pcache) : pcache :=
  PC q (c_vq c) (c_vv c) (c_oMf c) (c_J c) (c_com c) (c_vcom c) (c_sub c) (c_Jcom c) (c_Ag c).
Definition fwd_kin_v (q v : vec) (c : pcache) : pcache :=
  PC q q v (c_oMf c) (c_J c) (c_com c) (c_vcom c) (c_sub c) (c_Jcom c) (c_Ag c).
(** updateFramePlacement *)
Definition update_frame (id : nat) (c : pcache) : pcache :=
  PC (c_oMi c) (c_vq c) (c_vv c) (fun k => if Nat.eqb k id then c_oMi c else c_oMf c k)
     (c_J c) (c_com c) (c_vcom c) (c_sub c) (c_Jcom c) (c_Ag c).
Definition update_frames (c : pcache) : pcache :=
  PC (c_oMi c) (c_vq c) (c_vv c) (fun _ => c_oMi c)
     (c_J c) (c_com c) (c_vcom c) (c_sub c) (c_Jcom c) (c_Ag c).
(** computeJointJacobians(model, data): from the stored placements *)
Definition joint_jacobians (c : pcache) : pcache :=
  PC (c_oMi c) (c_vq c) (c_vv c) (c_oMf c) (c_oMi c) (c_com c) (c_vcom c) (c_sub c) (c_Jcom c) (c_Ag c).
(** computeForwardKinematicsDerivatives(model, data, q, v, a) *)
Definition fk_derivatives (q v : vec) (c : pcache) : pcache :=
  PC q q v (c_oMf c) q (c_com c) (c_vcom c) (c_sub c) (c_Jcom c) (c_Ag c).
(** centerOfMass(model, data, q) and (model, data, q, v) *)
Definition center_of_mass (q : vec) (c : pcache) : pcache :=
  PC q (c_vq c) (c_vv c) (c_oMf c) (c_J c) q (c_vcom c) None (c_Jcom c) (c_Ag c).
Definition center_of_mass_v (q v : vec) (c : pcache) : pcache :=
  PC q q v (c_oMf c) (c_J c) q (q, v) (Some (q, v)) (c_Jcom c) (c_Ag c).
(** jacobianCenterOfMass(model, data, q): the subtree centres are left in another frame *)
Definition jacobian_com (q : vec) (c : pcache) : pcache :=
  PC q (c_vq c) (c_vv c) (c_oMf c) (c_J c) q (c_vcom c) None q (c_Ag c).
(** ccrba(model, data, q, v), computeCentroidalDynamicsDerivatives(model, data, q, v, 0) *)
Definition ccrba (q v : vec) (c : pcache) : pcache :=
  PC q (c_vq c) (c_vv c) (c_oMf c) q q (c_vcom c) None (c_Jcom c) q.
Definition centroidal_derivatives (q v : vec) (c : pcache) : pcache :=
  PC q q v (c_oMf c) q q (q, v) None (c_Jcom c) q.

(** StageFunctionData of these residuals with their work members *)
Record mdata := MData {
  m_pc : pcache; m_value : vec; m_Jx : mtx; m_Ju : mtx;
  m_fJf : mtx;      (* fJf_, l_dnu_dq, wJf1_, Jcol_ *)
  m_fJf2 : mtx;     (* l_dnu_dv, wJf2_, Jcol2_ *)
  m_rM : se3;       (* rMf_, RMf2_ *)
  m_ez : R          (* ez *)
}.
(** the buffers are zero at construction; the Pinocchio data is arbitrary, and so are
    rM and ez which are not set *)
Definition mdata0 (c : pcache) (M : se3) (e : R) : mdata :=
  MData c vzero mzero mzero mzero mzero M e.
(** evaluate and computeJacobians *)
Record mres := MRes { me : vec -> vec -> mdata -> mdata; mj : vec -> vec -> mdata -> mdata }.

Section Res.
Variable P : pin.
Variables nq nv nx ndx : nat.
(** x.head(nq), x.segment(nq, nv), x.tail(nv) *)
Definition xq (x : vec) : vec := fun i => if Nat.ltb i nq then x i else 0.
Definition xv (x : vec) : vec := fun i => if Nat.ltb i nv then x (nq + i)%nat else 0.
Definition xtail (x : vec) : vec := fun i => if Nat.ltb i nv then x (nx - nv + i)%nat else 0.
(** Jx_.leftCols(nv) = B, Jx_.rightCols(nv) = B on r rows *)
Definition left_cols (r : nat) (B J : mtx) : mtx := bset J 0 0 r nv B.
Definition right_cols (r : nat) (B J : mtx) : mtx := bset J 0 (ndx - nv) r nv B.
Definition top (B : mtx) : mtx := B.
Definition bottom3 (B : mtx) : mtx := fun i j => B (3 + i)%nat j.
(** oMf[id] *)
Definition frame (id : nat) (c : pcache) : se3 := p_place P id (c_oMf c id).
(** write the columns of the joints supporting a frame *)
Definition support_set (id : nat) (J B : mtx) : mtx := fun i j => if p_supp P id j then J i j else B i j.
(** getFrameJacobian(model, data, id, rf, B) *)
Definition get_jac (rf : rframe) (id : nat) (c : pcache) (B : mtx) : mtx :=
  support_set id (p_jac P rf id (c_oMi c) (c_J c)) B.
(** getFrameVelocity *)
Definition get_vel (rf : rframe) (id : nat) (c : pcache) : vec := p_vel P rf id (c_oMi c) (c_vq c) (c_vv c).
(** getFrameVelocityDerivatives *)
Definition get_dvel_dq (rf : rframe) (id : nat) (c : pcache) (B : mtx) : mtx :=
  support_set id (p_dvel_dq P rf id (c_oMi c) (c_vq c) (c_vv c) (c_J c)) B.
Definition get_dvel_dv (rf : rframe) (id : nat) (c : pcache) (B : mtx) : mtx :=
  support_set id (p_dvel_dv P rf id (c_oMi c) (c_vq c) (c_vv c) (c_J c)) B.
(** getCenterOfMassVelocityDerivatives *)
Definition get_dvcom (c : pcache) : mtx := p_dvcom P (c_sub c) (c_oMi c) (c_vq c) (c_vv c).

(** frame-translation.hxx 18-39 *)
Definition frame_translation (id : nat) (pref : vec) : mres :=
  MRes (fun x u d =>
          let c := update_frame id (fwd_kin (xq x) (m_pc d)) in
          MData c (vsub (sp (frame id c)) pref) (m_Jx d) (m_Ju d) (m_fJf d) (m_fJf2 d) (m_rM d) (m_ez d))
       (fun x u d =>
          let c := joint_jacobians (m_pc d) in
          let f := get_jac LWA id c (m_fJf d) in
          MData c (m_value d) (left_cols 3 (top f) (m_Jx d)) (m_Ju d) f (m_fJf2 d) (m_rM d) (m_ez d)).

(** frame-velocity.hxx 25-52 *)
Definition frame_velocity (id : nat) (rf : rframe) (vref : vec) : mres :=
  MRes (fun x u d =>
          let c := update_frame id (fwd_kin_v (xq x) (xv x) (m_pc d)) in
          MData c (vsub (get_vel rf id c) vref) (m_Jx d) (m_Ju d) (m_fJf d) (m_fJf2 d) (m_rM d) (m_ez d))
       (fun x u d =>
          let c := fk_derivatives (xq x) (xv x) (m_pc d) in
          (* Jq, Jv refer to blocks of Jx_ *)
          let Jx := left_cols 6 (get_dvel_dq rf id c (m_Jx d)) (m_Jx d) in
          let Jx := right_cols 6 (get_dvel_dv rf id c (fun i j => Jx i (ndx - nv + j)%nat)) Jx in
          MData c (m_value d) Jx (m_Ju d) (m_fJf d) (m_fJf2 d) (m_rM d) (m_ez d)).

(** frame-placement.hxx 9-32; p_ref_inverse_ is set with p_ref_ (frame-placement.hpp 36, 42-43) *)
Definition frame_placement (id : nat) (ref : se3) : mres :=
  MRes (fun x u d =>
          let c := update_frame id (fwd_kin (xq x) (m_pc d)) in
          let rM := se3_act (se3_inverse ref) (frame id c) in
          MData c (p_log6 P rM) (m_Jx d) (m_Ju d) (m_fJf d) (m_fJf2 d) rM (m_ez d))
       (fun x u d =>
          let rJf := p_Jlog6 P (m_rM d) in
          let c := joint_jacobians (m_pc d) in
          let f := get_jac LOCAL id c (m_fJf d) in
          MData c (m_value d) (left_cols 6 (mmul 6 rJf f) (m_Jx d)) (m_Ju d) f (m_fJf2 d) (m_rM d) (m_ez d)).

(** frame-equality.hxx 9-39 *)
Definition frame_equality (id1 id2 : nat) (ref : se3) : mres :=
  MRes (fun x u d =>
          let c := update_frame id2 (update_frame id1 (fwd_kin (xq x) (m_pc d))) in
          let rM := se3_act_inv (se3_act (frame id1 c) ref) (frame id2 c) in
          MData c (p_log6 P rM) (m_Jx d) (m_Ju d) (m_fJf d) (m_fJf2 d) rM (m_ez d))
       (fun x u d =>
          let Jl := p_Jlog6 P (m_rM d) in
          let c := joint_jacobians (m_pc d) in
          let f1 := get_jac WORLD id1 c (m_fJf d) in
          let f2 := get_jac WORLD id2 c (m_fJf2 d) in
          let B := mmul 6 (mmul 6 Jl (action_inverse (frame id2 c))) (msub f2 f1) in
          MData c (m_value d) (left_cols 6 B (m_Jx d)) (m_Ju d) f1 f2 (m_rM d) (m_ez d)).

(** fly-high.hxx 20-73; value_ has two entries *)
Definition fly_high (id : nat) (slope : R) : mres :=
  MRes (fun x u d =>
          let c := update_frame id (fwd_kin_v (xq x) (xv x) (m_pc d)) in
          let value := get_vel LWA id c in
          let ez := exp (- sp (frame id c) 2%nat * slope) in
          MData c (fun k => value k * ez) (m_Jx d) (m_Ju d) (m_fJf d) (m_fJf2 d) (m_rM d) ez)
       (fun x u d =>
          let c := fk_derivatives (xq x) (xv x) (m_pc d) in
          let dq := get_dvel_dq LOCAL id c (m_fJf d) in
          let dv := get_dvel_dv LOCAL id c (m_fJf2 d) in
          let vf := get_vel LOCAL id c in
          let R := sR (frame id c) in
          let vxJ : mtx := fun i j => mmul 3 (skew (fun k => - vf k)) (bottom3 dv) i j + dq i j in
          let o_dv_dq := mmul 3 R vxJ in
          let o_dv_dv := mmul 3 R (top dv) in
          let Jx := left_cols 2 o_dv_dq (m_Jx d) in
          let Jx := right_cols 2 o_dv_dv Jx in
          let Jx : mtx := fun i j => Jx i j * m_ez d in
          let Jx := bset Jx 0 0 1 nv (fun i j => Jx 0%nat j - m_value d 0%nat * slope * o_dv_dv 2%nat j) in
          let Jx := bset Jx 1 0 1 nv (fun i j => Jx 1%nat j - m_value d 1%nat * slope * o_dv_dv 2%nat j) in
          MData c (m_value d) Jx (m_Ju d) dq dv (m_rM d) (m_ez d)).

(** center-of-mass-translation.hxx 8-26 *)
Definition com_translation (pref : vec) : mres :=
  MRes (fun x u d =>
          let c := center_of_mass (xq x) (m_pc d) in
          MData c (vsub (p_com P (c_com c)) pref) (m_Jx d) (m_Ju d) (m_fJf d) (m_fJf2 d) (m_rM d) (m_ez d))
       (fun x u d =>
          let c := jacobian_com (xq x) (m_pc d) in
          MData c (m_value d) (left_cols 3 (p_Jcom P (c_Jcom c)) (m_Jx d)) (m_Ju d) (m_fJf d) (m_fJf2 d)
            (m_rM d) (m_ez d)).

(** center-of-mass-velocity.hxx 9-33 *)
Definition com_velocity (vref : vec) : mres :=
  MRes (fun x u d =>
          let c := center_of_mass_v (xq x) (xv x) (m_pc d) in
          MData c (vsub (p_vcom P (fst (c_vcom c)) (snd (c_vcom c))) vref) (m_Jx d) (m_Ju d) (m_fJf d)
            (m_fJf2 d) (m_rM d) (m_ez d))
       (fun x u d =>
          let c := center_of_mass_v (xq x) (xv x) (m_pc d) in
          let f := get_dvcom c in
          let Jx := left_cols 3 f (m_Jx d) in
          let c := jacobian_com (xq x) c in
          MData c (m_value d) (right_cols 3 (p_Jcom P (c_Jcom c)) Jx) (m_Ju d) f (m_fJf2 d) (m_rM d) (m_ez d)).

(** dcm-position.hxx 9-31 *)
Definition dcm_position (ref : vec) (alpha : R) : mres :=
  MRes (fun x u d =>
          let c := center_of_mass_v (xq x) (xv x) (m_pc d) in
          MData c (fun k => p_com P (c_com c) k + alpha * p_vcom P (fst (c_vcom c)) (snd (c_vcom c)) k - ref k)
            (m_Jx d) (m_Ju d) (m_fJf d) (m_fJf2 d) (m_rM d) (m_ez d))
       (fun x u d =>
          let f := get_dvcom (m_pc d) in
          let c := jacobian_com (xq x) (m_pc d) in
          let J := p_Jcom P (c_Jcom c) in
          let Jx := left_cols 3 (fun i j => J i j + alpha * f i j) (m_Jx d) in
          let Jx := right_cols 3 (fun i j => alpha * J i j) Jx in
          MData c (m_value d) Jx (m_Ju d) f (m_fJf2 d) (m_rM d) (m_ez d)).

(** centroidal-momentum.hxx 10-39; v is x.tail(nv) *)
Definition centroidal_momentum (href : vec) : mres :=
  MRes (fun x u d =>
          let c := ccrba (xq x) (xtail x) (m_pc d) in
          MData c (vsub (mv nv (p_Ag P (c_Ag c)) (xtail x)) href) (m_Jx d) (m_Ju d) (m_fJf d) (m_fJf2 d)
            (m_rM d) (m_ez d))
       (fun x u d =>
          let c := centroidal_derivatives (xq x) (xtail x) (m_pc d) in
          let f := p_dh_dq P (xq x) (xtail x) in
          let Jx := left_cols 6 f (m_Jx d) in
          MData c (m_value d) (right_cols 6 (p_Ag P (c_Ag c)) Jx) (m_Ju d) f (m_fJf2 d) (m_rM d) (m_ez d)).

(** frame-collision.hxx 11-66.  The distance result of the pair of bodies is a function of
    the configuration at which the geometry is placed: min_distance, nearest_points,
    normal.  evaluate places the geometry and every frame at the same configuration, which
    is read back here as that of frame id1. *)
Definition frame_collision (id1 id2 : nat) (dist : vec -> R) (np1 np2 normal : vec -> vec) : mres :=
  MRes (fun x u d =>
          let c := update_frames (fwd_kin (xq x) (m_pc d)) in
          MData c (vset (m_value d) 0 (dist (c_oMi c))) (m_Jx d) (m_Ju d) (m_fJf d) (m_fJf2 d) (m_rM d) (m_ez d))
       (fun x u d =>
          let c := m_pc d in
          let g := c_oMf c id1 in
          let d1 := vsub (np1 g) (sp (frame id1 c)) in
          let d2 := vsub (np2 g) (sp (frame id2 c)) in
          let c := joint_jacobians c in
          let f1 := get_jac LWA id1 c (m_fJf d) in
          let f2 := get_jac LWA id2 c (m_fJf2 d) in
          let f1 := mmul 6 (action_inverse (SE3 ident d1)) f1 in
          let f2 := mmul 6 (action_inverse (SE3 ident d2)) f2 in
          let B : mtx := fun i j => rsum 3 (fun k => normal g k * (f2 k j - f1 k j)) in
          MData c (m_value d) (left_cols 1 B mzero) (m_Ju d) f1 f2 (m_rM d) (m_ez d)).
End Res.
