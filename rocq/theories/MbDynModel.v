(** Model of the robot dynamics of modelling/dynamics: kinodynamics-fwd.hxx,
    multibody-free-fwd.hxx, multibody-constraint-fwd.hxx, wheeled-inverted-pendulum.hpp.

    Conventions of MbModel and MbForceModel; the value of an object is xdot_, its Jacobians
    are Jx_ and Ju_.  nx = nq + nv is not assumed: [xv] is x.segment(nq, nv) and [xtail] is
    x.tail(nv).  Work members which are overwritten before each use are left out. *)
From Coq Require Import Reals List Arith Bool.
From Verif Require Import CentroidalModel P_centroidal MbModel MbForceModel.
Local Open Scope R_scope.

(** ContinuousDynamicsData (continuous-dynamics-abstract.hxx 21-38), with Jx_ as set by the
    constructors of the data below *)
Definition top_right (nv : nat) : mtx := bset mzero 0 nv nv nv ident.

(** ** KinodynamicsFwdDynamics *)
(** dAg, the derivatives of the rate of the momentum dhdot_dq and dhdot_dv at (q, v, a), and
    PartialPivLU::inverse of a 6 x 6 matrix *)
Record kpin := KPin { k_dAg : vec -> vec -> mtx;
  k_dq : vec -> vec -> vec -> mtx; k_dv : vec -> vec -> vec -> mtx; k_inv : mtx -> mtx }.
(** KinodynamicsFwdData: xdot_, Jx_, Ju_, Agu_inv_, v0_ *)
Record kdata := KData { kd_pc : pcache; kd_xdot : vec; kd_Jx : mtx; kd_Ju : mtx; kd_inv : mtx; kd_v0 : vec }.
Section Kino.
Variable P : pin.
Variable K : kpin.
Variables nq nv nx : nat.
(** mass_, gravity_, contact_states_, force_size_ *)
Variable c : cfwd.
(** contact_ids_ *)
Variable ids : nat -> nat.
(** constructor (kinodynamics-fwd.hxx 22-37): nu; None is the exception, with the number of
    contact_ids *)
Definition kd_nu : nat := (nv - 6 + cm_size (cf_map c) * cf_fs c)%nat.
Definition kd_make (n_ids : nat) : option nat := if Nat.eqb n_ids (cm_size (cf_map c)) then Some kd_nu else None.
(** pinocchio::dccrba: Ag and dAg *)
Definition dccrba (q v : vec) (pc : pcache) : pcache := ccrba q v pc.
Definition block6 (A : mtx) : mtx := fun i j => if Nat.ltb i 6 && Nat.ltb j 6 then A i j else 0.
(** rightCols(nv - 6) and u.tail(nv - 6) *)
Definition right_of (A : mtx) : mtx := fun i j => A i (6 + j)%nat.
Definition utail (u : vec) : vec := fun i => u (kd_nu - (nv - 6) + i)%nat.
(** body of the loop of kinodynamics-fwd.hxx 61-87 *)
Definition kd_body (u : vec) (i : nat) (s : pcache * vec) : pcache * vec :=
  if cm_state (cf_map c) i then
    let '(pc, v) := s in
    let o := (i * cf_fs c)%nat in
    let pc := update_frame (ids i) pc in
    let v := sadd v 0 3 (fun k => u (o + k)%nat) in
    let p := sp (frame P (ids i) pc) in
    let g := p_com P (c_com pc) in
    let v := vadd v 3 ((p 1%nat - g 1%nat) * u (o + 2)%nat - (p 2%nat - g 2%nat) * u (o + 1)%nat) in
    let v := vadd v 4 ((p 2%nat - g 2%nat) * u o - (p 0%nat - g 0%nat) * u (o + 2)%nat) in
    let v := vadd v 5 ((p 0%nat - g 0%nat) * u (o + 1)%nat - (p 1%nat - g 1%nat) * u o) in
    (pc, if Nat.eqb (cf_fs c) 6 then sadd v 3 3 (fun k => u (o + 3 + k)%nat) else v)
  else s.
(** kinodynamics-fwd.hxx 39-98 *)
Definition kd_forward (x u : vec) (d : kdata) : kdata :=
  let q := xq nq x in let v := xtail nv nx x in let a := utail u in
  let pc := ccrba q v (kd_pc d) in
  let pc := dccrba q v pc in
  let dAg := k_dAg K q v in
  let pc := center_of_mass_v q v (fwd_kin q pc) in
  let Agu_inv := k_inv K (block6 (p_Ag P (c_Ag pc))) in
  let f := sset vzero 0 3 (fun k => cf_mass c * cf_gravity c k) in
  let '(pc, f) := for_n (cm_size (cf_map c)) (kd_body u) (pc, f) in
  let rhs : vec := fun i => f i - mv nv dAg v i - mv (nv - 6) (right_of (p_Ag P (c_Ag pc))) a i in
  let xdot := sset (kd_xdot d) nv 6 (mv 6 Agu_inv rhs) in
  let xdot := sset xdot 0 nv v in
  let xdot := sset xdot (2 * nv - (nv - 6)) (nv - 6) a in
  KData pc xdot (kd_Jx d) (kd_Ju d) Agu_inv (kd_v0 d).
(** rightCols<3> of a 6 x 6 matrix *)
Definition right3 (A : mtx) : mtx := fun i j => A i (3 + j)%nat.
(** the loop over contacts for Jx (120-135) *)
Definition kd_jx (pc : pcache) (Ai : mtx) (u : vec) (i : nat) (J : mtx) : mtx :=
  if cm_state (cf_map c) i then
    let o := (i * cf_fs c)%nat in
    let f := get_jac P LWA (ids i) pc mzero in
    let Jtemp := m3 0 (- u (o + 2)%nat) (u (o + 1)%nat) (u (o + 2)%nat) 0 (- u o) (- u (o + 1)%nat) (u o) 0 in
    let temp1 := mmul 3 (right3 Ai) Jtemp in
    let temp2 := msub (p_Jcom P (c_Jcom pc)) f in
    bset J nv 0 6 nv (fun k l => J (nv + k)%nat l + mmul 3 temp1 temp2 k l)
  else J.
(** the block of Jx_ minus Agu_inv_ times a matrix (143-144, 152-153, 168-169) *)
Definition jx_minus (Ai D J : mtx) : mtx :=
  bset J nv 0 6 nv (fun k l => J (nv + k)%nat l - mmul 6 Ai D k l).
(** the loop for Ju (175-195) *)
Definition kd_ju (pc : pcache) (Ai : mtx) (i : nat) (J : mtx) : mtx :=
  if cm_state (cf_map c) i then
    let o := (cf_fs c * i)%nat in
    let Jtemp := jtemp (sp (frame P (ids i) pc)) (p_com P (c_com pc)) in
    let J := bset J nv o 6 3 Ai in
    let J := bset J nv o 6 3 (fun k l => J (nv + k)%nat (o + l)%nat + mmul 3 (right3 Ai) Jtemp k l) in
    if Nat.eqb (cf_fs c) 6
    then bset J nv (o + 3) 6 3 (fun k l => J (nv + k)%nat (o + 3 + l)%nat + right3 Ai k l) else J
  else J.
(** kinodynamics-fwd.hxx 100-201 *)
Definition kd_dforward (x u : vec) (d : kdata) : kdata :=
  let q := xq nq x in let v := xtail nv nx x in let a := utail u in
  let Ai := kd_inv d in
  let pc := joint_jacobians (jacobian_com q (center_of_mass_v q v (kd_pc d))) in
  let Jx := bset (kd_Jx d) nv 0 6 nv mzero in
  let Jx := for_n (cm_size (cf_map c)) (kd_jx pc Ai u) Jx in
  let a0 := sset (sset vzero 0 6 vzero) 6 (nv - 6) a in
  let pc := centroidal_derivatives q (kd_v0 d) pc in
  let Jx := jx_minus Ai (k_dq K q (kd_v0 d) a0) Jx in
  let pc := centroidal_derivatives q v pc in
  let Jx := jx_minus Ai (k_dq K q v vzero) Jx in
  let Jx := bset Jx nv nv 6 nv (fun k l => - mmul 6 Ai (k_dv K q v vzero) k l) in
  let a0 := sset vzero 0 6 (fun k => kd_xdot d (nv + k)%nat) in
  let pc := centroidal_derivatives q vzero pc in
  let Jx := jx_minus Ai (k_dq K q vzero a0) Jx in
  let Ju := bset (kd_Ju d) nv 0 6 kd_nu mzero in
  let Ju := for_n (cm_size (cf_map c)) (kd_ju pc Ai) Ju in
  let Ju := bset Ju nv (cm_size (cf_map c) * cf_fs c) 6 (nv - 6)
              (fun k l => - mmul 6 Ai (right_of (p_Ag P (c_Ag pc))) k l) in
  KData pc (kd_xdot d) Jx Ju Ai (kd_v0 d).
(** createData (kinodynamics-fwd.hxx 209-243): bottomRightCorner of Ju_ *)
Definition kd_init (d : kdata) : Prop := exists pc,
  d = KData pc vzero (top_right nv)
        (bset mzero (2 * nv - (nv - 6)) (kd_nu - (nv - 6)) (nv - 6) (nv - 6) ident) mzero vzero.
Definition kinodynamics : obj := Obj kdata kd_init kd_forward kd_dforward kd_xdot kd_Jx kd_Ju.
End Kino.

(** ** MultibodyFreeFwdDynamics and MultibodyConstraintFwdDynamics *)
(** the acceleration and its derivatives at (q, v, tau): aba and computeABADerivatives, or
    constraintDynamics and its derivatives (ddq_dq, ddq_dv, ddq_dtau) *)
Record apin := APin { a_acc : vec -> vec -> vec -> vec;
  a_dq : vec -> vec -> vec -> mtx; a_dv : vec -> vec -> vec -> mtx; a_dtau : vec -> vec -> vec -> mtx }.
(** tau_, the arguments of the last acceleration computed with pin_data_, xdot_, Jx_, Ju_ *)
Record adata := AData { ad_tau : vec; ad_q : vec; ad_v : vec; ad_t : vec; ad_xdot : vec; ad_Jx : mtx; ad_Ju : mtx }.
Section Free.
Variable A : apin.
Variables nq nv nx ndx nu : nat.
(** actuation_matrix_, of which dtau_du_ of the data is a copy *)
Variable B : mtx.
(** the constructors (multibody-free-fwd.hxx 14-29, multibody-constraint-fwd.hxx 12-29) given
    the size of the actuation matrix: nu, or the exception; the second constructor of the
    free dynamics (31-36) has B = identity *)
Definition act_make (rows cols : nat) : option nat := if Nat.eqb nv rows then Some cols else None.
(** isUnderactuated (multibody-free-fwd.hpp 48-51) given the rank of the actuation matrix *)
Definition underactuated (rank : nat) : bool := Nat.ltb rank nv.
(** multibody-free-fwd.hxx 38-53, multibody-constraint-fwd.hxx 31-51 *)
Definition ad_forward (x u : vec) (d : adata) : adata :=
  let tau := mv nu B u in
  let q := xq nq x in let v := xv nq nv x in
  let xdot := sset (ad_xdot d) 0 nv v in
  let xdot := sset xdot nv nv (a_acc A q v tau) in
  AData tau q v tau xdot (ad_Jx d) (ad_Ju d).
(** bottomRows(nv).leftCols(nv) = dq, bottomRows(nv).rightCols(nv) = dv *)
Definition bottom_set (dq dv J : mtx) : mtx :=
  bset (bset J (ndx - nv) 0 nv nv dq) (ndx - nv) (ndx - nv) nv nv dv.
(** multibody-free-fwd.hxx 55-74: at x and the stored tau_ *)
Definition free_dforward (x u : vec) (d : adata) : adata :=
  let q := xq nq x in let v := xtail nv nx x in let t := ad_tau d in
  AData t q v t (ad_xdot d) (bottom_set (a_dq A q v t) (a_dv A q v t) (ad_Jx d))
        (bset (ad_Ju d) (ndx - nv) 0 nv nu (mmul nv (a_dtau A q v t) B)).
(** multibody-constraint-fwd.hxx 53-69: from the stored result *)
Definition cons_dforward (x u : vec) (d : adata) : adata :=
  let q := ad_q d in let v := ad_v d in let t := ad_t d in
  AData (ad_tau d) q v t (ad_xdot d) (bottom_set (a_dq A q v t) (a_dv A q v t) (ad_Jx d))
        (bset (ad_Ju d) (ndx - nv) 0 nv nu (mmul nv (a_dtau A q v t) B)).
(** the constructors of the data (multibody-free-fwd.hxx 82-93, multibody-constraint-fwd.hxx 77-104) *)
Definition ad_init (d : adata) : Prop := exists q v t,
  d = AData vzero q v t vzero (bset mzero 0 (ndx - nv) nv nv ident) mzero.
Definition free_dynamics : obj := Obj adata ad_init ad_forward free_dforward ad_xdot ad_Jx ad_Ju.
Definition constraint_dynamics : obj := Obj adata ad_init ad_forward cons_dforward ad_xdot ad_Jx ad_Ju.
End Free.

(** ** WheeledInvertedPendulumDynamics *)
Definition mset (M : mtx) (i j : nat) (a : R) : mtx := fun k l => if Nat.eqb k i && Nat.eqb l j then a else M k l.
Section Wip.
(** length_, gravity_ *)
Variables len grav : R.
(** wheeled-inverted-pendulum.hpp 22-36 *)
Definition wip_forward (x u : vec) (d : sdata) : sdata :=
  let f := vset (s_value d) 0 (u 0%nat) in
  let f := vset f 1 (u 1%nat) in
  let f := vset f 2 (x 3%nat) in
  let f := vset f 3 (sin (x 2%nat) * grav / len - cos (x 2%nat) * u 0%nat / len) in
  let f := vset f 4 (x 1%nat) in
  let f := vset f 5 (x 0%nat * cos (x 4%nat)) in
  let f := vset f 6 (x 0%nat * sin (x 4%nat)) in
  SData f (s_Jx d) (s_Ju d).
(** wheeled-inverted-pendulum.hpp 38-59 *)
Definition wip_dforward (x u : vec) (d : sdata) : sdata :=
  let Jx := mset mzero 2 3 1 in
  let Jx := mset Jx 3 2 (cos (x 2%nat) * grav / len + sin (x 2%nat) * u 0%nat / len) in
  let Jx := mset Jx 4 1 1 in
  let Jx := mset Jx 5 0 (cos (x 4%nat)) in
  let Jx := mset Jx 5 4 (- x 0%nat * sin (x 4%nat)) in
  let Jx := mset Jx 6 0 (sin (x 4%nat)) in
  let Jx := mset Jx 6 4 (x 0%nat * cos (x 4%nat)) in
  let Ju := mset mzero 0 0 1 in
  let Ju := mset Ju 1 1 1 in
  let Ju := mset Ju 3 0 (-1 * cos (x 2%nat) / len) in
  SData (s_value d) Jx Ju.
Definition pendulum : obj :=
  Obj sdata (fun d => d = sdata0) wip_forward wip_dforward s_value s_Jx s_Ju.
End Wip.

(** ** ODEAbstract::evaluate and computeJacobians (ode-abstract.hxx 13-34): the residual
    xdot_ - xdot of the continuous dynamics, with Jxdot_ *)
Record odata (T : Type) := OData { od_in : T; od_value : vec; od_Jxdot : mtx }.
Arguments OData {T}. Arguments od_in {T}. Arguments od_value {T}. Arguments od_Jxdot {T}.
Definition ode_evaluate (s : obj) (x u xdot : vec) (d : odata (oD s)) : odata (oD s) :=
  let e := o_eval s x u (od_in d) in
  OData e (fun i => o_value s e i - xdot i) (od_Jxdot d).
Definition neg_ident : mtx := fun i j => if Nat.eqb i j then -1 else 0.
Definition ode_jacobians (s : obj) (x u xdot : vec) (d : odata (oD s)) : odata (oD s) :=
  OData (o_jac s x u (od_in d)) (od_value d) neg_ident.
