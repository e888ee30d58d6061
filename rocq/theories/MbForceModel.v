(** Model of the force residuals of modelling/multibody: centroidal momentum derivative,
    gravity compensation, contact force, friction and wrench cones.

    Conventions of MbModel.  Further Pinocchio routines are in the record [fpin]. *)
From Coq Require Import Reals List Arith Bool String.
From Verif Require Import CentroidalModel P_centroidal MbModel ConeModel.
Import ListNotations.
Local Open Scope R_scope.

(** an object with its data: the data createData may return, evaluate, computeJacobians *)
Record obj := Obj {
  oD : Type; o_init : oD -> Prop; o_eval : vec -> vec -> oD -> oD; o_jac : vec -> vec -> oD -> oD;
  o_value : oD -> vec; o_Jx : oD -> mtx; o_Ju : oD -> mtx
}.

(** ** CentroidalMomentumDerivativeResidual *)
Section CMD.
Variable P : pin.
Variables nq nv nx : nat.
(** mass_, gravity_, contact_states_, force_size_; the poses of the map are not used *)
Variable c : cfwd.
(** contact_ids_ *)
Variable ids : nat -> nat.
(** body of the loop of centroidal-momentum-derivative.hxx 47-72 *)
Definition cmd_body (u : vec) (i : nat) (s : pcache * vec) : pcache * vec :=
  if cm_state (cf_map c) i then
    let '(pc, v) := s in
    let o := (i * cf_fs c)%nat in
    let v := sadd v 0 3 (fun k => u (o + k)%nat) in
    let pc := update_frame (ids i) pc in
    let p := sp (frame P (ids i) pc) in
    let g := p_com P (c_com pc) in
    let v := vadd v 3 ((p 1%nat - g 1%nat) * u (o + 2)%nat - (p 2%nat - g 2%nat) * u (o + 1)%nat) in
    let v := vadd v 4 ((p 2%nat - g 2%nat) * u o - (p 0%nat - g 0%nat) * u (o + 2)%nat) in
    let v := vadd v 5 ((p 0%nat - g 0%nat) * u (o + 1)%nat - (p 1%nat - g 1%nat) * u o) in
    (pc, if Nat.eqb (cf_fs c) 6 then sadd v 3 3 (fun k => u (o + 3 + k)%nat) else v)
  else s.
(** centroidal-momentum-derivative.hxx 33-73 *)
Definition cmd_evaluate (x u : vec) (d : mdata) : mdata :=
  let pc := center_of_mass_v (xq nq x) (xtail nv nx x) (fwd_kin (xq nq x) (m_pc d)) in
  let v := sset (m_value d) 0 3 (fun k => cf_mass c * cf_gravity c k) in
  let v := sset v 3 3 vzero in
  let '(pc, v) := for_n (cm_size (cf_map c)) (cmd_body u) (pc, v) in
  MData pc v (m_Jx d) (m_Ju d) (m_fJf d) (m_fJf2 d) (m_rM d) (m_ez d).
(** the loop over contacts for Jx (87-99), with fJf_ *)
Definition cmd_jx (pc : pcache) (u : vec) (i : nat) (s : mtx * mtx) : mtx * mtx :=
  if cm_state (cf_map c) i then
    let '(J, f) := s in
    let o := (i * cf_fs c)%nat in
    let f := get_jac P LWA (ids i) pc mzero in
    let Jtemp := m3 0 (- u (o + 2)%nat) (u (o + 1)%nat) (u (o + 2)%nat) 0 (- u o) (- u (o + 1)%nat) (u o) 0 in
    let temp := msub (p_Jcom P (c_Jcom pc)) f in
    (bset J 3 0 3 nv (fun k l => J (3 + k)%nat l + mmul 3 Jtemp temp k l), f)
  else s.
(** the loop for Ju (102-119) *)
Definition cmd_ju (pc : pcache) (i : nat) (J : mtx) : mtx :=
  if cm_state (cf_map c) i then
    let o := (cf_fs c * i)%nat in
    let Jtemp := jtemp (sp (frame P (ids i) pc)) (p_com P (c_com pc)) in
    let J := bset J 0 o 3 3 ident in
    let J := bset J 3 o 3 3 Jtemp in
    if Nat.eqb (cf_fs c) 6 then bset J 3 (o + 3) 3 3 ident else J
  else J.
(** centroidal-momentum-derivative.hxx 75-120 *)
Definition cmd_jacobians (x u : vec) (d : mdata) : mdata :=
  let pc := joint_jacobians (jacobian_com (xq nq x) (m_pc d)) in
  let '(Jx, f) := for_n (cm_size (cf_map c)) (cmd_jx pc u) (mzero, m_fJf d) in
  let Ju := for_n (cm_size (cf_map c)) (cmd_ju pc) mzero in
  MData pc (m_value d) Jx Ju f (m_fJf2 d) (m_rM d) (m_ez d).
Definition momentum_derivative : obj :=
  Obj mdata (fun d => exists pc M e, d = mdata0 pc M e) cmd_evaluate cmd_jacobians m_value m_Jx m_Ju.
End CMD.

(** ** GravityCompensationResidual *)
(** computeGeneralizedGravity and its derivatives, of which only the entries of related
    joints are written (pinocchio/algorithm/rnea-derivatives.hpp asks the caller to set the
    output to zero) *)
Record gpin := GPin { g_grav : vec -> vec; g_dgrav : vec -> mtx; g_rel : nat -> nat -> bool }.
(** Data (gravity-compensation-residual.hpp 34-39): gravity_partial_dq_ is not set by the
    constructor (hxx 56-61) *)
Record gdata := GData { gd_value : vec; gd_Jx : mtx; gd_Ju : mtx; gd_dq : mtx }.
Section Grav.
Variable G : gpin.
Variables nq nv nu : nat.
(** actuation_matrix_ when use_actuation_matrix *)
Variable act : option mtx.
(** gravity-compensation-residual.hxx 23-36 *)
Definition grav_evaluate (x u : vec) (d : gdata) : gdata :=
  let v : vec := fun i => - g_grav G (xq nq x) i in
  GData (match act with Some B => fun i => v i + mv nu B u i | None => fun i => v i + u i end)
        (gd_Jx d) (gd_Ju d) (gd_dq d).
(** gravity-compensation-residual.hxx 38-53 *)
Definition grav_jacobians (x u : vec) (d : gdata) : gdata :=
  let dq : mtx := fun i j => if g_rel G i j then g_dgrav G (xq nq x) i j else gd_dq d i j in
  GData (gd_value d) (left_cols nv nv (fun i j => - dq i j) (gd_Jx d))
        (match act with Some B => B | None => ident end) dq.
Definition gravity_compensation (init : mtx -> Prop) : obj :=
  Obj gdata (fun d => exists B, init B /\ d = GData vzero mzero mzero B) grav_evaluate grav_jacobians gd_value gd_Jx gd_Ju.
End Grav.

(** ** Residuals on contact forces *)
(** constraintDynamics: the stacked forces lambda_c, and their derivatives as computed from
    the stored result of constraintDynamics at (q, v, tau) *)
Record lpin := LPin { l_lambda : vec -> vec -> vec -> vec;
  l_dq : vec -> vec -> vec -> mtx; l_dv : vec -> vec -> vec -> mtx; l_dtau : vec -> vec -> vec -> mtx }.
(** the search of the constructors (contact-force.hpp 60-69, and the same in
    multibody-friction-cone.hpp and multibody-wrench-cone.hpp): None is the exception *)
Fixpoint contact_search (l : list string) (name : string) (i : nat) (id : option nat) : option nat :=
  match l with
  | [] => id
  | a :: l => contact_search l name (S i) (if String.eqb a name then Some i else id)
  end.
Definition contact_id (l : list string) (name : string) : option nat := contact_search l name 0 None.

Record fdata := FData { fd_q : vec; fd_v : vec; fd_tau : vec; fd_value : vec; fd_Jx : mtx; fd_Ju : mtx }.
Definition fdata_init (d : fdata) : Prop := exists q v t, d = FData q v t vzero mzero mzero.
Section Force.
Variable L : lpin.
Variables nq nv nx ndx nu : nat.
(** actuation_matrix_ *)
Variable B : mtx.
(** contact_id_ *)
Variable id : nat.
Definition block_rows (M : mtx) (o : nat) : mtx := fun i j => M (o + i)%nat j.
(** constraintDynamics at (q, v, B u), then the value as a function of lambda_c *)
Definition force_eval (val : vec -> vec) (x u : vec) (d : fdata) : fdata :=
  let tau := mv nu B u in
  FData (xq nq x) (xtail nv nx x) tau (val (l_lambda L (xq nq x) (xtail nv nx x) tau)) (fd_Jx d) (fd_Ju d).
Definition dlq (d : fdata) : mtx := l_dq L (fd_q d) (fd_v d) (fd_tau d).
Definition dlv (d : fdata) : mtx := l_dv L (fd_q d) (fd_v d) (fd_tau d).
Definition dlt (d : fdata) : mtx := l_dtau L (fd_q d) (fd_v d) (fd_tau d).
Definition lam (d : fdata) : vec := l_lambda L (fd_q d) (fd_v d) (fd_tau d).
Definition force_obj (ev jac : vec -> vec -> fdata -> fdata) : obj :=
  Obj fdata fdata_init ev jac fd_value fd_Jx fd_Ju.

(** contact-force.hxx 10-44 *)
Definition contact_force (fs : nat) (fref : vec) : obj :=
  force_obj (force_eval (fun l => vsub (fun k => l (id * fs + k)%nat) fref))
    (fun x u d =>
       let Jx := left_cols nv fs (block_rows (dlq d) (id * fs)) (fd_Jx d) in
       let Jx := right_cols nv ndx fs (block_rows (dlv d) (id * fs)) Jx in
       FData (fd_q d) (fd_v d) (fd_tau d) (fd_value d) Jx (mmul nv (block_rows (dlt d) (id * fs)) B)).

(** multibody-friction-cone.hxx 10-66 *)
Definition row3 (a b c : R) : mtx := fun _ k => match k with 0%nat => a | 1%nat => b | 2%nat => c | _ => 0 end.
Definition mb_friction (mu : R) : obj :=
  force_obj (force_eval (fun l k =>
      match k with
      | 0%nat => - l (id * 3 + 2)%nat
      | 1%nat => - mu * l (id * 3 + 2)%nat + sqrt (l (id * 3)%nat ^ 2 + l (id * 3 + 1)%nat ^ 2)
      | _ => 0
      end))
    (fun x u d =>
       let l := lam d in
       let temp := mmul nv (block_rows (dlt d) (id * 3)) B in
       let s := sqrt (l (id * 3)%nat ^ 2 + l (id * 3 + 1)%nat ^ 2) in
       let dc := row3 (l (id * 3)%nat / s) (l (id * 3 + 1)%nat / s) (- mu) in
       let Jx := bset (fd_Jx d) 0 0 1 nv (fun i j => - dlq d (id * 3 + 2 + i)%nat j) in
       let Jx := bset Jx 0 nv 1 nv (fun i j => - dlv d (id * 3 + 2 + i)%nat j) in
       let Ju := bset (fd_Ju d) 0 0 1 nu (fun i j => - temp (2 + i)%nat j) in
       let Jx := bset Jx 1 0 1 nv (mmul 3 dc (block_rows (dlq d) (id * 3))) in
       let Jx := bset Jx 1 nv 1 nv (mmul 3 dc (block_rows (dlv d) (id * 3))) in
       let Ju := bset Ju 1 0 1 nu (mmul 3 dc temp) in
       FData (fd_q d) (fd_v d) (fd_tau d) (fd_value d) Jx Ju).

(** multibody-wrench-cone.hxx 10-49, Acone_ from multibody-wrench-cone.hpp 79-89 *)
Definition acone (mu hL hW : R) : mtx := fun i k => nth k (nth i (wrench_matrix mu hL hW) []) 0.
Definition mb_wrench (mu hL hW : R) : obj :=
  let A := acone mu hL hW in
  force_obj (force_eval (fun l => mv 6 A (fun k => l (id * 6 + k)%nat)))
    (fun x u d =>
       let Jx := left_cols nv 17 (mmul 6 A (block_rows (dlq d) (id * 6))) (fd_Jx d) in
       let Jx := right_cols nv ndx 17 (mmul 6 A (block_rows (dlv d) (id * 6))) Jx in
       let temp := mmul nv (block_rows (dlt d) (id * 6)) B in
       FData (fd_q d) (fd_v d) (fd_tau d) (fd_value d) Jx (mmul 6 A temp)).
End Force.
