(** Model of the contact cones: CentroidalWrenchConeResidual
    (modelling/centroidal/centroidal-wrench-cone.hxx), CentroidalFrictionConeResidual
    (centroidal-friction-cone.hxx), and the cone matrix and friction residual of
    MultibodyWrenchConeResidual / MultibodyFrictionConeResidual
    (modelling/multibody/multibody-wrench-cone.hpp, multibody-friction-cone.hxx).

    Real scalars; vectors are lists, matrices lists of rows.  Reading or writing
    outside the control is undefined behaviour in the code (an Eigen assertion); here
    it is outside the hypotheses. *)
From Coq Require Import Reals List Arith.
From Verif Require Import CSetModel MultModel MeritModel.
Import ListNotations.
Local Open Scope R_scope.

(** StageFunctionData: value_ and the columns Ju_ of jac_buffer_ *)
Record cone_data := ConeData { cd_value : list R; cd_Ju : list (list R) }.
(** StageFunctionData's constructor zeroes both *)
Definition cone_new (nr nu : nat) : cone_data := ConeData (repeat 0 nr) (repeat (repeat 0 nu) nr).

(** centroidal-wrench-cone.hxx 8-56 *)
Definition wrench_evaluate (k : nat) (mu hL hW : R) (u : list R) (d : cone_data) : cone_data :=
  let g i := nth (k * 6 + i) u 0 in
  let fx := g 0%nat in let fy := g 1%nat in let fz := g 2%nat in
  let tx := g 3%nat in let ty := g 4%nat in let tz := g 5%nat in
  ConeData
    [ - fz;
      - fx - mu * fz; fx - mu * fz; - fy - mu * fz; fy - mu * fz;
      - hW * fz - tx; - hW * fz + tx; - hL * fz - ty; - hL * fz + ty;
      - hW * fx - hL * fy - (hW + hL) * mu * fz + mu * tx + mu * ty - tz;
      - hW * fx + hL * fy - (hW + hL) * mu * fz + mu * tx - mu * ty - tz;
      hW * fx - hL * fy - (hW + hL) * mu * fz - mu * tx + mu * ty - tz;
      hW * fx + hL * fy - (hW + hL) * mu * fz - mu * tx - mu * ty - tz;
      hW * fx + hL * fy - (hW + hL) * mu * fz + mu * tx + mu * ty + tz;
      hW * fx - hL * fy - (hW + hL) * mu * fz + mu * tx - mu * ty + tz;
      - hW * fx + hL * fy - (hW + hL) * mu * fz - mu * tx + mu * ty + tz;
      - hW * fx - hL * fy - (hW + hL) * mu * fz - mu * tx - mu * ty + tz ]
    (cd_Ju d).
(** centroidal-wrench-cone.hxx 63-72; the same numbers in multibody-wrench-cone.hpp 76-85 *)
Definition wrench_matrix (mu hL hW : R) : list (list R) :=
  [ [0; 0; -1; 0; 0; 0]; [-1; 0; - mu; 0; 0; 0]; [1; 0; - mu; 0; 0; 0]; [0; -1; - mu; 0; 0; 0];
    [0; 1; - mu; 0; 0; 0]; [0; 0; - hW; -1; 0; 0]; [0; 0; - hW; 1; 0; 0]; [0; 0; - hL; 0; -1; 0];
    [0; 0; - hL; 0; 1; 0];
    [- hW; - hL; - (hL + hW) * mu; mu; mu; -1]; [- hW; hL; - (hL + hW) * mu; mu; - mu; -1];
    [hW; - hL; - (hL + hW) * mu; - mu; mu; -1]; [hW; hL; - (hL + hW) * mu; - mu; - mu; -1];
    [hW; hL; - (hL + hW) * mu; mu; mu; 1]; [hW; - hL; - (hL + hW) * mu; mu; - mu; 1];
    [- hW; hL; - (hL + hW) * mu; - mu; mu; 1]; [- hW; - hL; - (hL + hW) * mu; - mu; - mu; 1] ].
(** block<17, 6>(0, k * 6) = Jtemp (74) *)
Definition set_cols (j : nat) (b row : list R) : list R :=
  firstn j row ++ b ++ skipn (j + length b) row.
(** centroidal-wrench-cone.hxx 58-75 *)
Definition wrench_jacobians (k : nat) (mu hL hW : R) (d : cone_data) : cone_data :=
  ConeData (cd_value d) (zip_with (set_cols (k * 6)) (wrench_matrix mu hL hW) (cd_Ju d)).

(** multibody-wrench-cone.hxx 22-24: the value from the contact forces lambda_c *)
Definition mb_wrench_value (mu hL hW : R) (lambda_c : list R) (contact_id : nat) : list R :=
  mulv (wrench_matrix mu hL hW) (firstn 6 (skipn (contact_id * 6) lambda_c)).

(** centroidal-friction-cone.hxx 8-16; mu2_ = mu * mu (hpp) *)
Definition friction_evaluate (k : nat) (mu eps : R) (u : list R) (d : cone_data) : cone_data :=
  let g i := nth (k * 3 + i) u 0 in
  let mu2 := mu * mu in
  ConeData [ - g 2%nat + eps;
             - mu2 * (g 2%nat * g 2%nat) + g 0%nat * g 0%nat + g 1%nat * g 1%nat ] (cd_Ju d).
(** centroidal-friction-cone.hxx 18-27 *)
Definition friction_jacobians (k : nat) (mu : R) (u : list R) (d : cone_data) : cone_data :=
  let g i := nth (k * 3 + i) u 0 in
  let mu2 := mu * mu in
  ConeData (cd_value d)
    (zip_with (set_cols (k * 3)) [[0; 0; -1]; [2 * g 0%nat; 2 * g 1%nat; -2 * mu2 * g 2%nat]] (cd_Ju d)).

(** multibody-friction-cone.hxx 22-26 and 41-47: value and the row dcone_df_ as
    functions of the contact force (fx, fy, fz).  At fx = fy = 0 the code divides by
    zero (NaN): None. *)
Definition mb_friction_value (mu fx fy fz : R) : list R := [ - fz; - mu * fz + sqrt (fx * fx + fy * fy) ].
Definition mb_friction_row (mu fx fy : R) : option (list R) :=
  let s := sqrt (fx * fx + fy * fy) in
  if Req_EM_T s 0 then None else Some [fx / s; fy / s; - mu].
