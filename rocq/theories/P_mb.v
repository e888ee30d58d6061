(** C56: the Jacobians of the kinematic multibody residuals are derivatives. *)
From Coq Require Import Reals List Lra Lia Arith Bool.
From Verif Require Import CentroidalModel P_centroidal MbModel.
Local Open Scope R_scope.

(** ** Specification *)
(** [tq g w]: the curve of configurations g has tangent w at time 0.  What this means
    depends on the robot (Lie group joints); it is a parameter. *)
Definition tangent := (R -> vec) -> vec -> Prop.
(** rotation matrices *)
Definition rotation (A : mtx) : Prop :=
  (forall i j, (i < 3)%nat -> (j < 3)%nat -> rsum 3 (fun k => A k i * A k j) = ident i j) /\
  (forall a b i, (i < 3)%nat -> mv 3 A (cross a b) i = cross (mv 3 A a) (mv 3 A b) i).
Definition col (A : mtx) (j : nat) : vec := fun i => A i j.
Definition ang (x : vec) : vec := fun k => x (3 + k)%nat.
(** the curve of placements has rotation velocity w and translation velocity v, in world axes *)
Definition moves (M : R -> se3) (v w : vec) : Prop :=
  (forall i, (i < 3)%nat -> derivable_pt_lim (fun t => sp (M t) i) 0 (v i)) /\
  (forall i j, (i < 3)%nat -> (j < 3)%nat ->
     derivable_pt_lim (fun t => sR (M t) i j) 0 (cross w (col (sR (M 0)) j) i)).
(** velocities *)
Definition vmoves (nv : nat) (v : R -> vec) (a : vec) : Prop :=
  forall i, (i < nv)%nat -> derivable_pt_lim (fun t => v t i) 0 (a i).

(** what Pinocchio documents: placements are rigid, each Jacobian is the derivative of the
    quantity it is named after, along every curve, and columns outside a frame's support
    are zero; the three reference frames are related as usual *)
Record pin_ok (P : pin) (nv : nat) (tq : tangent) : Prop := {
  ok_rot : forall id q, rotation (sR (p_place P id q));
  ok_supp : forall rf id q j, (j < nv)%nat -> p_supp P id j = false ->
    forall i, (i < 6)%nat -> p_jac P rf id q q i j = 0;
  ok_supp_v : forall rf id q v j, (j < nv)%nat -> p_supp P id j = false ->
    forall i, (i < 6)%nat -> p_dvel_dq P rf id q q v q i j = 0;
  ok_move : forall id g w, tq g w ->
    moves (fun t => p_place P id (g t)) (mv nv (p_jac P LWA id (g 0) (g 0)) w)
          (ang (mv nv (p_jac P LWA id (g 0) (g 0)) w));
  ok_local : forall id q i j, (i < 3)%nat -> (j < nv)%nat ->
    p_jac P LWA id q q i j = rsum 3 (fun k => sR (p_place P id q) i k * p_jac P LOCAL id q q k j) /\
    p_jac P LWA id q q (3 + i)%nat j = rsum 3 (fun k => sR (p_place P id q) i k * p_jac P LOCAL id q q (3 + k)%nat j);
  ok_world : forall id q i j, (i < 3)%nat -> (j < nv)%nat ->
    p_jac P WORLD id q q i j = p_jac P LWA id q q i j + cross (sp (p_place P id q)) (ang (col (p_jac P LWA id q q) j)) i /\
    p_jac P WORLD id q q (3 + i)%nat j = p_jac P LWA id q q (3 + i)%nat j;
  ok_vel_local : forall id q v i, (i < 3)%nat ->
    p_vel P LWA id q q v i = rsum 3 (fun k => sR (p_place P id q) i k * p_vel P LOCAL id q q v k);
  ok_dvel : forall rf id g w v a, tq g w -> vmoves nv v a -> forall i, (i < 6)%nat ->
    derivable_pt_lim (fun t => p_vel P rf id (g t) (g t) (v t) i) 0
      (mv nv (p_dvel_dq P rf id (g 0) (g 0) (v 0) (g 0)) w i + mv nv (p_dvel_dv P rf id (g 0) (g 0) (v 0) (g 0)) a i);
  ok_dvel_dv : forall rf id q v i j, (i < 6)%nat -> (j < nv)%nat ->
    p_dvel_dv P rf id q q v q i j = p_jac P rf id q q i j;
  ok_com : forall g w, tq g w -> forall i, (i < 3)%nat ->
    derivable_pt_lim (fun t => p_com P (g t) i) 0 (mv nv (p_Jcom P (g 0)) w i);
  ok_vcom : forall g w v a, tq g w -> vmoves nv v a -> forall i, (i < 3)%nat ->
    derivable_pt_lim (fun t => p_vcom P (g t) (v t) i) 0
      (mv nv (p_dvcom P (Some (g 0, v 0)) (g 0) (g 0) (v 0)) w i + mv nv (p_Jcom P (g 0)) a i);
  ok_mom : forall g w v a, tq g w -> vmoves nv v a -> forall i, (i < 6)%nat ->
    derivable_pt_lim (fun t => mv nv (p_Ag P (g t)) (v t) i) 0
      (mv nv (p_dh_dq P (g 0) (v 0)) w i + mv nv (p_Ag P (g 0)) a i)
}.
(** Jlog6 is the derivative of log6 at M0 (true where the rotation is not a half turn): along
    every curve of placements through M0 with body velocity xi *)
Definition log_ok (P : pin) (M0 : se3) : Prop :=
  forall (M : R -> se3) (xi : vec), M 0 = M0 -> (forall t, rotation (sR (M t))) ->
    moves M (mv 3 (sR M0) xi) (mv 3 (sR M0) (ang xi)) ->
    forall i, (i < 6)%nat -> derivable_pt_lim (fun t => p_log6 P (M t) i) 0 (mv 6 (p_Jlog6 P M0) xi i).

(** the derivative of the distance of two bodies is the relative velocity of their nearest
    material points along the normal *)
Definition point_velocity (v w p c : vec) : vec := fun i => v i + cross w (vsub c p) i.
Definition dist_ok (P : pin) (nv : nat) (tq : tangent) (id1 id2 : nat) (dist : vec -> R) (np1 np2 normal : vec -> vec) : Prop :=
  forall g w, tq g w ->
    let vel id c := point_velocity (mv nv (p_jac P LWA id (g 0) (g 0)) w) (ang (mv nv (p_jac P LWA id (g 0) (g 0)) w))
                      (sp (p_place P id (g 0))) c in
    derivable_pt_lim (fun t => dist (g t)) 0
      (rsum 3 (fun k => normal (g 0) k * (vel id2 (np2 (g 0)) k - vel id1 (np1 (g 0)) k))).

(** curves of states x = (q, v, ...) with tangent dx = (dq, dv, ...) *)
Definition xtang (nq nv : nat) (tq : tangent) (c : R -> vec) (dx : vec) : Prop :=
  tq (fun t => xq nq (c t)) dx /\ vmoves nv (fun t => xv nq nv (c t)) (fun i => dx (nv + i)%nat).

(** data after any calls, from any Pinocchio data *)
Inductive mreach (s : mres) : mdata -> Prop :=
| MR0 c M e : mreach s (mdata0 c M e)
| MR1 x u d : mreach s d -> mreach s (me s x u d)
| MR2 x u d : mreach s d -> mreach s (mj s x u d).
(** from any reachable data evaluate stores [f], and computeJacobians after it at the same
    point stores the derivative of [f], along every curve through a point of [dom] *)
Definition mcomputes (nq nv ndx nu r : nat) (tq : tangent) (dom : vec -> Prop) (s : mres) (f : vec -> vec) : Prop :=
  forall d, mreach s d ->
    (forall x u i, (i < r)%nat -> m_value (me s x u d) i = f x i) /\
    (forall c dx u du, xtang nq nv tq c dx -> dom (c 0) -> forall i, (i < r)%nat ->
       let d' := mj s (c 0) u (me s (c 0) u d) in
       derivable_pt_lim (fun t => f (c t) i) 0 (mv ndx (m_Jx d') dx i + mv nu (m_Ju d') du i)).
Definition everywhere (x : vec) : Prop := True.

(** ** Proofs *)
(** *** derivatives *)
Lemma dl_ext f g l : (forall t, f t = g t) -> derivable_pt_lim f 0 l -> derivable_pt_lim g 0 l.
Proof. intros E H e He. destruct (H e He) as [d Hd]. exists d. intros h h0 hd. rewrite <- !E. auto. Qed.
Lemma dl_eq f l m : l = m -> derivable_pt_lim f 0 l -> derivable_pt_lim f 0 m.
Proof. now intros ->. Qed.
Lemma dl_const a : derivable_pt_lim (fun _ => a) 0 0.
Proof. apply derivable_pt_lim_const. Qed.
Lemma dl_plus f g a b : derivable_pt_lim f 0 a -> derivable_pt_lim g 0 b -> derivable_pt_lim (fun t => f t + g t) 0 (a + b).
Proof. intros. now apply (derivable_pt_lim_plus f g). Qed.
Lemma dl_minus f g a b : derivable_pt_lim f 0 a -> derivable_pt_lim g 0 b -> derivable_pt_lim (fun t => f t - g t) 0 (a - b).
Proof. intros. now apply (derivable_pt_lim_minus f g). Qed.
Lemma dl_mult f g a b : derivable_pt_lim f 0 a -> derivable_pt_lim g 0 b ->
  derivable_pt_lim (fun t => f t * g t) 0 (a * g 0 + f 0 * b).
Proof. intros. now apply (derivable_pt_lim_mult f g). Qed.
Lemma dl_scal k f a : derivable_pt_lim f 0 a -> derivable_pt_lim (fun t => k * f t) 0 (k * a).
Proof. intros. now apply (derivable_pt_lim_scal f). Qed.
Lemma dl_opp f a : derivable_pt_lim f 0 a -> derivable_pt_lim (fun t => - f t) 0 (- a).
Proof. intros. now apply (derivable_pt_lim_opp f). Qed.
Lemma dl_sub f a k : derivable_pt_lim f 0 a -> derivable_pt_lim (fun t => f t - k) 0 a.
Proof. intros. apply (dl_eq _ (a - 0)); [ring|]. apply dl_minus; auto. apply dl_const. Qed.
Lemma dl_rsum n (f : nat -> R -> R) a : (forall k, (k < n)%nat -> derivable_pt_lim (f k) 0 (a k)) ->
  derivable_pt_lim (fun t => rsum n (fun k => f k t)) 0 (rsum n a).
Proof. induction n; intros H; simpl; [apply dl_const|]. apply dl_plus; auto. Qed.
Lemma dl_comp f g a b : derivable_pt_lim f 0 a -> derivable_pt_lim g (f 0) b ->
  derivable_pt_lim (fun t => g (f t)) 0 (b * a).
Proof. intros. now apply (derivable_pt_lim_comp f g). Qed.

(** *** sums *)
Lemma mv_ext n A B v w i : (forall j, (j < n)%nat -> A i j = B i j) -> (forall j, (j < n)%nat -> v j = w j) ->
  mv n A v i = mv n B w i.
Proof. intros H K. apply rsum_ext. intros j Hj. now rewrite H, K. Qed.
Lemma rsum_swap n m (f : nat -> nat -> R) : rsum n (fun i => rsum m (fun j => f i j)) = rsum m (fun j => rsum n (fun i => f i j)).
Proof.
  induction n; simpl; [now rewrite rsum_zero|]. rewrite IHn, <- rsum_plus. reflexivity.
Qed.
Lemma mv_mmul n m A B v i : mv n (mmul m A B) v i = mv m A (mv n B v) i.
Proof.
  unfold mv, mmul. transitivity (rsum m (fun k => rsum n (fun j => A i k * B k j * v j))).
  - rewrite rsum_swap. apply rsum_ext. intros j _. rewrite Rmult_comm, <- rsum_scale.
    apply rsum_ext. intros; ring.
  - apply rsum_ext. intros k _. rewrite <- rsum_scale. apply rsum_ext. intros; ring.
Qed.
Lemma rsum_lin n X Y d e k : rsum n (fun j => (X j * e - k * Y j) * d j) = rsum n (fun j => X j * d j) * e - k * rsum n (fun j => Y j * d j).
Proof.
  replace (rsum n (fun j => X j * d j) * e - k * rsum n (fun j => Y j * d j))
    with (e * rsum n (fun j => X j * d j) + (- k) * rsum n (fun j => Y j * d j)) by ring.
  rewrite <- !rsum_scale, <- rsum_plus. apply rsum_ext. intros; ring.
Qed.
Lemma mv_zero n A v i : (forall j, (j < n)%nat -> A i j = 0) -> mv n A v i = 0.
Proof. intros H. apply rsum_zero. intros j Hj. rewrite H by auto. ring. Qed.

(** *** blocks of Jx *)
Lemma left_in nv r B J i j : (i < r)%nat -> (j < nv)%nat -> left_cols nv r B J i j = B i j.
Proof. intros. unfold left_cols, bset. seg_cases. now rewrite !Nat.sub_0_r. Qed.
Lemma left_out nv r B J i j : (nv <= j)%nat -> left_cols nv r B J i j = J i j.
Proof. intros. unfold left_cols, bset. seg_cases; now rewrite ?andb_false_r. Qed.
Lemma right_in nv r B J i j : (i < r)%nat -> (j < nv)%nat -> right_cols nv (2 * nv) r B J i (nv + j)%nat = B i j.
Proof.
  intros. unfold right_cols, bset. seg_cases. rewrite Nat.sub_0_r. f_equal. lia.
Qed.
Lemma right_out nv r B J i j : (j < nv)%nat -> right_cols nv (2 * nv) r B J i j = J i j.
Proof. intros. unfold right_cols, bset. seg_cases; rewrite ?andb_false_r; auto. Qed.
Lemma right_out2 nv r B J i j : (2 * nv <= j)%nat -> right_cols nv (2 * nv) r B J i j = J i j.
Proof. intros. unfold right_cols, bset. seg_cases; rewrite ?andb_false_r; auto. Qed.
(** only the columns of dq *)
Lemma mv_left nv ndx r B J dx i : (i < r)%nat -> (nv <= ndx)%nat -> (forall j, (nv <= j)%nat -> J i j = 0) ->
  mv ndx (left_cols nv r B J) dx i = mv nv B dx i.
Proof.
  intros Hi Hn Z. unfold mv. rewrite (rsum_le nv ndx); auto.
  - apply rsum_ext. intros j Hj. now rewrite left_in.
  - intros j Hj. rewrite left_out, Z by lia. ring.
Qed.
(** both *)
Lemma mv_both nv r J A B dx i : (i < r)%nat ->
  (forall j, (j < nv)%nat -> J i j = A i j) -> (forall j, (j < nv)%nat -> J i (nv + j)%nat = B i j) ->
  mv (2 * nv) J dx i = mv nv A dx i + mv nv B (fun j => dx (nv + j)%nat) i.
Proof.
  intros Hi HA HB. unfold mv. replace (2 * nv)%nat with (nv + nv)%nat by lia. rewrite rsum_app. f_equal.
  - apply rsum_ext. intros j Hj. now rewrite HA.
  - apply rsum_ext. intros j Hj. now rewrite HB.
Qed.

(** *** rotations *)
Lemma lt3 i : (i < 3)%nat -> i = 0%nat \/ i = 1%nat \/ i = 2%nat. Proof. lia. Qed.
Ltac three H := destruct (lt3 _ H) as [-> | [-> | ->]].
Lemma cross_ext a b c d i : (forall k, (k < 3)%nat -> a k = c k) -> (forall k, (k < 3)%nat -> b k = d k) -> cross a b i = cross c d i.
Proof.
  intros H K. unfold cross. destruct i as [|[|[|i]]]; auto;
    rewrite ?(H 0%nat), ?(H 1%nat), ?(H 2%nat), ?(K 0%nat), ?(K 1%nat), ?(K 2%nat) by lia; reflexivity.
Qed.
Lemma mv3_ext A v w i : (forall k, (k < 3)%nat -> v k = w k) -> mv 3 A v i = mv 3 A w i.
Proof. intros. now apply mv_ext. Qed.
(** a rotation is its own cofactor matrix *)
Definition cof (A : mtx) : Prop :=
  A 0%nat 0%nat = A 1%nat 1%nat * A 2%nat 2%nat - A 2%nat 1%nat * A 1%nat 2%nat /\
  A 1%nat 0%nat = A 2%nat 1%nat * A 0%nat 2%nat - A 0%nat 1%nat * A 2%nat 2%nat /\
  A 2%nat 0%nat = A 0%nat 1%nat * A 1%nat 2%nat - A 1%nat 1%nat * A 0%nat 2%nat /\
  A 0%nat 1%nat = A 1%nat 2%nat * A 2%nat 0%nat - A 2%nat 2%nat * A 1%nat 0%nat /\
  A 1%nat 1%nat = A 2%nat 2%nat * A 0%nat 0%nat - A 0%nat 2%nat * A 2%nat 0%nat /\
  A 2%nat 1%nat = A 0%nat 2%nat * A 1%nat 0%nat - A 1%nat 2%nat * A 0%nat 0%nat /\
  A 0%nat 2%nat = A 1%nat 0%nat * A 2%nat 1%nat - A 2%nat 0%nat * A 1%nat 1%nat /\
  A 1%nat 2%nat = A 2%nat 0%nat * A 0%nat 1%nat - A 0%nat 0%nat * A 2%nat 1%nat /\
  A 2%nat 2%nat = A 0%nat 0%nat * A 1%nat 1%nat - A 1%nat 0%nat * A 0%nat 1%nat.
Definition unit_vec (j : nat) : vec := fun i => if Nat.eqb i j then 1 else 0.
Lemma rotation_cof A : rotation A -> cof A.
Proof.
  intros [_ H].
  pose proof (fun i => H (unit_vec 1) (unit_vec 2) i) as H0.
  pose proof (fun i => H (unit_vec 2) (unit_vec 0) i) as H1.
  pose proof (fun i => H (unit_vec 0) (unit_vec 1) i) as H2.
  pose proof (H0 0%nat ltac:(lia)) as a0. pose proof (H0 1%nat ltac:(lia)) as a1. pose proof (H0 2%nat ltac:(lia)) as a2.
  pose proof (H1 0%nat ltac:(lia)) as b0. pose proof (H1 1%nat ltac:(lia)) as b1. pose proof (H1 2%nat ltac:(lia)) as b2.
  pose proof (H2 0%nat ltac:(lia)) as c0. pose proof (H2 1%nat ltac:(lia)) as c1. pose proof (H2 2%nat ltac:(lia)) as c2.
  clear H H0 H1 H2. cbv [mv rsum cross unit_vec Nat.eqb] in *.
  unfold cof. repeat split; lra.
Qed.
Lemma cof_rotation A : cof A -> (forall i j, (i < 3)%nat -> (j < 3)%nat -> rsum 3 (fun k => A k i * A k j) = ident i j) -> rotation A.
Proof.
  intros (E1 & E2 & E3 & E4 & E5 & E6 & E7 & E8 & E9) H. split; auto.
  intros a b i Hi. three Hi; cbv [mv rsum cross].
  - rewrite E1, E4, E7. ring.
  - rewrite E2, E5, E8. ring.
  - rewrite E3, E6, E9. ring.
Qed.
(** R R^T = I *)
Lemma rotation_right A : rotation A -> forall i j, (i < 3)%nat -> (j < 3)%nat -> rsum 3 (fun k => A i k * A j k) = ident i j.
Proof.
  intros HA. pose proof (rotation_cof A HA) as (E1 & E2 & E3 & E4 & E5 & E6 & E7 & E8 & E9).
  destruct HA as [H _]. pose proof (H 0%nat 0%nat ltac:(lia) ltac:(lia)) as D. cbv [rsum ident Nat.eqb] in D.
  assert (DD : A 0%nat 0%nat * (A 1%nat 1%nat * A 2%nat 2%nat - A 2%nat 1%nat * A 1%nat 2%nat)
    + A 1%nat 0%nat * (A 2%nat 1%nat * A 0%nat 2%nat - A 0%nat 1%nat * A 2%nat 2%nat)
    + A 2%nat 0%nat * (A 0%nat 1%nat * A 1%nat 2%nat - A 1%nat 1%nat * A 0%nat 2%nat) = 1)
    by (rewrite <- E1, <- E2, <- E3; lra).
  intros i j Hi Hj. three Hj; cbv [rsum ident].
  - rewrite E1, E4, E7. three Hi; cbv [Nat.eqb]; rewrite <- ?DD; ring.
  - rewrite E2, E5, E8. three Hi; cbv [Nat.eqb]; rewrite <- ?DD; ring.
  - rewrite E3, E6, E9. three Hi; cbv [Nat.eqb]; rewrite <- ?DD; ring.
Qed.
Lemma rotation_transp A : rotation A -> rotation (transp A).
Proof.
  intros H. apply cof_rotation.
  - pose proof (rotation_cof A H) as (E1 & E2 & E3 & E4 & E5 & E6 & E7 & E8 & E9). unfold cof, transp. repeat split; lra.
  - intros i j Hi Hj. now apply rotation_right.
Qed.
Lemma rotation_mul A B : rotation A -> rotation B -> rotation (mmul 3 A B).
Proof.
  intros [HA CA] [HB CB]. split.
  - intros i j Hi Hj.
    assert (G : forall p q, rsum 3 (fun k => rsum 3 (fun l => A k l * p l) * rsum 3 (fun l => A k l * q l)) = rsum 3 (fun l => p l * q l)).
    { intros p q.
      pose proof (HA 0%nat 0%nat ltac:(lia) ltac:(lia)) as e00. pose proof (HA 0%nat 1%nat ltac:(lia) ltac:(lia)) as e01.
      pose proof (HA 0%nat 2%nat ltac:(lia) ltac:(lia)) as e02. pose proof (HA 1%nat 1%nat ltac:(lia) ltac:(lia)) as e11.
      pose proof (HA 1%nat 2%nat ltac:(lia) ltac:(lia)) as e12. pose proof (HA 2%nat 2%nat ltac:(lia) ltac:(lia)) as e22.
      cbv [rsum ident Nat.eqb] in *.
      transitivity ((0 + A 0%nat 0%nat * A 0%nat 0%nat + A 1%nat 0%nat * A 1%nat 0%nat + A 2%nat 0%nat * A 2%nat 0%nat) * (p 0%nat * q 0%nat)
        + (0 + A 0%nat 1%nat * A 0%nat 1%nat + A 1%nat 1%nat * A 1%nat 1%nat + A 2%nat 1%nat * A 2%nat 1%nat) * (p 1%nat * q 1%nat)
        + (0 + A 0%nat 2%nat * A 0%nat 2%nat + A 1%nat 2%nat * A 1%nat 2%nat + A 2%nat 2%nat * A 2%nat 2%nat) * (p 2%nat * q 2%nat)
        + (0 + A 0%nat 0%nat * A 0%nat 1%nat + A 1%nat 0%nat * A 1%nat 1%nat + A 2%nat 0%nat * A 2%nat 1%nat) * (p 0%nat * q 1%nat + p 1%nat * q 0%nat)
        + (0 + A 0%nat 0%nat * A 0%nat 2%nat + A 1%nat 0%nat * A 1%nat 2%nat + A 2%nat 0%nat * A 2%nat 2%nat) * (p 0%nat * q 2%nat + p 2%nat * q 0%nat)
        + (0 + A 0%nat 1%nat * A 0%nat 2%nat + A 1%nat 1%nat * A 1%nat 2%nat + A 2%nat 1%nat * A 2%nat 2%nat) * (p 1%nat * q 2%nat + p 2%nat * q 1%nat)); [ring|].
      rewrite e00, e01, e02, e11, e12, e22. ring. }
    unfold mmul. etransitivity; [apply (G (col B i) (col B j))|]. now apply HB.
  - intros a b i Hi. rewrite !mv_mmul.
    rewrite (mv3_ext A _ (cross (mv 3 B a) (mv 3 B b))) by (intros; now apply CB).
    rewrite CA by auto. apply cross_ext; intros; now rewrite mv_mmul.
Qed.
Lemma rotation_inv_l A v i : rotation A -> (i < 3)%nat -> mv 3 A (mv 3 (transp A) v) i = v i.
Proof.
  intros H Hi. pose proof (rotation_right A H) as E.
  transitivity (rsum 3 (fun j => rsum 3 (fun k => A i k * A j k) * v j)).
  - cbv [mv rsum transp]. ring.
  - rewrite (rsum_ext 3 _ (fun j => ident i j * v j)) by (intros j Hj; now rewrite E).
    three Hi; cbv [rsum ident Nat.eqb]; ring.
Qed.

(** *** moving placements *)
Lemma moves_ext M v w v' w' : (forall i, (i < 3)%nat -> v i = v' i) -> (forall i, (i < 3)%nat -> w i = w' i) ->
  moves M v w -> moves M v' w'.
Proof.
  intros Hv Hw [H1 H2]. split.
  - intros i Hi. rewrite <- Hv by auto. auto.
  - intros i j Hi Hj. apply (dl_eq _ (cross w (col (sR (M 0)) j) i)); auto. apply cross_ext; auto.
Qed.
Lemma dl_cross_col (M : R -> se3) v w : moves M v w -> forall y z i, (i < 3)%nat ->
  (forall k, (k < 3)%nat -> derivable_pt_lim (fun t => y t k) 0 (z k)) ->
  derivable_pt_lim (fun t => mv 3 (transp (sR (M t))) (y t) i) 0 (mv 3 (transp (sR (M 0))) (vsub z (cross w (y 0))) i).
Proof.
  intros [_ H] y z i Hi Hy. unfold mv, transp.
  eapply dl_eq; [|apply (dl_rsum 3 (fun k t => sR (M t) k i * y t k) (fun k => cross w (col (sR (M 0)) i) k * y 0 k + sR (M 0) k i * z k));
    intros k Hk; apply (dl_mult (fun t => sR (M t) k i)); auto].
  cbv [rsum cross vsub col]. ring.
Qed.
Lemma dl_mv3 (M : R -> se3) v w : moves M v w -> forall y z i, (i < 3)%nat ->
  (forall k, (k < 3)%nat -> derivable_pt_lim (fun t => y t k) 0 (z k)) ->
  derivable_pt_lim (fun t => mv 3 (sR (M t)) (y t) i) 0 (cross w (mv 3 (sR (M 0)) (y 0)) i + mv 3 (sR (M 0)) z i).
Proof.
  intros [_ H] y z i Hi Hy. unfold mv.
  eapply dl_eq; [|apply (dl_rsum 3 (fun k t => sR (M t) i k * y t k) (fun k => cross w (col (sR (M 0)) k) i * y 0 k + sR (M 0) i k * z k));
    intros k Hk; apply (dl_mult (fun t => sR (M t) i k)); auto].
  three Hi; cbv [rsum cross col]; ring.
Qed.
Lemma moves_act M v w F : moves M v w ->
  moves (fun t => se3_act (M t) F) (fun i => cross w (mv 3 (sR (M 0)) (sp F)) i + v i) w.
Proof.
  intros H. split.
  - intros i Hi. simpl. apply dl_plus; [|now apply (proj1 H)].
    eapply dl_eq; [|apply (dl_mv3 M v w H (fun _ => sp F) vzero); auto; intros; apply dl_const].
    rewrite (mv_ext 3 _ _ vzero vzero) by auto. replace (mv 3 (sR (M 0)) vzero i) with 0; [ring|].
    cbv [mv rsum vzero]. ring.
  - intros i j Hi Hj. simpl. unfold mmul.
    eapply dl_eq; [|apply (dl_mv3 M v w H (fun _ => col (sR F) j) vzero); auto; intros; apply dl_const].
    replace (mv 3 (sR (M 0)) vzero i) with 0 by (cbv [mv rsum vzero]; ring).
    rewrite Rplus_0_r. apply cross_ext; reflexivity.
Qed.
Lemma moves_act_inv A va wa B vb wb : moves A va wa -> moves B vb wb -> rotation (sR (A 0)) ->
  moves (fun t => se3_act_inv (A t) (B t))
    (mv 3 (transp (sR (A 0))) (vsub (vsub vb va) (cross wa (vsub (sp (B 0)) (sp (A 0))))))
    (mv 3 (transp (sR (A 0))) (vsub wb wa)).
Proof.
  intros HA HB HR. split.
  - intros i Hi. simpl. apply (dl_cross_col A va wa HA (fun t => vsub (sp (B t)) (sp (A t))) (vsub vb va)); auto.
    intros k Hk. unfold vsub. apply dl_minus; [now apply (proj1 HB)|now apply (proj1 HA)].
  - intros i j Hi Hj. simpl.
    eapply dl_eq; [|apply (dl_cross_col A va wa HA (fun t => col (sR (B t)) j) (cross wb (col (sR (B 0)) j))); auto;
      intros k Hk; now apply (proj2 HB)].
    transitivity (mv 3 (transp (sR (A 0))) (cross (vsub wb wa) (col (sR (B 0)) j)) i).
    + apply mv3_ext. intros k Hk. three Hk; cbv [cross vsub]; ring.
    + rewrite (proj2 (rotation_transp _ HR)) by auto. apply cross_ext; reflexivity.
Qed.
Lemma moves_const M : moves (fun _ => M) vzero vzero.
Proof.
  split; intros; (eapply dl_eq; [|apply dl_const]).
  - reflexivity.
  - three H; cbv [cross vzero]; ring.
Qed.

Lemma reach_inv s (I : mdata -> Prop) : (forall c M e, I (mdata0 c M e)) ->
  (forall x u d, I d -> I (me s x u d)) -> (forall x u d, I d -> I (mj s x u d)) -> forall d, mreach s d -> I d.
Proof. intros H0 H1 H2 d H. induction H; auto. Qed.

Section Proofs.
Variables (P : pin) (nq nv : nat) (tq : tangent).
Hypothesis HP : pin_ok P nv tq.

(** invariants of the stored data *)
Definition zero_out (supp : nat -> bool) (B : mtx) : Prop := forall i j, supp j = false -> B i j = 0.
Definition inv_left (s1 s2 : nat -> bool) (d : mdata) : Prop :=
  (forall i j, m_Ju d i j = 0) /\ (forall i j, (nv <= j)%nat -> m_Jx d i j = 0) /\
  zero_out s1 (m_fJf d) /\ zero_out s2 (m_fJf2 d).
Lemma supp_zero_out id J B : zero_out (p_supp P id) B -> zero_out (p_supp P id) (support_set P id J B).
Proof. intros H i j E. unfold support_set. rewrite E. auto. Qed.
(** after a masked write the columns are those of the Jacobian *)
Lemma get_jac_val rf id c B q i j : zero_out (p_supp P id) B -> c_oMi c = q -> c_J c = q -> (i < 6)%nat -> (j < nv)%nat ->
  get_jac P rf id c B i j = p_jac P rf id q q i j.
Proof.
  intros Z E1 E2 Hi Hj. unfold get_jac, support_set. rewrite E1, E2. destruct (p_supp P id j) eqn:S; auto.
  rewrite Z by auto. symmetry. now apply (ok_supp _ _ _ HP).
Qed.
Lemma mmul_zero_out s n A B : zero_out s B -> zero_out s (mmul n A B).
Proof. intros H i j E. unfold mmul. apply rsum_zero. intros k _. rewrite H by auto. ring. Qed.

Definition pos_of (id : nat) (x : vec) : se3 := p_place P id (xq nq x).

(** frame translation *)
Lemma translation_inv id pref d : mreach (frame_translation P nq nv id pref) d ->
  inv_left (p_supp P id) (fun _ => true) d.
Proof.
  apply reach_inv.
  - intros c M e. repeat split; try (intros i j **; reflexivity).
  - intros x u e (H1 & H2 & H3 & H4). repeat split; simpl; auto.
  - intros x u e (H1 & H2 & H3 & H4). repeat split; simpl; auto.
    + intros i j Hj. rewrite left_out; auto.
    + now apply supp_zero_out.
Qed.
Lemma frame_translation_ok id pref ndx nu : (nv <= ndx)%nat ->
  mcomputes nq nv ndx nu 3 tq everywhere (frame_translation P nq nv id pref)
    (fun x => vsub (sp (pos_of id x)) pref).
Proof.
  intros Hn d Hd. split.
  - intros x u i Hi. simpl. unfold vsub, frame. simpl. now rewrite Nat.eqb_refl.
  - intros c dx u du [Hq Hv] _ i Hi d'. destruct (translation_inv id pref d Hd) as (H1 & H2 & H3 & H4).
    rewrite (mv_zero nu) by (intros; apply H1). rewrite Rplus_0_r.
    subst d'. simpl. rewrite mv_left by auto.
    rewrite (mv_ext nv _ (p_jac P LWA id (xq nq (c 0)) (xq nq (c 0))) dx dx i).
    + unfold vsub. apply dl_sub. now apply (proj1 (ok_move _ _ _ HP id _ _ Hq)).
    + intros j Hj. unfold top. apply get_jac_val; auto; lia.
    + auto.
Qed.

(** frame velocity *)
Definition inv_both (s : nat -> bool) (d : mdata) : Prop :=
  (forall i j, m_Ju d i j = 0) /\ (forall i j, (j < nv)%nat -> s j = false -> m_Jx d i j = 0 /\ m_Jx d i (nv + j)%nat = 0).
Lemma velocity_inv id rf vref d : mreach (frame_velocity P nq nv (2 * nv) id rf vref) d -> inv_both (p_supp P id) d.
Proof.
  apply reach_inv.
  - intros c M e. repeat split; try (intros i j **; reflexivity).
  - intros x u e H. exact H.
  - intros x u e (H1 & H2). split; auto. intros i j Hj S. destruct (H2 i j Hj S) as [K1 K2]. cbn [mj frame_velocity m_Jx]. split.
    + rewrite right_out by auto. destruct (Nat.ltb_spec i 6).
      * rewrite left_in by auto. unfold get_dvel_dq, support_set. now rewrite S.
      * unfold left_cols, bset. seg_cases; auto.
    + destruct (Nat.ltb_spec i 6).
      * rewrite right_in by auto. unfold get_dvel_dv, support_set. rewrite S.
        replace (2 * nv - nv + j)%nat with (nv + j)%nat by lia. now rewrite left_out by lia.
      * unfold right_cols, left_cols, bset. seg_cases; auto.
Qed.
Lemma frame_velocity_ok id rf vref nu :
  mcomputes nq nv (2 * nv) nu 6 tq everywhere (frame_velocity P nq nv (2 * nv) id rf vref)
    (fun x => vsub (p_vel P rf id (xq nq x) (xq nq x) (xv nq nv x)) vref).
Proof.
  intros d Hd. split.
  - intros x u i Hi. reflexivity.
  - intros c dx u du [Hq Hv] _ i Hi d'. destruct (velocity_inv id rf vref d Hd) as (H1 & H2).
    rewrite (mv_zero nu) by (intros; apply H1). rewrite Rplus_0_r.
    set (q := xq nq (c 0)). set (v := xv nq nv (c 0)).
    rewrite (mv_both nv 6 _ (p_dvel_dq P rf id q q v q) (p_dvel_dv P rf id q q v q)); auto.
    + unfold vsub. apply dl_sub. now apply (ok_dvel _ _ _ HP rf id _ _ _ _ Hq Hv).
    + intros j Hj. subst d'. cbn [mj me frame_velocity m_Jx]. rewrite right_out, left_in by auto.
      unfold get_dvel_dq, support_set. simpl. fold q v. destruct (p_supp P id j) eqn:S; auto.
      rewrite (proj1 (H2 i j Hj S)). symmetry. now apply (ok_supp_v _ _ _ HP).
    + intros j Hj. subst d'. cbn [mj me frame_velocity m_Jx]. rewrite right_in by auto.
      unfold get_dvel_dv, support_set. simpl. fold q v. destruct (p_supp P id j) eqn:S; auto.
      rewrite left_out by lia. replace (nv + (nv + 0) - nv + j)%nat with (nv + j)%nat by lia.
      rewrite (proj2 (H2 i j Hj S)). rewrite (ok_dvel_dv _ _ _ HP) by auto. symmetry. now apply (ok_supp _ _ _ HP).
Qed.

(** frame placement *)
Lemma jac_lin_local id q w i : (i < 3)%nat ->
  mv nv (p_jac P LWA id q q) w i = mv 3 (sR (p_place P id q)) (mv nv (p_jac P LOCAL id q q) w) i.
Proof.
  intros Hi. rewrite <- mv_mmul. apply mv_ext; auto. intros j Hj. now apply (ok_local _ _ _ HP).
Qed.
Lemma jac_ang_local id q w i : (i < 3)%nat ->
  mv nv (p_jac P LWA id q q) w (3 + i)%nat = mv 3 (sR (p_place P id q)) (ang (mv nv (p_jac P LOCAL id q q) w)) i.
Proof.
  intros Hi. change (ang (mv nv (p_jac P LOCAL id q q) w)) with (mv nv (bottom3 (p_jac P LOCAL id q q)) w).
  rewrite <- mv_mmul. apply rsum_ext. intros j Hj. f_equal. now apply (ok_local _ _ _ HP).
Qed.
Lemma placement_inv id ref d : mreach (frame_placement P nq nv id ref) d ->
  inv_left (p_supp P id) (fun _ => true) d.
Proof.
  apply reach_inv.
  - intros c M e. repeat split; try (intros i j **; reflexivity).
  - intros x u e (H1 & H2 & H3 & H4). repeat split; simpl; auto.
  - intros x u e (H1 & H2 & H3 & H4). repeat split; simpl; auto.
    + intros i j Hj. rewrite left_out; auto.
    + now apply supp_zero_out.
Qed.
Lemma frame_placement_ok id ref ndx nu : (nv <= ndx)%nat -> rotation (sR ref) ->
  mcomputes nq nv ndx nu 6 tq (fun x => log_ok P (se3_act (se3_inverse ref) (pos_of id x))) (frame_placement P nq nv id ref)
    (fun x => p_log6 P (se3_act (se3_inverse ref) (pos_of id x))).
Proof.
  intros Hn HR d Hd. split.
  - intros x u i Hi. simpl. unfold frame. simpl. now rewrite Nat.eqb_refl.
  - intros c dx u du [Hq Hv] Hl i Hi d'. destruct (placement_inv id ref d Hd) as (H1 & H2 & H3 & H4).
    rewrite (mv_zero nu) by (intros; apply H1). rewrite Rplus_0_r.
    subst d'. simpl. rewrite mv_left, mv_mmul by auto.
    set (q := xq nq (c 0)).
    rewrite (mv_ext 6 _ (p_Jlog6 P (se3_act (se3_inverse ref) (p_place P id q))) _ (mv nv (p_jac P LOCAL id q q) dx)).
    + assert (Hm := ok_move _ _ _ HP id _ _ Hq). fold q in Hm.
      apply (Hl (fun t => se3_act (se3_inverse ref) (pos_of id (c t)))); auto.
      * intros t. simpl. apply rotation_mul; [now apply rotation_transp|apply (ok_rot _ _ _ HP)].
      * assert (Hi2 := moves_act_inv _ _ _ _ _ _ (moves_const ref) Hm HR).
        eapply moves_ext; [| |].
        3:{ destruct Hi2 as [G1 G2]. split.
            - intros k Hk. apply (dl_ext (fun t => sp (se3_act_inv ref (p_place P id (xq nq (c t)))) k)).
              + intros t. unfold se3_act_inv, se3_act, se3_inverse, pos_of. cbn [sp sR]. cbv [mv rsum vsub]. ring.
              + apply G1. exact Hk.
            - intros k l Hk Hl'. apply G2; auto. }
        -- intros k Hk. simpl. rewrite mv_mmul. apply mv3_ext. intros l Hl'.
           unfold pos_of. fold q. rewrite <- jac_lin_local by auto. three Hl'; cbv [vsub vzero cross]; ring.
        -- intros k Hk. simpl. rewrite mv_mmul. apply mv3_ext. intros l Hl'.
           unfold pos_of. fold q. rewrite <- jac_ang_local by auto. unfold vsub, vzero, ang. ring.
    + intros j Hj. simpl. unfold frame. simpl. now rewrite Nat.eqb_refl.
    + intros j Hj. apply mv_ext; auto. intros k Hk. apply get_jac_val; auto.
Qed.

(** frame equality *)
Lemma equality_inv id1 id2 ref d : mreach (frame_equality P nq nv id1 id2 ref) d ->
  inv_left (p_supp P id1) (p_supp P id2) d.
Proof.
  apply reach_inv.
  - intros c M e. repeat split; try (intros i j **; reflexivity).
  - intros x u e (H1 & H2 & H3 & H4). repeat split; simpl; auto.
  - intros x u e (H1 & H2 & H3 & H4). repeat split; simpl; auto.
    + intros i j Hj. rewrite left_out; auto.
    + now apply supp_zero_out.
    + now apply supp_zero_out.
Qed.
Definition eq_place (id1 id2 : nat) (ref : se3) (x : vec) : se3 :=
  se3_act_inv (se3_act (pos_of id1 x) ref) (pos_of id2 x).
Lemma mv6_split A w i : mv 6 A w i = rsum 3 (fun k => A i k * w k) + rsum 3 (fun k => A i (3 + k)%nat * w (3 + k)%nat).
Proof. cbv [mv rsum Nat.add]. ring. Qed.
Lemma action_inv_lin M w i : (i < 3)%nat ->
  mv 6 (action_inverse M) w i = mv 3 (transp (sR M)) (vsub w (cross (sp M) (ang w))) i.
Proof.
  intros Hi. rewrite mv6_split. unfold action_inverse, mmul, mv, transp.
  three Hi; cbv [rsum Nat.ltb Nat.leb Nat.sub skew m3 vsub cross ang Nat.add]; ring.
Qed.
Lemma action_inv_ang M w i : (i < 3)%nat ->
  mv 6 (action_inverse M) w (3 + i)%nat = mv 3 (transp (sR M)) (ang w) i.
Proof.
  intros Hi. rewrite mv6_split. unfold action_inverse, mv, transp, ang.
  three Hi; cbv [rsum Nat.ltb Nat.leb Nat.sub Nat.add]; ring.
Qed.
Lemma jac_world_lin id q w i : (i < 3)%nat ->
  mv nv (p_jac P WORLD id q q) w i =
  mv nv (p_jac P LWA id q q) w i + cross (sp (p_place P id q)) (ang (mv nv (p_jac P LWA id q q) w)) i.
Proof.
  intros Hi. set (J := p_jac P LWA id q q).
  assert (E : cross (sp (p_place P id q)) (ang (mv nv J w)) i =
              rsum nv (fun j => cross (sp (p_place P id q)) (ang (col J j)) i * w j)).
  { assert (L : forall a b m n, a * rsum nv (fun j => J m j * w j) - b * rsum nv (fun j => J n j * w j) =
                                rsum nv (fun j => (a * J m j - b * J n j) * w j)).
    { intros a b m n. replace (a * rsum nv (fun j => J m j * w j) - b * rsum nv (fun j => J n j * w j))
        with (a * rsum nv (fun j => J m j * w j) + (- b) * rsum nv (fun j => J n j * w j)) by ring.
      rewrite <- !rsum_scale, <- rsum_plus. apply rsum_ext. intros; ring. }
    unfold ang, mv, col. three Hi; unfold cross; apply L. }
  rewrite E. unfold mv. rewrite <- rsum_plus. apply rsum_ext. intros j Hj.
  rewrite (proj1 (ok_world _ _ _ HP id q i j Hi Hj)). fold J. ring.
Qed.
Lemma jac_world_ang id q w i : (i < 3)%nat ->
  mv nv (p_jac P WORLD id q q) w (3 + i)%nat = mv nv (p_jac P LWA id q q) w (3 + i)%nat.
Proof. intros Hi. apply rsum_ext. intros j Hj. f_equal. now apply (ok_world _ _ _ HP). Qed.
Lemma mv_msub n A B w i : mv n (msub A B) w i = mv n A w i - mv n B w i.
Proof.
  unfold mv, msub, Rminus. replace (- rsum n (fun j => B i j * w j)) with ((-1) * rsum n (fun j => B i j * w j)) by ring.
  rewrite <- rsum_scale, <- rsum_plus. apply rsum_ext. intros; ring.
Qed.
Lemma frame_equality_ok id1 id2 ref ndx nu : (nv <= ndx)%nat -> rotation (sR ref) ->
  mcomputes nq nv ndx nu 6 tq (fun x => log_ok P (eq_place id1 id2 ref x)) (frame_equality P nq nv id1 id2 ref)
    (fun x => p_log6 P (eq_place id1 id2 ref x)).
Proof.
  intros Hn HR d Hd.
  assert (F : forall x, eq_place id1 id2 ref x =
    se3_act_inv (se3_act (frame P id1 (update_frame id2 (update_frame id1 (fwd_kin (xq nq x) (m_pc d))))) ref)
                (frame P id2 (update_frame id2 (update_frame id1 (fwd_kin (xq nq x) (m_pc d)))))).
  { intros x. unfold frame. simpl. rewrite !Nat.eqb_refl. unfold eq_place, pos_of. now destruct (Nat.eqb id1 id2). }
  split.
  - intros x u i Hi. simpl. now rewrite F.
  - intros c dx u du [Hq Hv] Hl i Hi d'. destruct (equality_inv id1 id2 ref d Hd) as (H1 & H2 & H3 & H4).
    rewrite (mv_zero nu) by (intros; apply H1). rewrite Rplus_0_r.
    subst d'. simpl. rewrite mv_left by auto. rewrite mv_mmul, mv_mmul, <- F.
    set (q := xq nq (c 0)). set (M0 := eq_place id1 id2 ref (c 0)).
    set (v1 := mv nv (p_jac P LWA id1 q q) dx). set (v2 := mv nv (p_jac P LWA id2 q q) dx).
    set (y := mv nv (msub _ _) dx).
    assert (Y : forall k, (k < 6)%nat -> y k = mv nv (p_jac P WORLD id2 q q) dx k - mv nv (p_jac P WORLD id1 q q) dx k).
    { intros k Hk. unfold y. rewrite mv_msub. f_equal; apply rsum_ext; intros j Hj; f_equal; now apply get_jac_val. }
    assert (E2 : frame P id2 (joint_jacobians (update_frame id2 (update_frame id1 (fwd_kin q (m_pc d))))) = p_place P id2 q)
      by (unfold frame; simpl; now rewrite Nat.eqb_refl).
    rewrite E2.
    assert (Hm1 := ok_move _ _ _ HP id1 _ _ Hq). assert (Hm2 := ok_move _ _ _ HP id2 _ _ Hq). cbv beta in Hm1, Hm2.
    fold q in Hm1, Hm2. fold v1 in Hm1. fold v2 in Hm2.
    assert (R1 : rotation (sR (se3_act (p_place P id1 q) ref))) by (apply rotation_mul; [apply (ok_rot _ _ _ HP)|auto]).
    assert (Hm := moves_act_inv _ _ _ _ _ _ (moves_act _ _ _ ref Hm1) Hm2 R1). cbv beta in Hm.
    apply (Hl (fun t => eq_place id1 id2 ref (c t))); auto.
    + intros t. apply rotation_mul; [|apply (ok_rot _ _ _ HP)]. apply rotation_transp.
      apply rotation_mul; [apply (ok_rot _ _ _ HP)|auto].
    + eapply moves_ext; [| |exact Hm]; fold q.
      * intros k Hk. fold M0. change (sR M0) with (mmul 3 (transp (sR (se3_act (p_place P id1 q) ref))) (sR (p_place P id2 q))).
        rewrite mv_mmul. apply mv3_ext. intros l Hl'.
        rewrite (mv3_ext _ _ (mv 3 (transp (sR (p_place P id2 q))) (vsub y (cross (sp (p_place P id2 q)) (ang y)))))
          by (intros; now apply action_inv_lin).
        rewrite rotation_inv_l by (auto; apply (ok_rot _ _ _ HP)).
        assert (Z : forall n, (n < 3)%nat -> y n = v2 n + cross (sp (p_place P id2 q)) (ang v2) n - (v1 n + cross (sp (p_place P id1 q)) (ang v1) n))
          by (intros n Hn'; rewrite Y, !jac_world_lin by lia; reflexivity).
        assert (Z' : forall n, (n < 3)%nat -> ang y n = ang v2 n - ang v1 n)
          by (intros n Hn'; unfold ang at 1; rewrite Y, !jac_world_ang by lia; reflexivity).
        unfold vsub at 4. rewrite Z by auto.
        rewrite (cross_ext (sp (p_place P id2 q)) (ang y) (sp (p_place P id2 q)) (vsub (ang v2) (ang v1))) by (auto; exact Z').
        cbn [se3_act sp]. three Hl'; cbv [vsub cross]; ring.
      * intros k Hk. fold M0. change (sR M0) with (mmul 3 (transp (sR (se3_act (p_place P id1 q) ref))) (sR (p_place P id2 q))).
        rewrite mv_mmul. apply mv3_ext. intros l Hl'.
        rewrite (mv3_ext _ _ (mv 3 (transp (sR (p_place P id2 q))) (ang y)))
          by (intros n Hn'; unfold ang at 1; now apply action_inv_ang).
        rewrite rotation_inv_l by (auto; apply (ok_rot _ _ _ HP)).
        unfold ang at 3. rewrite Y, !jac_world_ang by lia. reflexivity.
Qed.

(** residuals that write all of the columns of dq and dv; Jx stays zero elsewhere and Ju is zero *)
Definition inv_ju (d : mdata) : Prop := forall i j, m_Ju d i j = 0.

(** fly high *)
Definition inv_fly (s : nat -> bool) (d : mdata) : Prop :=
  inv_ju d /\ zero_out s (m_fJf d) /\ zero_out s (m_fJf2 d).
Lemma fly_inv id slope d : mreach (fly_high P nq nv (2 * nv) id slope) d -> inv_fly (p_supp P id) d.
Proof.
  apply reach_inv.
  - intros c M e. repeat split; intros i j **; reflexivity.
  - intros x u e H. exact H.
  - intros x u e (H1 & H2 & H3). split; [exact H1|]. split; cbn [mj fly_high m_fJf m_fJf2]; now apply supp_zero_out.
Qed.
(** horizontal velocity in world axes, damped with the height *)
Definition fly_value (id : nat) (slope : R) (x : vec) : vec := fun i =>
  p_vel P LWA id (xq nq x) (xq nq x) (xv nq nv x) i * exp (- sp (pos_of id x) 2%nat * slope).
Lemma fly_high_ok id slope nu :
  mcomputes nq nv (2 * nv) nu 2 tq everywhere (fly_high P nq nv (2 * nv) id slope) (fly_value id slope).
Proof.
  intros d Hd. split.
  - intros x u i Hi. cbn [me fly_high m_value]. unfold fly_value, frame, get_vel, pos_of. cbn. now rewrite Nat.eqb_refl.
  - intros c dx u du [Hq Hv] _ i Hi d'. destruct (fly_inv id slope d Hd) as (H1 & H2 & H3).
    rewrite (mv_zero nu) by (intros; apply H1). rewrite Rplus_0_r.
    set (q := xq nq (c 0)). set (v := xv nq nv (c 0)).
    set (A := sR (p_place P id q)). set (e0 := exp (- sp (p_place P id q) 2%nat * slope)).
    set (w := fun k => dx (nv + k)%nat).
    set (dq := p_dvel_dq P LOCAL id q q v q). set (dv := p_jac P LOCAL id q q).
    set (vl := p_vel P LOCAL id q q v).
    (* the stored blocks *)
    set (Bq := fun i j : nat => (mmul 3 A (fun i j => mmul 3 (skew (fun k => - vl k)) (bottom3 dv) i j + dq i j) i j) * e0
                 - fly_value id slope (c 0) i * slope * mmul 3 A dv 2%nat j).
    set (Bv := fun i j : nat => mmul 3 A dv i j * e0).
    assert (Dv : forall i j, (i < 6)%nat -> (j < nv)%nat ->
      get_dvel_dv P LOCAL id (fk_derivatives q v (update_frame id (fwd_kin_v q v (m_pc d)))) (m_fJf2 d) i j = dv i j).
    { intros k j Hk Hj. unfold get_dvel_dv, support_set. cbn. destruct (p_supp P id j) eqn:S.
      - now apply (ok_dvel_dv _ _ _ HP).
      - rewrite H3 by auto. symmetry. now apply (ok_supp _ _ _ HP). }
    assert (Dq : forall i j, (i < 6)%nat -> (j < nv)%nat ->
      get_dvel_dq P LOCAL id (fk_derivatives q v (update_frame id (fwd_kin_v q v (m_pc d)))) (m_fJf d) i j = dq i j).
    { intros k j Hk Hj. unfold get_dvel_dq, support_set. cbn. destruct (p_supp P id j) eqn:S.
      - reflexivity.
      - rewrite H2 by auto. symmetry. now apply (ok_supp_v _ _ _ HP). }
    assert (Ef : forall dd, frame P id (fk_derivatives q v (update_frame id (fwd_kin_v q v dd))) = p_place P id q)
      by (intros; unfold frame; cbn; now rewrite Nat.eqb_refl).
    assert (Eg : forall dd, frame P id (update_frame id (fwd_kin_v q v dd)) = p_place P id q)
      by (intros; unfold frame; cbn; now rewrite Nat.eqb_refl).
    assert (JA : forall j, (j < nv)%nat -> m_Jx d' i j = Bq i j).
    { intros j Hj. unfold d'. cbn [mj me fly_high m_Jx m_pc m_value m_ez m_fJf m_fJf2]. fold q v. rewrite Ef, Eg. fold A e0.
      assert (Ei : (i = 0 \/ i = 1)%nat) by lia.
      assert (M : forall i, (i < 3)%nat -> mmul 3 A (fun i0 j0 => mmul 3 (skew (fun k => - get_vel P LOCAL id (fk_derivatives q v (update_frame id (fwd_kin_v q v (m_pc d)))) k))
             (bottom3 (get_dvel_dv P LOCAL id (fk_derivatives q v (update_frame id (fwd_kin_v q v (m_pc d)))) (m_fJf2 d))) i0 j0 +
             get_dvel_dq P LOCAL id (fk_derivatives q v (update_frame id (fwd_kin_v q v (m_pc d)))) (m_fJf d) i0 j0) i j =
             mmul 3 A (fun i0 j0 => mmul 3 (skew (fun k => - vl k)) (bottom3 dv) i0 j0 + dq i0 j0) i j).
      { intros k Hk. unfold mmul at 1 3. apply rsum_ext. intros l Hl. f_equal. f_equal; [|apply Dq; lia].
        unfold mmul. apply rsum_ext. intros m Hm. unfold bottom3. rewrite Dv by lia. reflexivity. }
      assert (N : mmul 3 A (top (get_dvel_dv P LOCAL id (fk_derivatives q v (update_frame id (fwd_kin_v q v (m_pc d)))) (m_fJf2 d))) 2%nat j = mmul 3 A dv 2%nat j).
      { unfold mmul, top. apply rsum_ext. intros l Hl. rewrite Dv by lia. reflexivity. }
      unfold Bq, fly_value, pos_of. fold q v. fold e0. rewrite <- N. rewrite <- (M i) by lia.
      destruct Ei as [-> | ->]; unfold bset; seg_cases; rewrite ?Nat.sub_0_r; rewrite right_out, left_in by lia; reflexivity. }
    assert (JB : forall j, (j < nv)%nat -> m_Jx d' i (nv + j)%nat = Bv i j).
    { intros j Hj. unfold d'. cbn [mj me fly_high m_Jx m_pc m_value m_ez m_fJf m_fJf2]. fold q v. rewrite Ef, Eg. fold A e0.
      unfold Bv. unfold bset at 1. seg_cases. all: unfold bset at 1; seg_cases; rewrite right_in by lia; f_equal;
        unfold mmul, top; apply rsum_ext; intros l Hl; rewrite Dv by lia; reflexivity. }
    rewrite (mv_both nv 2 _ Bq Bv) by auto. fold w.
    assert (Hm := ok_move _ _ _ HP id _ _ Hq). cbv beta in Hm. fold q in Hm.
    assert (Hl : forall k, (k < 3)%nat -> derivable_pt_lim (fun t => p_vel P LOCAL id (xq nq (c t)) (xq nq (c t)) (xv nq nv (c t)) k) 0
                   (mv nv dq dx k + mv nv dv w k)).
    { intros k Hk. eapply dl_eq; [|apply (ok_dvel _ _ _ HP LOCAL id _ _ _ _ Hq Hv k); lia].
      cbv beta. fold q v dq w. f_equal. apply rsum_ext. intros j Hj. f_equal. apply (ok_dvel_dv _ _ _ HP); lia. }
    eapply dl_eq; cycle 1.
    + unfold fly_value. apply (dl_mult (fun t => p_vel P LWA id (xq nq (c t)) (xq nq (c t)) (xv nq nv (c t)) i)).
      * apply (dl_ext (fun t => mv 3 (sR (p_place P id (xq nq (c t)))) (p_vel P LOCAL id (xq nq (c t)) (xq nq (c t)) (xv nq nv (c t))) i)).
        -- intros t. rewrite (ok_vel_local _ _ _ HP) by lia. reflexivity.
        -- apply (dl_mv3 _ _ _ Hm); [lia|exact Hl].
      * apply (dl_comp (fun t => - sp (pos_of id (c t)) 2%nat * slope) exp).
        -- apply (dl_mult (fun t => - sp (pos_of id (c t)) 2%nat) (fun _ => slope)); [|apply dl_const].
           apply dl_opp. apply (proj1 Hm). lia.
        -- apply derivable_pt_lim_exp.
    + cbv beta. unfold pos_of. fold q v. fold e0 vl A.
      rewrite (jac_lin_local id q dx 2) by lia.
      rewrite (cross_ext _ (mv 3 A vl) (mv 3 A (ang (mv nv dv dx))) (mv 3 A vl)) by
        (auto; intros k Hk; unfold ang at 1; now apply jac_ang_local).
      assert (HA : rotation A) by apply (ok_rot _ _ _ HP).
      rewrite <- (proj2 HA) by lia.
      assert (Q : mv nv Bq dx i = (mv 3 A (cross (ang (mv nv dv dx)) vl) i + mv 3 A (mv nv dq dx) i) * e0
                  - p_vel P LWA id q q v i * e0 * slope * mv 3 A (mv nv dv dx) 2%nat).
      { unfold Bq, fly_value, pos_of. fold q v e0.
        transitivity (mv nv (mmul 3 A (fun i0 j0 => mmul 3 (skew (fun k => - vl k)) (bottom3 dv) i0 j0 + dq i0 j0)) dx i * e0
          - p_vel P LWA id q q v i * e0 * slope * mv nv (mmul 3 A dv) dx 2%nat).
        - unfold mv. apply (rsum_lin nv (mmul 3 A (fun i0 j0 => mmul 3 (skew (fun k => - vl k)) (bottom3 dv) i0 j0 + dq i0 j0) i)).
        - rewrite !mv_mmul. f_equal. f_equal.
          transitivity (mv 3 A (fun k => mv 3 (skew (fun k => - vl k)) (mv nv (bottom3 dv) dx) k + mv nv dq dx k) i).
          + apply mv3_ext. intros k Hk. rewrite <- mv_mmul. unfold mv. rewrite <- rsum_plus. apply rsum_ext. intros; ring.
          + transitivity (mv 3 A (fun k => cross (ang (mv nv dv dx)) vl k + mv nv dq dx k) i).
            * apply mv3_ext. intros k Hk. f_equal. change (mv nv (bottom3 dv) dx) with (ang (mv nv dv dx)).
              generalize (ang (mv nv dv dx)). intros a. three Hk; cbv [mv rsum skew m3 cross]; ring.
            * generalize (cross (ang (mv nv dv dx)) vl) (mv nv dq dx). intros a b. cbv [mv rsum]. ring. }
      rewrite Q.
      assert (V : mv nv Bv w i = mv 3 A (mv nv dv w) i * e0).
      { rewrite <- mv_mmul. unfold mv, Bv. rewrite (Rmult_comm _ e0), <- rsum_scale. apply rsum_ext. intros; ring. }
      rewrite V. change (sR (p_place P id q)) with A. fold dv.
      generalize (cross (ang (mv nv dv dx)) vl) (mv nv dq dx) (mv nv dv w) (mv nv dv dx). intros a b w' g.
      cbv [mv rsum]. ring.
Qed.

(** centre of mass *)
Lemma com_inv pref d : mreach (com_translation P nq nv pref) d -> inv_left (fun _ => true) (fun _ => true) d.
Proof.
  apply reach_inv.
  - intros c M e. repeat split; try (intros i j **; reflexivity).
  - intros x u e H. exact H.
  - intros x u e (H1 & H2 & H3 & H4). repeat split; simpl; auto. intros i j Hj. rewrite left_out; auto.
Qed.
Lemma com_translation_ok pref ndx nu : (nv <= ndx)%nat ->
  mcomputes nq nv ndx nu 3 tq everywhere (com_translation P nq nv pref) (fun x => vsub (p_com P (xq nq x)) pref).
Proof.
  intros Hn d Hd. split; [reflexivity|].
  intros c dx u du [Hq Hv] _ i Hi d'. destruct (com_inv pref d Hd) as (H1 & H2 & H3 & H4).
  rewrite (mv_zero nu) by (intros; apply H1). rewrite Rplus_0_r.
  subst d'. simpl. rewrite mv_left by auto. unfold vsub. apply dl_sub. now apply (ok_com _ _ _ HP _ _ Hq).
Qed.
Lemma ju_inv s : (forall x u d, m_Ju (me s x u d) = m_Ju d) -> (forall x u d, m_Ju (mj s x u d) = m_Ju d) ->
  forall d, mreach s d -> inv_ju d.
Proof.
  intros E1 E2. apply reach_inv.
  - intros c M e i j. reflexivity.
  - intros x u e H i j. rewrite E1. apply H.
  - intros x u e H i j. rewrite E2. apply H.
Qed.
Lemma com_velocity_ok vref nu :
  mcomputes nq nv (2 * nv) nu 3 tq everywhere (com_velocity P nq nv (2 * nv) vref)
    (fun x => vsub (p_vcom P (xq nq x) (xv nq nv x)) vref).
Proof.
  intros d Hd. split; [reflexivity|].
  intros c dx u du [Hq Hv] _ i Hi d'.
  assert (H1 := ju_inv (com_velocity P nq nv (2 * nv) vref) ltac:(reflexivity) ltac:(reflexivity) d Hd).
  rewrite (mv_zero nu) by (intros; apply H1). rewrite Rplus_0_r.
  rewrite (mv_both nv 3 _ (p_dvcom P (Some (xq nq (c 0), xv nq nv (c 0))) (xq nq (c 0)) (xq nq (c 0)) (xv nq nv (c 0))) (p_Jcom P (xq nq (c 0)))); auto.
  - unfold vsub. apply dl_sub. now apply (ok_vcom _ _ _ HP _ _ _ _ Hq Hv).
  - intros j Hj. unfold d'. cbn [mj me com_velocity m_Jx]. rewrite right_out, left_in by auto. reflexivity.
  - intros j Hj. unfold d'. cbn [mj me com_velocity m_Jx]. rewrite right_in by auto. reflexivity.
Qed.
Lemma dcm_position_ok ref alpha nu :
  mcomputes nq nv (2 * nv) nu 3 tq everywhere (dcm_position P nq nv (2 * nv) ref alpha)
    (fun x i => p_com P (xq nq x) i + alpha * p_vcom P (xq nq x) (xv nq nv x) i - ref i).
Proof.
  intros d Hd. split; [reflexivity|].
  intros c dx u du [Hq Hv] _ i Hi d'.
  assert (H1 := ju_inv (dcm_position P nq nv (2 * nv) ref alpha) ltac:(reflexivity) ltac:(reflexivity) d Hd).
  rewrite (mv_zero nu) by (intros; apply H1). rewrite Rplus_0_r.
  set (q := xq nq (c 0)). set (v := xv nq nv (c 0)).
  rewrite (mv_both nv 3 _ (fun i j => p_Jcom P q i j + alpha * p_dvcom P (Some (q, v)) q q v i j) (fun i j => alpha * p_Jcom P q i j)); auto.
  - eapply dl_eq; [|apply dl_sub, dl_plus; [now apply (ok_com _ _ _ HP _ _ Hq)|apply dl_scal; now apply (ok_vcom _ _ _ HP _ _ _ _ Hq Hv)]].
    cbv beta. fold q v. unfold mv. rewrite Rmult_plus_distr_l, <- !rsum_scale, <- Rplus_assoc, <- !rsum_plus.
    apply rsum_ext; intros; ring.
  - intros j Hj. unfold d'. cbn [mj me dcm_position m_Jx]. rewrite right_out, left_in by auto. reflexivity.
  - intros j Hj. unfold d'. cbn [mj me dcm_position m_Jx]. rewrite right_in by auto. reflexivity.
Qed.
Lemma xtail_xv x i : (i < nv)%nat -> xtail nv (nq + nv) x i = xv nq nv x i.
Proof. intros H. unfold xtail, xv. destruct (Nat.ltb_spec i nv); [|lia]. f_equal. lia. Qed.
Lemma centroidal_momentum_ok href nu :
  mcomputes nq nv (2 * nv) nu 6 tq everywhere (centroidal_momentum P nq nv (nq + nv) (2 * nv) href)
    (fun x => vsub (mv nv (p_Ag P (xq nq x)) (xv nq nv x)) href).
Proof.
  intros d Hd. split.
  - intros x u i Hi. simpl. unfold vsub. f_equal. apply mv_ext; auto. intros. now apply xtail_xv.
  - intros c dx u du [Hq Hv] _ i Hi d'.
    assert (H1 := ju_inv (centroidal_momentum P nq nv (nq + nv) (2 * nv) href) ltac:(reflexivity) ltac:(reflexivity) d Hd).
    rewrite (mv_zero nu) by (intros; apply H1). rewrite Rplus_0_r.
    set (q := xq nq (c 0)).
    rewrite (mv_both nv 6 _ (p_dh_dq P q (xtail nv (nq + nv) (c 0))) (p_Ag P q)); auto.
    + unfold vsub. apply dl_sub.
      apply (dl_ext (fun t => mv nv (p_Ag P (xq nq (c t))) (xtail nv (nq + nv) (c t)) i)).
      * intros t. apply mv_ext; auto. intros. now apply xtail_xv.
      * apply (ok_mom _ _ _ HP _ _ (fun t => xtail nv (nq + nv) (c t)) _ Hq); auto.
        intros k Hk. apply (dl_ext (fun t => xv nq nv (c t) k)); [intros; now rewrite xtail_xv|now apply Hv].
    + intros j Hj. unfold d'. cbn [mj me centroidal_momentum m_Jx]. rewrite right_out, left_in by auto. reflexivity.
    + intros j Hj. unfold d'. cbn [mj me centroidal_momentum m_Jx]. rewrite right_in by auto. reflexivity.
Qed.

(** frame collision *)
Definition inv_col (id1 id2 : nat) (d : mdata) : Prop :=
  inv_ju d /\ zero_out (p_supp P id1) (m_fJf d) /\ zero_out (p_supp P id2) (m_fJf2 d).
Lemma collision_inv id1 id2 dist np1 np2 normal d : mreach (frame_collision P nq nv id1 id2 dist np1 np2 normal) d ->
  inv_col id1 id2 d.
Proof.
  apply reach_inv.
  - intros c M e. repeat split; try (intros i j **; reflexivity).
  - intros x u e H. exact H.
  - intros x u e (H1 & H2 & H3). split; [exact H1|]. split; apply mmul_zero_out; now apply supp_zero_out.
Qed.
Lemma transl_action p w k : (k < 3)%nat -> mv 6 (action_inverse (SE3 ident p)) w k = w k + cross (ang w) p k.
Proof.
  intros Hk. rewrite action_inv_lin by auto. cbn [sR sp]. three Hk; cbv [mv rsum transp ident Nat.eqb vsub cross ang]; ring.
Qed.
Lemma frame_collision_ok id1 id2 dist np1 np2 normal ndx nu : (nv <= ndx)%nat ->
  dist_ok P nv tq id1 id2 dist np1 np2 normal ->
  mcomputes nq nv ndx nu 1 tq everywhere (frame_collision P nq nv id1 id2 dist np1 np2 normal) (fun x _ => dist (xq nq x)).
Proof.
  intros Hn HD d Hd. split.
  - intros x u i Hi. assert (i = 0)%nat by lia. subst i. reflexivity.
  - intros c dx u du [Hq Hv] _ i Hi d'. destruct (collision_inv _ _ _ _ _ _ d Hd) as (H1 & H2 & H3).
    rewrite (mv_zero nu) by (intros; apply H1). rewrite Rplus_0_r.
    set (q := xq nq (c 0)). unfold d'. cbn [mj me frame_collision m_Jx m_pc m_value m_fJf m_fJf2].
    rewrite mv_left by (auto; intros; reflexivity).
    eapply dl_eq; [|exact (HD _ _ Hq)]. cbv beta zeta. unfold frame.
    change (c_oMf (update_frames (fwd_kin (xq nq (c 0)) (m_pc d)))) with (fun _ : nat => q). cbv beta. fold q.
    set (f2 := mmul 6 _ _). set (f1 := mmul 6 _ _).
    assert (L : forall id np f, (exists B, zero_out (p_supp P id) B /\
       f = mmul 6 (action_inverse (SE3 ident (vsub np (sp (p_place P id q))))) (get_jac P LWA id (joint_jacobians (update_frames (fwd_kin q (m_pc d)))) B)) ->
      forall k, (k < 3)%nat -> mv nv f dx k =
        point_velocity (mv nv (p_jac P LWA id q q) dx) (ang (mv nv (p_jac P LWA id q q) dx)) (sp (p_place P id q)) np k).
    { intros id np f (B & HB & ->) k Hk. rewrite mv_mmul, transl_action by auto.
      assert (E : forall k, (k < 6)%nat -> mv nv (get_jac P LWA id (joint_jacobians (update_frames (fwd_kin q (m_pc d)))) B) dx k =
                  mv nv (p_jac P LWA id q q) dx k) by (intros; apply mv_ext; auto; intros; now apply get_jac_val).
      unfold point_velocity. rewrite E by lia. f_equal. apply cross_ext; auto. intros l Hl. unfold ang. apply E. lia. }
    rewrite (rsum_ext 3 _ (fun k => normal q k * (mv nv f2 dx k - mv nv f1 dx k))).
    + symmetry. unfold mv. rewrite (rsum_ext nv _ (fun j => rsum 3 (fun k => normal q k * ((f2 k j - f1 k j) * dx j)))).
      * rewrite rsum_swap. apply rsum_ext. intros k Hk. rewrite rsum_scale. f_equal. apply mv_msub.
      * intros j Hj. cbv beta. rewrite (Rmult_comm _ (dx j)), <- rsum_scale. apply rsum_ext. intros; ring.
    + intros k Hk. rewrite (L id1 (np1 q) f1), (L id2 (np2 q) f2); auto; eexists; (split; [|reflexivity]); auto.
Qed.
End Proofs.

(** ** Theorems *)
(** For every robot whose Pinocchio routines are right ([pin_ok]), every size and reference:
    from any reachable data evaluate stores the residual and computeJacobians, after it, its
    derivative along every curve of states. *)
Theorem C56_frame_translation : forall P nq nv tq id pref ndx nu, pin_ok P nv tq -> (nv <= ndx)%nat ->
  mcomputes nq nv ndx nu 3 tq everywhere (frame_translation P nq nv id pref) (fun x => vsub (sp (pos_of P nq id x)) pref).
Proof. intros. now apply frame_translation_ok. Qed.
Theorem C56_frame_velocity : forall P nq nv tq id rf vref nu, pin_ok P nv tq ->
  mcomputes nq nv (2 * nv) nu 6 tq everywhere (frame_velocity P nq nv (2 * nv) id rf vref)
    (fun x => vsub (p_vel P rf id (xq nq x) (xq nq x) (xv nq nv x)) vref).
Proof. intros. now apply frame_velocity_ok. Qed.
Theorem C56_fly_high : forall P nq nv tq id slope nu, pin_ok P nv tq ->
  mcomputes nq nv (2 * nv) nu 2 tq everywhere (fly_high P nq nv (2 * nv) id slope) (fly_value P nq nv id slope).
Proof. intros. now apply fly_high_ok. Qed.
(** where log6 is differentiable *)
Theorem C56_frame_placement : forall P nq nv tq id ref ndx nu, pin_ok P nv tq -> (nv <= ndx)%nat -> rotation (sR ref) ->
  let err x := se3_act (se3_inverse ref) (pos_of P nq id x) in
  mcomputes nq nv ndx nu 6 tq (fun x => log_ok P (err x)) (frame_placement P nq nv id ref) (fun x => p_log6 P (err x)).
Proof. intros. now apply frame_placement_ok. Qed.
(** the placement of frame 2 in frame 1, relative to the reference *)
Theorem C56_frame_equality : forall P nq nv tq id1 id2 ref ndx nu, pin_ok P nv tq -> (nv <= ndx)%nat -> rotation (sR ref) ->
  let err x := se3_act_inv (se3_act (pos_of P nq id1 x) ref) (pos_of P nq id2 x) in
  mcomputes nq nv ndx nu 6 tq (fun x => log_ok P (err x)) (frame_equality P nq nv id1 id2 ref) (fun x => p_log6 P (err x)).
Proof. intros. now apply frame_equality_ok. Qed.
Theorem C56_com_translation : forall P nq nv tq pref ndx nu, pin_ok P nv tq -> (nv <= ndx)%nat ->
  mcomputes nq nv ndx nu 3 tq everywhere (com_translation P nq nv pref) (fun x => vsub (p_com P (xq nq x)) pref).
Proof. intros. now apply com_translation_ok. Qed.
Theorem C56_com_velocity : forall P nq nv tq vref nu, pin_ok P nv tq ->
  mcomputes nq nv (2 * nv) nu 3 tq everywhere (com_velocity P nq nv (2 * nv) vref)
    (fun x => vsub (p_vcom P (xq nq x) (xv nq nv x)) vref).
Proof. intros. now apply com_velocity_ok. Qed.
Theorem C56_dcm_position : forall P nq nv tq ref alpha nu, pin_ok P nv tq ->
  mcomputes nq nv (2 * nv) nu 3 tq everywhere (dcm_position P nq nv (2 * nv) ref alpha)
    (fun x i => p_com P (xq nq x) i + alpha * p_vcom P (xq nq x) (xv nq nv x) i - ref i).
Proof. intros. now apply dcm_position_ok. Qed.
Theorem C56_centroidal_momentum : forall P nq nv tq href nu, pin_ok P nv tq ->
  mcomputes nq nv (2 * nv) nu 6 tq everywhere (centroidal_momentum P nq nv (nq + nv) (2 * nv) href)
    (fun x => vsub (mv nv (p_Ag P (xq nq x)) (xv nq nv x)) href).
Proof. intros. now apply centroidal_momentum_ok. Qed.
Theorem C56_frame_collision : forall P nq nv tq id1 id2 dist np1 np2 normal ndx nu, pin_ok P nv tq -> (nv <= ndx)%nat ->
  dist_ok P nv tq id1 id2 dist np1 np2 normal ->
  mcomputes nq nv ndx nu 1 tq everywhere (frame_collision P nq nv id1 id2 dist np1 np2 normal) (fun x _ => dist (xq nq x)).
Proof. intros. now apply frame_collision_ok. Qed.

(** ** Example: a cart on the x axis (frame 0) carrying a pendulum about the x axis.
    q = (position, angle); frame id > 0 is at distance id along the pendulum; the whole mass,
    one kilogram, is at frame 1. *)
Definition ex_tq : tangent := fun g w => forall i, (i < 2)%nat -> derivable_pt_lim (fun t => g t i) 0 (w i).
Definition v3 (a b c : R) : vec := fun k => match k with 0%nat => a | 1%nat => b | 2%nat => c | _ => 0 end.
Definition v6 (a b c d e f : R) : vec := fun k =>
  match k with 0%nat => a | 1%nat => b | 2%nat => c | 3%nat => d | 4%nat => e | 5%nat => f | _ => 0 end.
Definition cols2 (a b : vec) : mtx := fun i j => match j with 0%nat => a i | 1%nat => b i | _ => 0 end.
Definition ex_len (id : nat) : R := INR id.
Definition ex_place (id : nat) (q : vec) : se3 :=
  match id with
  | 0%nat => SE3 ident (v3 (q 0%nat) 0 0)
  | _ => SE3 (m3 1 0 0 0 (cos (q 1%nat)) (- sin (q 1%nat)) 0 (sin (q 1%nat)) (cos (q 1%nat)))
             (v3 (q 0%nat) (ex_len id * cos (q 1%nat)) (ex_len id * sin (q 1%nat)))
  end.
Definition ex_jac (rf : rframe) (id : nat) (q : vec) : mtx :=
  let cart := v6 1 0 0 0 0 0 in
  match id with
  | 0%nat => cols2 cart vzero
  | _ => match rf with
         | LOCAL => cols2 cart (v6 0 0 (ex_len id) 1 0 0)
         | WORLD => cols2 cart (v6 0 0 0 1 0 0)
         | LWA => cols2 cart (v6 0 (- ex_len id * sin (q 1%nat)) (ex_len id * cos (q 1%nat)) 1 0 0)
         end
  end.
Definition ex_vel (rf : rframe) (id : nat) (q v : vec) : vec := fun i => ex_jac rf id q i 0%nat * v 0%nat + ex_jac rf id q i 1%nat * v 1%nat.
Definition ex_dvel_dq (rf : rframe) (id : nat) (q v : vec) : mtx :=
  match id, rf with
  | S _, LWA => cols2 vzero (v6 0 (- ex_len id * cos (q 1%nat) * v 1%nat) (- ex_len id * sin (q 1%nat) * v 1%nat) 0 0 0)
  | _, _ => mzero
  end.
Definition ex_com (q : vec) : vec := v3 (q 0%nat) (cos (q 1%nat)) (sin (q 1%nat)).
Definition ex_Jcom (q : vec) : mtx := cols2 (v3 1 0 0) (v3 0 (- sin (q 1%nat)) (cos (q 1%nat))).
Definition ex_vcom (q v : vec) : vec := v3 (v 0%nat) (- sin (q 1%nat) * v 1%nat) (cos (q 1%nat) * v 1%nat).
Definition ex_dvcom (q v : vec) : mtx := cols2 vzero (v3 0 (- cos (q 1%nat) * v 1%nat) (- sin (q 1%nat) * v 1%nat)).
(** exact at the identity rotation *)
Definition ex_log6 (M : se3) : vec :=
  v6 (sp M 0%nat) (sp M 1%nat) (sp M 2%nat)
     ((sR M 2%nat 1%nat - sR M 1%nat 2%nat) / 2) ((sR M 0%nat 2%nat - sR M 2%nat 0%nat) / 2) ((sR M 1%nat 0%nat - sR M 0%nat 1%nat) / 2).
Definition ex_pin : pin :=
  Pin ex_place (fun id j => match id with 0%nat => Nat.eqb j 0 | _ => true end)
    (fun rf id q _ => ex_jac rf id q) (fun rf id q _ v => ex_vel rf id q v)
    (fun rf id q _ v _ => ex_dvel_dq rf id q v) (fun rf id q _ _ _ => ex_jac rf id q)
    ex_com ex_vcom ex_Jcom (fun _ q _ v => ex_dvcom q v)
    ex_Jcom ex_dvcom ex_log6 (fun _ => ident).

Lemma dl_cos f a : derivable_pt_lim f 0 a -> derivable_pt_lim (fun t => cos (f t)) 0 (- sin (f 0) * a).
Proof. intros. apply (dl_comp f cos); auto. apply derivable_pt_lim_cos. Qed.
Lemma dl_sin f a : derivable_pt_lim f 0 a -> derivable_pt_lim (fun t => sin (f t)) 0 (cos (f 0) * a).
Proof. intros. apply (dl_comp f sin); auto. apply derivable_pt_lim_sin. Qed.
(** differentiate and compare *)
Ltac dl_go := first
  [ eassumption | apply dl_const | eapply dl_plus; dl_go | eapply dl_minus; dl_go | eapply dl_opp; dl_go
  | eapply dl_cos; dl_go | eapply dl_sin; dl_go | eapply (dl_mult (fun _ => _)); dl_go ].
Ltac dl := eapply dl_eq; [|dl_go]; cbv beta; try ring.

Lemma ex_rotation id q : rotation (sR (ex_place id q)).
Proof.
  assert (E : sin (q 1%nat) * sin (q 1%nat) + cos (q 1%nat) * cos (q 1%nat) = 1) by apply sin2_cos2.
  apply cof_rotation; destruct id; cbn [ex_place sR].
  - cbv [cof ident Nat.eqb]. repeat split; ring.
  - cbv [cof m3]. repeat split; try ring; lra.
  - intros i j Hi Hj. three Hi; three Hj; cbv [rsum ident Nat.eqb]; ring.
  - intros i j Hi Hj. three Hi; three Hj; cbv [rsum ident m3 Nat.eqb]; lra.
Qed.
Lemma lt6 i : (i < 6)%nat -> i = 0%nat \/ i = 1%nat \/ i = 2%nat \/ i = 3%nat \/ i = 4%nat \/ i = 5%nat. Proof. lia. Qed.
Ltac six H := destruct (lt6 _ H) as [-> | [-> | [-> | [-> | [-> | ->]]]]].
Lemma lt2 i : (i < 2)%nat -> i = 0%nat \/ i = 1%nat. Proof. lia. Qed.
Ltac two H := destruct (lt2 _ H) as [-> | ->].
Lemma ex_pin_ok : pin_ok ex_pin 2 ex_tq.
Proof.
  constructor; cbn [p_place p_supp p_jac p_vel p_dvel_dq p_dvel_dv p_com p_vcom p_Jcom p_dvcom p_Ag p_dh_dq p_log6 p_Jlog6 ex_pin].
  - intros. apply ex_rotation.
  - intros rf id q j Hj S i Hi. destruct id; [|discriminate]. two Hj; [discriminate|]. reflexivity.
  - intros rf id q v j Hj S i Hi. destruct id; [|discriminate]. two Hj; [discriminate|]. reflexivity.
  - intros id g w H. pose proof (H 0%nat ltac:(lia)) as G0. pose proof (H 1%nat ltac:(lia)) as G1. cbv beta in G0, G1. split.
    + intros i Hi. destruct id; cbn [ex_place sp ex_jac]; three Hi; cbv [mv rsum cols2 v3 v6 vzero]; dl.
    + intros i j Hi Hj. destruct id; cbn [ex_place sR ex_jac]; three Hi; three Hj; cbv [mv rsum cols2 v6 vzero ident Nat.eqb m3 cross ang col Nat.add]; dl.
  - intros id q i j Hi Hj.
    assert (E : sin (q 1%nat) * sin (q 1%nat) + cos (q 1%nat) * cos (q 1%nat) = 1) by apply sin2_cos2.
    destruct id; cbn [ex_place sR ex_jac]; three Hi; two Hj; cbv [rsum cols2 v6 vzero ident Nat.eqb m3 Nat.add]; split; ring.
  - intros id q i j Hi Hj. destruct id; cbn [ex_place sp ex_jac]; three Hi; two Hj; cbv [cols2 v6 v3 vzero cross ang col Nat.add]; split; ring.
  - intros id q v i Hi. unfold ex_vel.
    destruct id; cbn [ex_place sR ex_jac]; three Hi; cbv [rsum cols2 v6 vzero ident Nat.eqb m3 Nat.add]; ring.
  - intros rf id g w v a H Hv i Hi.
    pose proof (H 0%nat ltac:(lia)) as G0. pose proof (H 1%nat ltac:(lia)) as G1. cbv beta in G0, G1.
    pose proof (Hv 0%nat ltac:(lia)) as V0. pose proof (Hv 1%nat ltac:(lia)) as V1. cbv beta in V0, V1.
    unfold ex_vel. destruct id, rf; cbn [ex_jac ex_dvel_dq]; six Hi; cbv [mv rsum cols2 v6 vzero mzero]; dl.
  - reflexivity.
  - intros g w H i Hi. pose proof (H 0%nat ltac:(lia)) as G0. pose proof (H 1%nat ltac:(lia)) as G1. cbv beta in G0, G1.
    three Hi; cbv [ex_com ex_Jcom mv rsum cols2 v3]; dl.
  - intros g w v a H Hv i Hi.
    pose proof (H 0%nat ltac:(lia)) as G0. pose proof (H 1%nat ltac:(lia)) as G1. cbv beta in G0, G1.
    pose proof (Hv 0%nat ltac:(lia)) as V0. pose proof (Hv 1%nat ltac:(lia)) as V1. cbv beta in V0, V1.
    three Hi; cbv [ex_vcom ex_dvcom ex_Jcom mv rsum cols2 v3 vzero]; dl.
  - intros g w v a H Hv i Hi.
    pose proof (H 0%nat ltac:(lia)) as G0. pose proof (H 1%nat ltac:(lia)) as G1. cbv beta in G0, G1.
    pose proof (Hv 0%nat ltac:(lia)) as V0. pose proof (Hv 1%nat ltac:(lia)) as V1. cbv beta in V0, V1.
    six Hi; cbv [ex_dvcom ex_Jcom mv rsum cols2 v3 vzero]; dl.
Qed.
(** log6 near the identity rotation *)
Lemma ex_log_ok M0 : (forall i j, (i < 3)%nat -> (j < 3)%nat -> sR M0 i j = ident i j) -> log_ok ex_pin M0.
Proof.
  intros HI M xi E _ [H1 H2] i Hi. rewrite E in H2.
  assert (K : forall y k, (k < 3)%nat -> mv 3 (sR M0) y k = y k).
  { intros y k Hk. rewrite (mv_ext 3 _ ident y y) by auto. three Hk; cbv [mv rsum ident Nat.eqb]; ring. }
  assert (D : forall k l, (k < 3)%nat -> (l < 3)%nat -> derivable_pt_lim (fun t => sR (M t) k l) 0 (cross (ang xi) (col ident l) k)).
  { intros k l Hk Hl. eapply dl_eq; [|apply H2; auto]. apply cross_ext; auto. intros n Hn. unfold col. auto. }
  assert (D1 : forall k, (k < 3)%nat -> derivable_pt_lim (fun t => sp (M t) k) 0 (xi k)).
  { intros k Hk. eapply dl_eq; [|apply H1; auto]. auto. }
  cbn [p_log6 p_Jlog6 ex_pin].
  assert (X : forall k l m n, (k < 3)%nat -> (l < 3)%nat -> (m < 3)%nat -> (n < 3)%nat ->
    derivable_pt_lim (fun t => (sR (M t) k l - sR (M t) m n) / 2) 0 ((cross (ang xi) (col ident l) k - cross (ang xi) (col ident n) m) * / 2)).
  { intros. apply (dl_ext (fun t => / 2 * (sR (M t) k l - sR (M t) m n))); [intros; unfold Rdiv; ring|].
    eapply dl_eq; [apply Rmult_comm|]. apply dl_scal, dl_minus; auto. }
  six Hi; cbv [ex_log6 v6]; (eapply dl_eq; [|first [apply D1; lia | apply X; lia]]); cbv [mv rsum ident Nat.eqb cross ang col Nat.add]; field.
Qed.
Definition ex_curve (t : R) : vec := fun i => match i with 0%nat => 1 + t | 1%nat => 2 * t | 2%nat => 3 | 3%nat => 1 - t | _ => 0 end.
Definition ex_dx : vec := fun i => match i with 0%nat => 1 | 1%nat => 2 | 2%nat => 0 | 3%nat => -1 | _ => 0 end.
Lemma ex_curve_tang : xtang 2 2 ex_tq ex_curve ex_dx.
Proof.
  assert (A : derivable_pt_lim (fun t => t) 0 1) by apply derivable_pt_lim_id.
  split; intros i Hi; two Hi; cbv [xq xv Nat.ltb Nat.leb ex_curve ex_dx Nat.add]; dl.
Qed.
(** the residuals on this robot, along a curve: fly high at foot 2, and the placement error
    of frame 1 to where it stands *)
Example C56_example :
  let s := fly_high ex_pin 2 2 4 2 3 in
  forall c M e, let d := mj s (ex_curve 0) vzero (me s (ex_curve 0) vzero (mdata0 c M e)) in
  derivable_pt_lim (fun t => ex_vel LWA 2 (ex_curve t) (xv 2 2 (ex_curve t)) 1%nat * exp (- (2 * sin (2 * t)) * 3)) 0
    (mv 4 (m_Jx d) ex_dx 1%nat) /\ mv 4 (m_Jx d) ex_dx 1%nat = - 4.
Proof.
  intros s c M e d.
  destruct (C56_fly_high ex_pin 2 2 ex_tq 2 3 0 ex_pin_ok (mdata0 c M e) (MR0 _ c M e)) as [_ H].
  pose proof (H ex_curve ex_dx vzero vzero ex_curve_tang I 1%nat ltac:(lia)) as G. cbv zeta in G.
  change (mv 0 _ vzero 1%nat) with 0 in G. rewrite Rplus_0_r in G.
  assert (G' : derivable_pt_lim (fun t => ex_vel LWA 2 (ex_curve t) (xv 2 2 (ex_curve t)) 1%nat * exp (- (2 * sin (2 * t)) * 3)) 0
    (mv 4 (m_Jx d) ex_dx 1%nat)).
  { eapply dl_ext; [|exact G]. intros t. reflexivity. }
  split; [exact G'|].
  apply (uniqueness_limite _ 0 _ _ G').
  assert (A : derivable_pt_lim (fun t => t) 0 1) by apply derivable_pt_lim_id.
  eapply dl_eq; [|apply (dl_mult (fun t => ex_vel LWA 2 (ex_curve t) (xv 2 2 (ex_curve t)) 1%nat) (fun t => exp (- (2 * sin (2 * t)) * 3)))].
  2:{ cbv [ex_vel ex_jac cols2 v6 ex_curve xv Nat.ltb Nat.leb Nat.add ex_len]. dl_go. }
  2:{ apply (dl_comp (fun t => - (2 * sin (2 * t)) * 3) exp); [dl_go|apply derivable_pt_lim_exp]. }
  cbv [ex_vel ex_jac cols2 v6 ex_curve xv Nat.ltb Nat.leb Nat.add ex_len]. rewrite !Rmult_0_r, sin_0, cos_0.
  replace (- (2 * 0) * 3) with 0 by ring. rewrite exp_0. simpl INR. ring.
Qed.
Example C56_example_placement :
  let ref := ex_place 1 (xq 2 (ex_curve 0)) in
  rotation (sR ref) /\ log_ok ex_pin (se3_act (se3_inverse ref) (pos_of ex_pin 2 1 (ex_curve 0))) /\
  let s := frame_placement ex_pin 2 2 1 ref in
  forall c M e, let d := mj s (ex_curve 0) vzero (me s (ex_curve 0) vzero (mdata0 c M e)) in
  mv 4 (m_Jx d) ex_dx 3%nat = 2.
Proof.
  split; [apply ex_rotation|]. split.
  - apply ex_log_ok. intros i j Hi Hj. cbn [se3_act se3_inverse sR]. apply (proj1 (ex_rotation 1 (xq 2 (ex_curve 0)))); auto.
  - intros s c M e d. unfold d, s. cbn [mj me frame_placement m_Jx m_rM]. rewrite mv_left by (auto; lia).
    cbv [mv mmul rsum get_jac support_set p_supp ex_pin p_jac p_Jlog6 ident ex_jac cols2 v6 ex_dx Nat.eqb]. ring.
Qed.
(** relative placement of the pendulum and the cart *)
Example C56_example_equality :
  let ref := SE3 ident vzero in
  let err x := se3_act_inv (se3_act (pos_of ex_pin 2 0 x) ref) (pos_of ex_pin 2 1 x) in
  rotation (sR ref) /\ log_ok ex_pin (err (ex_curve 0)) /\
  forall t, p_log6 ex_pin (err (ex_curve t)) 1%nat = cos (2 * t).
Proof.
  assert (HI : rotation ident) by (apply (ex_rotation 0 vzero)).
  split; [exact HI|]. split.
  - apply ex_log_ok. intros i j Hi Hj. three Hi; three Hj;
      cbv [se3_act_inv se3_act pos_of p_place ex_pin ex_place sR mmul transp rsum ident m3 Nat.eqb xq Nat.ltb Nat.leb ex_curve];
      rewrite ?Rmult_0_r, ?sin_0, ?cos_0; ring.
  - intros t. cbv [p_log6 ex_pin ex_log6 v6 se3_act_inv se3_act pos_of p_place ex_place sR sp mmul transp rsum ident m3 mv vsub v3 vzero Nat.eqb xq Nat.ltb Nat.leb ex_curve ex_len].
    simpl INR. ring.
Qed.
(** the distance of two points: frames 0 and 1, one metre apart *)
Example C56_example_collision :
  dist_ok ex_pin 2 ex_tq 0 1 (fun _ => 1) (fun q => sp (ex_place 0 q)) (fun q => sp (ex_place 1 q))
    (fun q => v3 0 (cos (q 1%nat)) (sin (q 1%nat))).
Proof.
  intros g w H vel. subst vel.
  eapply dl_eq; [|apply dl_const].
  cbv [rsum point_velocity vsub cross ang mv p_jac ex_pin ex_jac p_place ex_place sp cols2 v6 v3 vzero Nat.add ex_len]. simpl INR. ring.
Qed.

(** ** Refutations *)
(** The constructor of the frame velocity residual accepts ndx > 2 nv (frame-velocity.hxx
    19-22), with states x = (q, v, w).  The derivative with respect to v is then stored in
    the last nv columns instead of those of v. *)
Theorem C56_frame_velocity_extended_refuted :
  exists P nq nv tq ndx, pin_ok P nv tq /\ (2 * nv <= ndx)%nat /\
    ~ mcomputes nq nv ndx 0 6 tq everywhere (frame_velocity P nq nv ndx 1 LWA vzero)
        (fun x => vsub (p_vel P LWA 1 (xq nq x) (xq nq x) (xv nq nv x)) vzero).
Proof.
  exists ex_pin, 2%nat, 2%nat, ex_tq, 6%nat. split; [apply ex_pin_ok|]. split; [lia|]. intros H.
  set (c := fun (t : R) (i : nat) => match i with 2%nat => t | _ => 0 end).
  set (dx := fun i : nat => match i with 2%nat => 1 | _ => 0 end).
  assert (A : derivable_pt_lim (fun t => t) 0 1) by apply derivable_pt_lim_id.
  assert (T : xtang 2 2 ex_tq c dx) by (split; intros i Hi; two Hi; cbv [xq xv Nat.ltb Nat.leb c dx Nat.add]; dl).
  destruct (H _ (MR0 _ (PC vzero vzero vzero (fun _ => vzero) vzero vzero (vzero, vzero) None vzero vzero) (SE3 mzero vzero) 0)) as [_ G].
  clear H. assert (D' : derivable_pt_lim (fun t => vsub (p_vel ex_pin LWA 1 (xq 2 (c t)) (xq 2 (c t)) (xv 2 2 (c t))) vzero 0%nat) 0 1).
  { cbv [vsub p_vel ex_pin ex_vel ex_jac cols2 v6 xv Nat.ltb Nat.leb Nat.add c vzero]. dl. }
  pose proof (G c dx vzero vzero T I 0%nat ltac:(lia)) as D. cbv zeta in D.
  pose proof (uniqueness_limite _ 0 _ _ D D') as E. revert E.
  cbv. intros E. lra.
Qed.
(** frame-equality.hpp 20 documents log6(f1^-1 * ref * f2); the code computes
    log6((f1 * ref)^-1 * f2) *)
Theorem C56_frame_equality_doc_refuted :
  exists P nq nv tq ref, pin_ok P nv tq /\ rotation (sR ref) /\
    ~ (forall d x u i, mreach (frame_equality P nq nv 0 0 ref) d -> (i < 6)%nat ->
         m_value (me (frame_equality P nq nv 0 0 ref) x u d) i =
         p_log6 P (se3_act (se3_act (se3_inverse (pos_of P nq 0 x)) ref) (pos_of P nq 0 x)) i).
Proof.
  exists ex_pin, 2%nat, 2%nat, ex_tq, (SE3 ident (v3 1 0 0)). split; [apply ex_pin_ok|].
  split; [apply (ex_rotation 0 vzero)|]. intros H.
  pose proof (H _ vzero vzero 0%nat (MR0 _ (PC vzero vzero vzero (fun _ => vzero) vzero vzero (vzero, vzero) None vzero vzero) (SE3 mzero vzero) 0) ltac:(lia)) as E.
  revert E. cbv. intros E. lra.
Qed.
