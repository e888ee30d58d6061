(** C58: the robot dynamics satisfy their equations and their Jacobians are derivatives. *)
From Coq Require Import Reals List Lra Lia Arith Bool FunctionalExtensionality.
From Verif Require Import CentroidalModel P_centroidal MbModel P_mb MbForceModel P_mbforce InvDeriv MbDynModel.
Import ListNotations.
Local Open Scope R_scope.

(** ** Specification *)
(** Pinocchio: dhdot_dq and dhdot_dv are the derivatives of the rate of the momentum
    A a + A' v, and the LU routine inverts the block of the base, which is invertible for a
    robot with a floating base *)
Definition hdot_ok (P : pin) (K : kpin) (nv : nat) (tq : tangent) : Prop :=
  forall g w v dv a da, tq g w -> vmoves nv v dv -> vmoves nv a da -> forall i, (i < 6)%nat ->
    derivable_pt_lim (fun t => mv nv (p_Ag P (g t)) (a t) i + mv nv (k_dAg K (g t) (v t)) (v t) i) 0
      (mv nv (k_dq K (g 0) (v 0) (a 0)) w i + mv nv (k_dv K (g 0) (v 0) (a 0)) dv i + mv nv (p_Ag P (g 0)) da i).
Definition lu_ok (P : pin) (K : kpin) : Prop := forall q, is_inverse 6 (p_Ag P q) (k_inv K (block6 (p_Ag P q))).
(** kinodynamics: q' = v, the joints have the accelerations commanded, and the rate of the
    centroidal momentum is that of the gravity and contact forces *)
Definition kino_rate (P : pin) (K : kpin) (nq nv : nat) (c : cfwd) (ids : nat -> nat) (x u f : vec) : Prop :=
  let q := xq nq x in let v := xtail nv (nq + nv) x in
  (forall i, (i < nv)%nat -> f i = x (nq + i)%nat) /\
  (forall i, (i < nv - 6)%nat -> f (nv + 6 + i)%nat = u (cm_size (cf_map c) * cf_fs c + i)%nat) /\
  (forall k, (k < 6)%nat -> mv nv (p_Ag P q) (seg f nv) k + mv nv (k_dAg K q v) v k = momentum_rate P nq c ids x u k).
(** the acceleration given the torques, and its derivatives *)
Definition acc_ok (A : apin) (nv : nat) (tq : tangent) : Prop :=
  forall g w v a t b, tq g w -> vmoves nv v a -> vmoves nv t b -> forall i, (i < nv)%nat ->
    derivable_pt_lim (fun s => a_acc A (g s) (v s) (t s) i) 0
      (mv nv (a_dq A (g 0) (v 0) (t 0)) w i + mv nv (a_dv A (g 0) (v 0) (t 0)) a i + mv nv (a_dtau A (g 0) (v 0) (t 0)) b i).
Definition robot_rate (A : apin) (nq nv nu : nat) (B : mtx) (x u : vec) : vec := fun i =>
  if Nat.ltb i nv then xv nq nv x i else a_acc A (xq nq x) (xv nq nv x) (mv nu B u) (i - nv)%nat.
(** the wheeled inverted pendulum: r', phi', theta, theta', phi, x, y *)
Definition wip_rate (len grav : R) (x u : vec) : vec := fun i =>
  nth i [u 0%nat; u 1%nat; x 3%nat; (grav * sin (x 2%nat) - u 0%nat * cos (x 2%nat)) / len; x 1%nat;
         x 0%nat * cos (x 4%nat); x 0%nat * sin (x 4%nat)] 0.

(** ** Proofs *)
Lemma mv_vzero n A i : mv n A vzero i = 0.
Proof. apply rsum_zero. intros. unfold vzero. ring. Qed.
Lemma vmoves_const n a : vmoves n (fun _ => a) vzero.
Proof. intros i _. apply dl_const. Qed.
Lemma mv_sub n A v w i : mv n A (fun k => v k - w k) i = mv n A v i - mv n A w i.
Proof.
  unfold mv, Rminus. replace (- rsum n (fun j => A i j * w j)) with ((-1) * rsum n (fun j => A i j * w j)) by ring.
  rewrite <- rsum_scale, <- rsum_plus. apply rsum_ext. intros; ring.
Qed.
Lemma mv_add n A v w i : mv n A (fun k => v k + w k) i = mv n A v i + mv n A w i.
Proof. unfold mv. rewrite <- rsum_plus. apply rsum_ext. intros; ring. Qed.
Lemma mv_over c n m A (g : nat -> vec) i : mv n A (fun k => overn c m (fun l => g l k)) i = overn c m (fun l => mv n A (g l) i).
Proof.
  unfold mv, overn.
  transitivity (rsum n (fun j => rsum m (fun l => A i j * (if cm_state (cf_map c) l then g l j else 0)))).
  - apply rsum_ext. intros j _. now rewrite rsum_scale.
  - rewrite rsum_swap. apply rsum_ext. intros l _. destruct (cm_state (cf_map c) l); auto.
    apply rsum_zero. intros; ring.
Qed.
Lemma rsum6 f : rsum 6 f = rsum 3 f + rsum 3 (fun k => f (3 + k)%nat).
Proof. exact (rsum_app 3 3 f). Qed.

Section Kino.
Variables (P : pin) (K : kpin) (nq nv : nat) (tq : tangent) (c : cfwd) (ids : nat -> nat).
Hypothesis HP : pin_ok P nv tq.
Hypothesis HK : hdot_ok P K nv tq.
Hypothesis HL : lu_ok P K.
Hypothesis Hfs : (3 <= cf_fs c)%nat.
Hypothesis H6 : (6 <= nv)%nat.
Let N := cm_size (cf_map c).
Let F := (N * cf_fs c)%nat.
Let nu := kd_nu nv c.
Lemma nu_eq : nu = (F + (nv - 6))%nat.
Proof. unfold nu, kd_nu, F, N. lia. Qed.
Lemma utail_eq u i : utail nv c u i = u (F + i)%nat.
Proof. unfold utail, kd_nu, F, N. f_equal. lia. Qed.

Definition Agu_inv (q : vec) : mtx := k_inv K (block6 (p_Ag P q)).
Lemma inv_ok q : is_inverse 6 (p_Ag P q) (Agu_inv q).
Proof. apply HL. Qed.
(** the base acceleration *)
Definition rhs (x u : vec) : vec := fun k =>
  momentum_rate P nq c ids x u k - mv nv (k_dAg K (xq nq x) (xtail nv (nq + nv) x)) (xtail nv (nq + nv) x) k
  - mv (nv - 6) (right_of (p_Ag P (xq nq x))) (utail nv c u) k.
Definition base (x u : vec) : vec := mv 6 (Agu_inv (xq nq x)) (rhs x u).
Definition kd_rate (x u : vec) : vec := fun i =>
  if Nat.ltb i nv then xtail nv (nq + nv) x i else if Nat.ltb i (nv + 6) then base x u (i - nv)%nat else utail nv c u (i - (nv + 6))%nat.
(** (0, a) *)
Definition embed (a : vec) : vec := sset (sset vzero 0 6 vzero) 6 (nv - 6) a.
Lemma embed_mv A a i : mv nv A (embed a) i = mv (nv - 6) (right_of A) a i.
Proof.
  unfold mv. replace nv with (6 + (nv - 6))%nat at 1 by lia. rewrite rsum_app.
  rewrite rsum_zero. 2:{ intros k Hk. unfold embed, sset. seg_cases; unfold vzero; ring. }
  rewrite Rplus_0_l. apply rsum_ext. intros k Hk. unfold right_of. f_equal. unfold embed, sset. seg_cases.
  f_equal. lia.
Qed.
Lemma kd_body_cmd u i s : kd_body P c ids u i s = cmd_body P c ids u i s.
Proof. reflexivity. Qed.
Lemma for_n_ext (D : Type) n (f g : nat -> D -> D) d : (forall i e, f i e = g i e) -> for_n n f d = for_n n g d.
Proof. intros E. induction n; cbn [for_n]; [auto|]. now rewrite IHn. Qed.

(** *** forward *)
Lemma kd_start x pc :
  let q := xq nq x in let v := xtail nv (nq + nv) x in
  cmd_at c ids q (center_of_mass_v q v (fwd_kin q (dccrba q v (ccrba q v pc)))) 0.
Proof. split; [reflexivity|split; [reflexivity|intros; lia]]. Qed.
Lemma for_Ag u n pc f : c_Ag (fst (for_n n (cmd_body P c ids u) (pc, f))) = c_Ag pc.
Proof.
  induction n; [reflexivity|]. cbn [for_n]. destruct (for_n n _ _) as [pc' f']. cbn [fst] in IHn.
  unfold cmd_body. destruct (cm_state _ _); exact IHn.
Qed.
Lemma kd_forward_eq x u d : let q := xq nq x in let e := kd_forward P K nq nv (nq + nv) c ids x u d in
  (forall i, (i < 2 * nv)%nat -> kd_xdot e i = kd_rate x u i) /\
  kd_Jx e = kd_Jx d /\ kd_Ju e = kd_Ju d /\ kd_v0 e = kd_v0 d /\ kd_inv e = Agu_inv q /\
  cmd_at c ids q (kd_pc e) N.
Proof.
  intros q e.
  pose proof (kd_start x (kd_pc d)) as S0. cbv zeta in S0. fold q in S0.
  set (v := xtail nv (nq + nv) x) in *.
  set (pc0 := center_of_mass_v q v (fwd_kin q (dccrba q v (ccrba q v (kd_pc d))))) in *.
  set (f0 := sset vzero 0 3 (fun k => cf_mass c * cf_gravity c k)).
  pose proof (cmd_loop P nq c ids Hfs x u N pc0 f0 S0) as [AT V].
  cbv zeta in AT, V. fold q in AT, V.
  pose proof (for_Ag u N pc0 f0) as AG.
  assert (E : e = let '(pc, f) := for_n N (cmd_body P c ids u) (pc0, f0) in
     KData pc (sset (sset (sset (kd_xdot d) nv 6 (mv 6 (Agu_inv q)
       (fun i => f i - mv nv (k_dAg K q v) v i - mv (nv - 6) (right_of (p_Ag P (c_Ag pc))) (utail nv c u) i))) 0 nv v)
       (2 * nv - (nv - 6)) (nv - 6) (utail nv c u)) (kd_Jx d) (kd_Ju d) (Agu_inv q) (kd_v0 d)).
  { reflexivity. }
  clearbody e. subst e. destruct (for_n N (cmd_body P c ids u) (pc0, f0)) as [pc f]. cbn [fst snd] in *.
  cbn [kd_xdot kd_Jx kd_Ju kd_v0 kd_inv kd_pc]. apply conj; [|repeat (apply conj; [reflexivity|]); exact AT].
  intros i Hi. unfold kd_rate. rewrite AG. change (c_Ag pc0) with q.
  replace (2 * nv - (nv - 6))%nat with (nv + 6)%nat by lia.
  unfold sset at 1. destruct (Nat.ltb_spec i nv) as [L|L].
  - seg_cases. unfold sset. seg_cases. rewrite Nat.sub_0_r. reflexivity.
  - destruct (Nat.ltb_spec i (nv + 6)) as [M|M]; seg_cases; [|reflexivity].
    unfold sset. seg_cases. unfold base. fold q. apply mv_ext; [auto|]. intros k Hk.
    unfold rhs. fold q v. f_equal. f_equal. rewrite V. clear V.
    assert (A : f0 k = if Nat.ltb k 3 then cf_mass c * cf_gravity c k else 0)
      by (unfold f0, sset; seg_cases; rewrite ?Nat.sub_0_r; reflexivity).
    rewrite A. unfold momentum_rate, net_force, net_moment, over. fold N.
    destruct (Nat.ltb k 3); [reflexivity|]. destruct (Nat.ltb_spec k 6); [|lia]. rewrite Rplus_0_l.
    apply rsum_ext. intros l _. unfold moment1. destruct (cm_state (cf_map c) l) eqn:E;
      cbn [contacts_at cf_map cm_state]; rewrite E; reflexivity.
Qed.

(** *** the blocks of the Jacobians *)
Definition Jdiff (pc : pcache) (l : nat) : mtx := msub (p_Jcom P (c_Jcom pc)) (get_jac P LWA (ids l) pc mzero).
Lemma kd_jx_loop pc Ai u n J i j :
  for_n n (kd_jx P nv c ids pc Ai u) J i j = J i j +
   (if in_seg nv 6 i && in_seg 0 nv j
    then overn c n (fun l => mmul 3 (mmul 3 (right3 Ai) (jtf c u l)) (Jdiff pc l) (i - nv)%nat j) else 0).
Proof.
  induction n.
  - unfold overn. cbn [for_n rsum]. destruct (_ && _); ring.
  - cbn [for_n]. set (J' := for_n n _ J) in *. rewrite overn_S.
    unfold kd_jx. destruct (cm_state (cf_map c) n).
    + unfold bset. destruct (in_seg nv 6 i && in_seg 0 nv j) eqn:Es.
      * rewrite Nat.sub_0_r. replace (nv + (i - nv))%nat with i
          by (unfold in_seg in Es; destruct (Nat.leb_spec nv i); [lia|simpl in Es; discriminate]).
        rewrite IHn. unfold jtf, Jdiff. ring.
      * exact IHn.
    + rewrite IHn. destruct (_ && _); ring.
Qed.
Lemma kd_ju_val pc Ai l J r j : (r < 6)%nat ->
  let o := (l * cf_fs c)%nat in let Jt := jtemp (sp (frame P (ids l) pc)) (p_com P (c_com pc)) in
  kd_ju P nv c ids pc Ai l J (nv + r)%nat j =
  if cm_state (cf_map c) l then
    if in_seg o 3 j then Ai r (j - o)%nat + mmul 3 (right3 Ai) Jt r (j - o)%nat
    else if Nat.eqb (cf_fs c) 6 && in_seg (o + 3) 3 j then J (nv + r)%nat j + right3 Ai r (j - (o + 3))%nat
    else J (nv + r)%nat j
  else J (nv + r)%nat j.
Proof.
  intros Hr o Jt. unfold kd_ju. destruct (cm_state (cf_map c) l); [|reflexivity].
  rewrite (Nat.mul_comm (cf_fs c) l). fold o. fold Jt.
  assert (Q : in_seg nv 6 (nv + r) = true) by (unfold in_seg; seg_cases).
  assert (Q2 : forall k, in_seg nv 6 (nv + k) = Nat.ltb k 6) by (intros k; unfold in_seg; seg_cases).
  destruct (Nat.eqb (cf_fs c) 6) eqn:E6; cbn [andb]; unfold bset; rewrite ?Q, ?Q2; cbn [andb]; replace (nv + r - nv)%nat with r by lia;
    rewrite ?Q; destruct (Nat.ltb_spec r 6); try lia; cbn [andb].
  - destruct (in_seg o 3 j) eqn:A, (in_seg (o + 3) 3 j) eqn:B.
    + exfalso. revert A B. unfold in_seg. repeat match goal with |- context [Nat.leb ?a ?b] => destruct (Nat.leb_spec a b) | |- context [Nat.ltb ?a ?b] => destruct (Nat.ltb_spec a b) end; cbn; try discriminate; lia.
    + assert (X : (o <= j < o + 3)%nat) by (revert A; unfold in_seg; destruct (Nat.leb_spec o j), (Nat.ltb_spec j (o + 3)); cbn; try discriminate; lia).
      replace (o + (j - o))%nat with j by lia. rewrite A. replace (nv + r - nv)%nat with r by lia. ring.
    + assert (X : (o + 3 <= j < o + 6)%nat) by (revert B; unfold in_seg; destruct (Nat.leb_spec (o + 3) j), (Nat.ltb_spec j (o + 3 + 3)); cbn; try discriminate; lia).
      replace (o + 3 + (j - (o + 3)))%nat with j by lia. rewrite A. reflexivity.
    + reflexivity.
  - destruct (in_seg o 3 j) eqn:A; [|reflexivity].
    assert (X : (o <= j < o + 3)%nat) by (revert A; unfold in_seg; destruct (Nat.leb_spec o j), (Nat.ltb_spec j (o + 3)); cbn; try discriminate; lia).
    replace (o + (j - o))%nat with j by lia. rewrite A. replace (nv + r - nv)%nat with r by lia. ring.
Qed.
Lemma cmd_ju_val pc l J k j : (k < 6)%nat ->
  let o := (l * cf_fs c)%nat in let Jt := jtemp (sp (frame P (ids l) pc)) (p_com P (c_com pc)) in
  cmd_ju P c ids pc l J k j =
  if cm_state (cf_map c) l then
    if in_seg o 3 j then (if Nat.ltb k 3 then ident k (j - o)%nat else Jt (k - 3)%nat (j - o)%nat)
    else if Nat.eqb (cf_fs c) 6 && in_seg (o + 3) 3 j then (if Nat.ltb k 3 then J k j else ident (k - 3)%nat (j - (o + 3))%nat)
    else J k j
  else J k j.
Proof.
  intros Hr o Jt. unfold cmd_ju. destruct (cm_state (cf_map c) l); [|reflexivity].
  rewrite (Nat.mul_comm (cf_fs c) l). fold o. fold Jt.
  assert (Q0 : in_seg 0 3 k = Nat.ltb k 3) by (unfold in_seg; seg_cases).
  assert (Q3 : in_seg 3 3 k = negb (Nat.ltb k 3)) by (unfold in_seg; seg_cases).
  assert (D : in_seg o 3 j && in_seg (o + 3) 3 j = false).
  { unfold in_seg. repeat match goal with |- context [Nat.leb ?a ?b] => destruct (Nat.leb_spec a b) | |- context [Nat.ltb ?a ?b] => destruct (Nat.ltb_spec a b) end; cbn; try reflexivity; lia. }
  destruct (Nat.eqb (cf_fs c) 6); cbn [andb]; unfold bset; rewrite Q0, Q3;
    destruct (Nat.ltb_spec k 3); cbn [negb andb]; rewrite ?Nat.sub_0_r; destruct (in_seg o 3 j); destruct (in_seg (o + 3) 3 j); cbn [andb] in *; try discriminate; reflexivity.
Qed.
Lemma in_seg_true o w j : in_seg o w j = true -> (o <= j < o + w)%nat.
Proof. unfold in_seg. destruct (Nat.leb_spec o j), (Nat.ltb_spec j (o + w)); cbn; try discriminate; lia. Qed.
Lemma cmd_ju_zero pc n k j : (k < 6)%nat -> (n * cf_fs c <= j)%nat -> for_n n (cmd_ju P c ids pc) mzero k j = 0.
Proof.
  intros Hk. induction n; intros Hj; [reflexivity|]. cbn [for_n]. rewrite cmd_ju_val by auto. cbv zeta.
  assert (IH : for_n n (cmd_ju P c ids pc) mzero k j = 0) by (apply IHn; simpl in Hj; lia).
  destruct (cm_state (cf_map c) n); auto.
  destruct (in_seg (n * cf_fs c) 3 j) eqn:A; [apply in_seg_true in A; simpl in Hj; lia|].
  destruct (Nat.eqb_spec (cf_fs c) 6) as [E|E]; cbn [andb]; auto.
  destruct (in_seg (n * cf_fs c + 3) 3 j) eqn:B; auto. apply in_seg_true in B. simpl in Hj. lia.
Qed.
Lemma kd_ju_loop pc Ai J0 n r j : (r < 6)%nat -> J0 (nv + r)%nat j = 0 ->
  for_n n (kd_ju P nv c ids pc Ai) J0 (nv + r)%nat j = rsum 6 (fun k => Ai r k * for_n n (cmd_ju P c ids pc) mzero k j).
Proof.
  intros Hr H0. induction n.
  - cbn [for_n]. rewrite H0. symmetry. apply rsum_zero. intros. unfold mzero. ring.
  - cbn [for_n]. set (J := for_n n (kd_ju P nv c ids pc Ai) J0) in *. rewrite kd_ju_val by auto. cbv zeta.
    pose proof (cmd_ju_zero pc n) as Z.
    set (J' := for_n n (cmd_ju P c ids pc) mzero) in *.
    rewrite (rsum_ext 6 _ (fun k => Ai r k * _)) by (intros k Hk; rewrite cmd_ju_val by exact Hk; reflexivity). cbv zeta.
    destruct (cm_state (cf_map c) n); auto.
    set (o := (n * cf_fs c)%nat) in *.
    destruct (in_seg o 3 j) eqn:A.
    + apply in_seg_true in A. rewrite rsum6. apply f_equal2; [|reflexivity].
      rewrite <- (ident_sum_r 3 (j - o) (fun k => Ai r k)) by lia. apply rsum_ext. intros k Hk.
      destruct (Nat.ltb_spec k 3); [reflexivity|lia].
    + destruct (Nat.eqb (cf_fs c) 6 && in_seg (o + 3) 3 j) eqn:B; auto.
      apply andb_prop in B. destruct B as [_ B]. apply in_seg_true in B.
      assert (ZZ : forall k, (k < 6)%nat -> J' k j = 0) by (intros; apply Z; auto; lia).
      rewrite IHn. rewrite (rsum_zero 6 (fun k => Ai r k * J' k j)) by (intros k Hk; rewrite ZZ by auto; ring).
      rewrite rsum6. rewrite (rsum_zero 3).
      * apply f_equal2; [reflexivity|]. unfold right3. rewrite <- (ident_sum_r 3 (j - (o + 3)) (fun k => Ai r (3 + k)%nat)) by lia.
        apply rsum_ext. intros k Hk. destruct (Nat.ltb_spec (3 + k) 3); [lia|]. replace (3 + k - 3)%nat with k by lia. reflexivity.
      * intros k Hk. destruct (Nat.ltb_spec k 3); [|lia]. rewrite ZZ by lia. ring.
Qed.
Lemma kd_ju_other pc Ai J0 n i j : in_seg nv 6 i = false -> for_n n (kd_ju P nv c ids pc Ai) J0 i j = J0 i j.
Proof.
  intros H. induction n; [reflexivity|]. cbn [for_n]. rewrite <- IHn. unfold kd_ju.
  destruct (cm_state (cf_map c) n); auto. destruct (Nat.eqb (cf_fs c) 6); unfold bset; rewrite H; reflexivity.
Qed.

(** *** the rate of the momentum *)
Definition MX (pc : pcache) (u dx : vec) : vec := fun k =>
  if Nat.ltb k 3 then 0 else overn c N (fun l => mv 3 (jtf c u l) (mv nv (Jdiff pc l) dx) (k - 3)%nat).
Definition MU (pc : pcache) (du : vec) : vec := mv nu (for_n N (cmd_ju P c ids pc) mzero) du.
Lemma rate_deriv cv dx u du pc : xtang nq nv tq cv dx -> vmoves nu u du ->
  let q := xq nq (cv 0) in cmd_at c ids q pc N -> c_Jcom pc = q -> c_J pc = q -> forall k, (k < 6)%nat ->
  derivable_pt_lim (fun t => momentum_rate P nq c ids (cv t) (u t) k) 0 (MX pc (u 0) dx k + MU pc du k).
Proof.
  intros Hx Hu q AT EJc EJ k Hk.
  assert (Hnu : (cm_size (cf_map c) * cf_fs c <= nu)%nat) by (rewrite nu_eq; unfold F, N; lia).
  set (d := mdata0 pc (SE3 mzero vzero) 0).
  assert (Rd : oreach (momentum_derivative P nq nv (nq + nv) c ids) d)
    by (apply (OR0 (momentum_derivative P nq nv (nq + nv) c ids)); do 3 eexists; reflexivity).
  destruct (momentum_derivative_ok P nq nv tq c ids HP Hfs (2 * nv) nu ltac:(lia) Hnu d Rd) as [_ G].
  specialize (G cv dx u du Hx Hu I k Hk). cbv zeta in G.
  set (d' := o_jac _ _ _ _) in G.
  set (pc0 := center_of_mass_v q (xtail nv (nq + nv) (cv 0)) (fwd_kin q (m_pc d))).
  set (v0 := sset (sset (m_value d) 0 3 (fun k => cf_mass c * cf_gravity c k)) 3 3 vzero).
  assert (E0 : cmd_at c ids q pc0 0) by (split; [reflexivity|split; [reflexivity|intros; lia]]).
  pose proof (cmd_loop P nq c ids Hfs (cv 0) (u 0) N pc0 v0 E0) as [(A1 & A2 & A3) _].
  cbv zeta in A1, A2, A3. destruct (for_n N (cmd_body P c ids (u 0)) (pc0, v0)) as [pc1 v1] eqn:Eb. cbn [fst] in *.
  set (pc2 := joint_jacobians (jacobian_com q pc1)).
  assert (X1 : o_Jx (momentum_derivative P nq nv (nq + nv) c ids) d' = fst (for_n N (cmd_jx P nv c ids pc2 (u 0)) (mzero, m_fJf d))).
  { unfold d'. cbn [o_Jx o_jac o_eval momentum_derivative]. unfold cmd_evaluate. fold N. fold q. fold pc0 v0. rewrite Eb.
    unfold cmd_jacobians. cbn [m_pc m_fJf]. fold N q pc2. destruct (for_n N (cmd_jx _ _ _ _ _ _) _). reflexivity. }
  assert (X2 : o_Ju (momentum_derivative P nq nv (nq + nv) c ids) d' = for_n N (cmd_ju P c ids pc2) mzero).
  { unfold d'. cbn [o_Ju o_jac o_eval momentum_derivative]. unfold cmd_evaluate. fold N. fold q. fold pc0 v0. rewrite Eb.
    unfold cmd_jacobians. cbn [m_pc m_fJf]. fold N q pc2. destruct (for_n N (cmd_jx _ _ _ _ _ _) _). reflexivity. }
  assert (AT2 : cmd_at c ids q pc2 N) by (split; [reflexivity|split; [reflexivity|exact A3]]).
  eapply dl_eq; [|exact G]. clear G. apply f_equal2.
  - rewrite X1. unfold MX. destruct (Nat.ltb_spec k 3) as [L|L].
    + apply mv_zero. intros j Hj. rewrite (cmd_jx_loop _ _ _ _ Hfs). unfold mzero. unfold in_seg at 1. destruct (Nat.leb_spec 3 k); [lia|]. cbn [andb]. ring.
    + unfold mv at 1. rewrite (rsum_le nv (2 * nv)) by
        (try lia; intros j Hj; rewrite (cmd_jx_loop _ _ _ _ Hfs); unfold mzero; replace (in_seg 0 nv j) with false by (unfold in_seg; seg_cases);
         rewrite andb_false_r; ring).
      transitivity (rsum nv (fun j => overn c N (fun l => mmul 3 (jtf c (u 0) l) (Jdiff pc l) (k - 3)%nat j * dx j))).
      * apply rsum_ext. intros j Hj. rewrite (cmd_jx_loop _ _ _ _ Hfs). unfold mzero at 1.
        replace (in_seg 3 3 k && in_seg 0 nv j) with true by (symmetry; unfold in_seg; seg_cases).
        rewrite Rplus_0_l, Rmult_comm. unfold overn. rewrite <- rsum_scale. apply rsum_ext. intros l Hl.
        destruct (cm_state (cf_map c) l); [|ring]. rewrite Rmult_comm. f_equal.
        unfold mmul. apply rsum_ext. intros m Hm. f_equal. unfold Jdiff. rewrite EJc.
        unfold get_jac. rewrite EJ, (proj1 AT). reflexivity.
      * unfold overn. rewrite rsum_swap. apply rsum_ext. intros l Hl. destruct (cm_state (cf_map c) l).
        -- apply mv_mmul.
        -- now apply rsum_zero.
  - rewrite X2. unfold MU. apply mv_ext; auto. intros j Hj.
    pose proof (cmd_ju_loop P nq c ids Hfs (cv 0) pc2 N k j AT2 Hk) as Y2.
    pose proof (cmd_ju_loop P nq c ids Hfs (cv 0) pc N k j AT Hk) as Y. cbv zeta in Y, Y2. now rewrite Y, Y2.
Qed.
(** *** the base acceleration *)
Lemma embed_moves u du : vmoves nu u du -> vmoves nv (fun t => embed (utail nv c (u t))) (embed (utail nv c du)).
Proof.
  intros H i Hi. unfold embed, sset. seg_cases; try apply dl_const.
  rewrite utail_eq. apply (dl_ext (fun t => u t (F + (i - 6))%nat)); [intros; now rewrite utail_eq|].
  apply H. rewrite nu_eq. lia.
Qed.
Lemma base_deriv cv dx u du pc y0 : xtang nq nv tq cv dx -> vmoves nu u du ->
  (forall k, (k < 6)%nat -> y0 k = base (cv 0) (u 0) k) -> (forall k, (6 <= k)%nat -> y0 k = 0) ->
  let q := xq nq (cv 0) in let v := xtail nv (nq + nv) (cv 0) in let dv := fun i => dx (nv + i)%nat in
  cmd_at c ids q pc N -> c_Jcom pc = q -> c_J pc = q -> forall r, (r < 6)%nat ->
  derivable_pt_lim (fun t => base (cv t) (u t) r) 0
    (mv 6 (Agu_inv q) (fun k => MX pc (u 0) dx k + MU pc du k
        - mv nv (k_dq K q vzero (embed (utail nv c (u 0)))) dx k - mv (nv - 6) (right_of (p_Ag P q)) (utail nv c du) k
        - (mv nv (k_dq K q v vzero) dx k + mv nv (k_dv K q v vzero) dv k)
        - mv nv (k_dq K q vzero y0) dx k) r).
Proof.
  intros Hx Hu Y0 Y6 q v dv AT EJc EJ r Hr.
  (* the entries of the base block *)
  set (e j := sset vzero 0 6 (fun k => ident k j)).
  assert (He : forall A a k, (forall i, (6 <= i)%nat -> a i = 0) -> mv nv A a k = mv 6 A a k).
  { intros A a k Z. unfold mv. apply rsum_le; auto. intros i Hi. rewrite Z by lia. ring. }
  set (A' k j := mv nv (k_dq K q vzero (e j)) dx k).
  assert (HZ : forall a k, (k < 6)%nat -> derivable_pt_lim (fun t => mv nv (p_Ag P (xq nq (cv t))) a k) 0 (mv nv (k_dq K q vzero a) dx k)).
  { intros a k Hk.
    pose proof (HK (fun t => xq nq (cv t)) dx (fun _ => vzero) vzero (fun _ => a) vzero (proj1 Hx)
      (vmoves_const nv vzero) (vmoves_const nv a) k Hk) as D.
    eapply dl_eq; [|eapply dl_ext; [|exact D]].
    - cbv beta. rewrite !mv_vzero. fold q. ring.
    - intros t. cbv beta. rewrite mv_vzero. ring. }
  assert (DA : forall k j, (k < 6)%nat -> (j < 6)%nat -> derivable_pt_lim (fun t => p_Ag P (xq nq (cv t)) k j) 0 (A' k j)).
  { intros k j Hk Hj. eapply dl_ext; [|apply (HZ (e j) k Hk)]. intros t. cbv beta.
    rewrite He by (intros i Hi; unfold e, sset; seg_cases; reflexivity).
    unfold mv. rewrite <- (ident_sum_r 6 j (fun l => p_Ag P (xq nq (cv t)) k l)) by auto.
    apply rsum_ext. intros l Hl. unfold e, sset. seg_cases. now rewrite Nat.sub_0_r. }
  assert (DR : forall k, (k < 6)%nat -> derivable_pt_lim (fun t => rhs (cv t) (u t) k) 0
     (MX pc (u 0) dx k + MU pc du k - (mv nv (k_dq K q v vzero) dx k + mv nv (k_dv K q v vzero) dv k)
      - (mv nv (k_dq K q vzero (embed (utail nv c (u 0)))) dx k + mv (nv - 6) (right_of (p_Ag P q)) (utail nv c du) k))).
  { intros k Hk. unfold rhs. apply dl_minus; [apply dl_minus|].
    - apply rate_deriv; auto.
    - pose proof (HK (fun t => xq nq (cv t)) dx (fun t => xtail nv (nq + nv) (cv t)) dv (fun _ => vzero) vzero (proj1 Hx)
        (xtail_moves nq nv tq cv dx Hx) (vmoves_const nv vzero) k Hk) as D.
      eapply dl_eq; [|eapply dl_ext; [|exact D]].
      + cbv beta. rewrite !mv_vzero. fold q v. ring.
      + intros t. cbv beta. rewrite mv_vzero. ring.
    - pose proof (HK (fun t => xq nq (cv t)) dx (fun _ => vzero) vzero (fun t => embed (utail nv c (u t))) _ (proj1 Hx)
        (vmoves_const nv vzero) (embed_moves u du Hu) k Hk) as D.
      eapply dl_eq; [|eapply dl_ext; [|exact D]].
      + cbv beta. rewrite mv_vzero. rewrite embed_mv. fold q. ring.
      + intros t. cbv beta. rewrite mv_vzero, embed_mv. ring. }
  pose proof (dl_solve 6 (fun t => p_Ag P (xq nq (cv t))) (fun t => Agu_inv (xq nq (cv t))) A' (fun t => inv_ok _) DA
    (fun t => rhs (cv t) (u t)) _ r Hr DR) as D.
  eapply dl_eq; [|exact D]. cbv beta. fold q. apply mv_ext; auto. intros k Hk.
  assert (Y : mv 6 A' (mv 6 (Agu_inv q) (rhs (cv 0) (u 0))) k = mv nv (k_dq K q vzero y0) dx k).
  { fold (base (cv 0) (u 0)). set (y := base (cv 0) (u 0)) in *.
    apply (uniqueness_limite (fun t => mv nv (p_Ag P (xq nq (cv t))) y0 k) 0); [|apply HZ; auto].
    apply (dl_ext (fun t => rsum 6 (fun j => p_Ag P (xq nq (cv t)) k j * y j))).
    - intros t. rewrite He by auto. unfold mv. apply rsum_ext. intros j Hj. now rewrite Y0.
    - unfold mv at 1. apply (dl_rsum 6 (fun j t => p_Ag P (xq nq (cv t)) k j * y j)). intros j Hj.
      eapply dl_ext; [intros t; apply Rmult_comm|]. rewrite Rmult_comm. apply dl_scal. auto. }
  rewrite Y. ring.
Qed.

(** *** forward and dForward *)
Definition Ju0 : mtx := bset mzero (2 * nv - (nv - 6)) (kd_nu nv c - (nv - 6)) (nv - 6) (nv - 6) ident.
Definition kd_I (d : kdata) : Prop := kd_v0 d = vzero /\
  forall i j, in_seg nv 6 i = false -> kd_Jx d i j = top_right nv i j /\ kd_Ju d i j = Ju0 i j.
Notation KD := (kinodynamics P K nq nv (nq + nv) c ids).
Lemma jx_minus_out Ai D J i j : in_seg nv 6 i = false -> jx_minus nv Ai D J i j = J i j.
Proof. intros H. unfold jx_minus, bset. now rewrite H. Qed.
Lemma bset_out J a b h w B i j : in_seg a h i = false -> bset J a b h w B i j = J i j.
Proof. intros H. unfold bset. now rewrite H. Qed.
Lemma kd_I_fwd x u e : kd_I e -> kd_I (kd_forward P K nq nv (nq + nv) c ids x u e).
Proof. intros H. destruct (kd_forward_eq x u e) as (_ & E1 & E2 & E3 & _). unfold kd_I. rewrite E1, E2, E3. exact H. Qed.
Lemma kd_I_jac x u e : kd_I e -> kd_I (kd_dforward P K nq nv (nq + nv) c ids x u e).
Proof.
  intros [A B]. split; [exact A|]. intros i j H. specialize (B i j H). unfold kd_dforward.
  cbn [kd_Jx kd_Ju]. split.
  - rewrite jx_minus_out by auto. rewrite bset_out by auto. rewrite !jx_minus_out by auto.
    rewrite kd_jx_loop, H. cbn [andb]. rewrite Rplus_0_r, bset_out by auto. apply B.
  - rewrite bset_out by auto. rewrite kd_ju_other by auto. rewrite bset_out by auto. apply B.
Qed.
Lemma kd_reach d : oreach KD d -> kd_I d.
Proof.
  apply (oreach_inv KD); cbn [o_init o_eval o_jac kinodynamics].
  - intros e (pc & ->). split; [reflexivity|]. intros i j H. split; reflexivity.
  - intros x u e. apply kd_I_fwd.
  - intros x u e. apply kd_I_jac.
Qed.
Lemma jx_minus_in Ai D J r j : (r < 6)%nat -> (j < nv)%nat ->
  jx_minus nv Ai D J (nv + r)%nat j = J (nv + r)%nat j - mmul 6 Ai D r j.
Proof.
  intros Hr Hj. unfold jx_minus, bset. replace (in_seg nv 6 (nv + r) && in_seg 0 nv j) with true by (symmetry; unfold in_seg; seg_cases).
  rewrite Nat.sub_0_r. replace (nv + r - nv)%nat with r by lia. reflexivity.
Qed.
Lemma jx_minus_right Ai D J r j : jx_minus nv Ai D J r (nv + j)%nat = J r (nv + j)%nat.
Proof.
  unfold jx_minus, bset. replace (in_seg 0 nv (nv + j)) with false by (unfold in_seg; seg_cases). now rewrite andb_false_r.
Qed.
Lemma kd_rows cv dx u du e r : kd_I e -> xtang nq nv tq cv dx -> vmoves nu u du -> (r < 6)%nat ->
  let d := kd_dforward P K nq nv (nq + nv) c ids (cv 0) (u 0) (kd_forward P K nq nv (nq + nv) c ids (cv 0) (u 0) e) in
  derivable_pt_lim (fun t => base (cv t) (u t) r) 0
    (mv (2 * nv) (kd_Jx d) dx (nv + r)%nat + mv nu (kd_Ju d) du (nv + r)%nat).
Proof.
  intros [I0 _] Hx Hu Hr.
  destruct (kd_forward_eq (cv 0) (u 0) e) as (FX & FJ & FU & FV & FI & AT). cbv zeta in FX, FJ, FU, FV, FI, AT.
  set (f := kd_forward P K nq nv (nq + nv) c ids (cv 0) (u 0) e) in *. intros d.
  set (q := xq nq (cv 0)) in *. set (v := xtail nv (nq + nv) (cv 0)).
  set (Ai := Agu_inv q) in *.
  set (pcA := joint_jacobians (jacobian_com q (center_of_mass_v q v (kd_pc f)))).
  assert (ATA : cmd_at c ids q pcA N) by (destruct AT as (A1 & A2 & A3); split; [reflexivity|split; [reflexivity|exact A3]]).
  set (a := utail nv c (u 0)).
  set (y0 := sset vzero 0 6 (fun k => kd_xdot f (nv + k)%nat)).
  assert (Y0 : forall k, (k < 6)%nat -> y0 k = base (cv 0) (u 0) k).
  { intros k Hk. unfold y0, sset. seg_cases. rewrite Nat.sub_0_r, FX by lia. unfold kd_rate.
    destruct (Nat.ltb_spec (nv + k) nv); [lia|]. destruct (Nat.ltb_spec (nv + k) (nv + 6)); [|lia]. f_equal. lia. }
  assert (Y6 : forall k, (6 <= k)%nat -> y0 k = 0) by (intros k Hk; unfold y0, sset; seg_cases; reflexivity).
  assert (FV0 : kd_v0 f = vzero) by congruence.
  pose proof (base_deriv cv dx u du pcA y0 Hx Hu Y0 Y6 ATA eq_refl eq_refl r Hr) as D. cbv zeta in D. fold q v Ai a in D.
  set (dv := fun i => dx (nv + i)%nat) in *.
  (* the Jacobian in x *)
  assert (JX : mv (2 * nv) (kd_Jx d) dx (nv + r)%nat =
    mv 6 Ai (fun k => MX pcA (u 0) dx k - mv nv (k_dq K q vzero (embed a)) dx k - mv nv (k_dq K q v vzero) dx k
                      - mv nv (k_dq K q vzero y0) dx k) r + - mv 6 Ai (mv nv (k_dv K q v vzero) dv) r).
  { set (L := for_n N (kd_jx P nv c ids pcA Ai (u 0)) (bset (kd_Jx f) nv 0 6 nv mzero)).
    assert (E : kd_Jx d = jx_minus nv Ai (k_dq K q vzero y0)
        (bset (jx_minus nv Ai (k_dq K q v vzero) (jx_minus nv Ai (k_dq K q vzero (embed a)) L)) nv nv 6 nv
           (fun k l => - mmul 6 Ai (k_dv K q v vzero) k l))).
    { unfold d, kd_dforward. cbn [kd_Jx]. rewrite FI, FV0. reflexivity. }
    rewrite (mv_both nv (2 * nv) _
      (fun _ j => overn c N (fun l => mmul 3 (mmul 3 (right3 Ai) (jtf c (u 0) l)) (Jdiff pcA l) r j)
                  - mmul 6 Ai (k_dq K q vzero (embed a)) r j - mmul 6 Ai (k_dq K q v vzero) r j - mmul 6 Ai (k_dq K q vzero y0) r j)
      (fun _ j => - mmul 6 Ai (k_dv K q v vzero) r j)); [|lia| |].
    - apply f_equal2.
      + transitivity (overn c N (fun l => mv nv (mmul 3 (mmul 3 (right3 Ai) (jtf c (u 0) l)) (Jdiff pcA l)) dx r)
          - mv nv (mmul 6 Ai (k_dq K q vzero (embed a))) dx r - mv nv (mmul 6 Ai (k_dq K q v vzero)) dx r
          - mv nv (mmul 6 Ai (k_dq K q vzero y0)) dx r).
        * assert (M : forall Q, mv nv Q dx r = rsum nv (fun j => Q r j * dx j)) by reflexivity.
          assert (M1 : forall Q k, mv nv (fun _ => Q) dx k = rsum nv (fun j => Q j * dx j)) by reflexivity.
          rewrite M1, !M.
          transitivity (rsum nv (fun j => overn c N (fun l => mmul 3 (mmul 3 (right3 Ai) (jtf c (u 0) l)) (Jdiff pcA l) r j * dx j)
             + ((-1) * (mmul 6 Ai (k_dq K q vzero (embed a)) r j * dx j) + ((-1) * (mmul 6 Ai (k_dq K q v vzero) r j * dx j)
             + (-1) * (mmul 6 Ai (k_dq K q vzero y0) r j * dx j))))).
          -- apply rsum_ext. intros j Hj.
             replace (overn c N (fun l => mmul 3 (mmul 3 (right3 Ai) (jtf c (u 0) l)) (Jdiff pcA l) r j * dx j))
               with (overn c N (fun l => mmul 3 (mmul 3 (right3 Ai) (jtf c (u 0) l)) (Jdiff pcA l) r j) * dx j); [ring|].
             rewrite Rmult_comm. unfold overn. rewrite <- rsum_scale. apply rsum_ext. intros l _.
             destruct (cm_state (cf_map c) l); ring.
          -- rewrite !rsum_plus, !rsum_scale.
             replace (rsum nv (fun j => overn c N (fun l => mmul 3 (mmul 3 (right3 Ai) (jtf c (u 0) l)) (Jdiff pcA l) r j * dx j)))
               with (overn c N (fun l => mv nv (mmul 3 (mmul 3 (right3 Ai) (jtf c (u 0) l)) (Jdiff pcA l)) dx r)); [ring|].
             unfold overn. rewrite rsum_swap. apply rsum_ext. intros l _. destruct (cm_state (cf_map c) l); [reflexivity|].
             symmetry. now apply rsum_zero.
        * rewrite !mv_sub. rewrite !(mv_mmul nv 6). f_equal. f_equal. f_equal.
          assert (M : forall w, mv 6 Ai w r = rsum 6 (fun k => Ai r k * w k)) by reflexivity.
          rewrite M, rsum6. rewrite (rsum_zero 3) by (intros k Hk; unfold MX; destruct (Nat.ltb_spec k 3); [ring|lia]).
          rewrite Rplus_0_l.
          transitivity (mv 3 (right3 Ai) (fun k => overn c N (fun l => mv 3 (jtf c (u 0) l) (mv nv (Jdiff pcA l) dx) k)) r).
          -- rewrite mv_over. apply overn_ext. intros l _. rewrite (mv_mmul nv 3), (mv_mmul 3 3). reflexivity.
          -- reflexivity.
      + unfold dv. rewrite <- (mv_mmul nv 6). unfold mv. rewrite <- (Rmult_1_l (rsum nv (fun j => mmul 6 _ _ _ _ * _))), Ropp_mult_distr_l, <- rsum_scale.
        apply rsum_ext. intros; ring.
    - intros j Hj. rewrite E. rewrite jx_minus_in by auto. f_equal.
      unfold bset at 1. replace (in_seg nv nv j) with false by (unfold in_seg; seg_cases). rewrite andb_false_r.
      rewrite !jx_minus_in by auto. f_equal. f_equal. unfold L. rewrite kd_jx_loop.
      replace (in_seg nv 6 (nv + r) && in_seg 0 nv j) with true by (symmetry; unfold in_seg; seg_cases).
      unfold bset. replace (in_seg nv 6 (nv + r) && in_seg 0 nv j) with true by (symmetry; unfold in_seg; seg_cases).
      unfold mzero. rewrite Rplus_0_l. replace (nv + r - nv)%nat with r by lia. reflexivity.
    - intros j Hj. rewrite E. rewrite jx_minus_right. unfold bset at 1.
      replace (in_seg nv 6 (nv + r) && in_seg nv nv (nv + j)) with true by (symmetry; unfold in_seg; seg_cases).
      replace (nv + r - nv)%nat with r by lia. replace (nv + j - nv)%nat with j by lia. reflexivity. }
  (* the Jacobian in u *)
  assert (JU : mv nu (kd_Ju d) du (nv + r)%nat =
    mv 6 Ai (MU pcA du) r - mv 6 Ai (mv (nv - 6) (right_of (p_Ag P q)) (utail nv c du)) r).
  { set (L := for_n N (kd_ju P nv c ids pcA Ai) (bset (kd_Ju f) nv 0 6 nu mzero)).
    assert (E : kd_Ju d = bset L nv F 6 (nv - 6) (fun k l => - mmul 6 Ai (right_of (p_Ag P q)) k l)).
    { unfold d, kd_dforward. cbn [kd_Ju]. rewrite FI. reflexivity. }
    assert (LV : forall j, (j < nu)%nat -> L (nv + r)%nat j = mmul 6 Ai (for_n N (cmd_ju P c ids pcA) mzero) r j).
    { intros j Hj. unfold L. rewrite kd_ju_loop; [reflexivity|auto|].
      unfold bset. replace (in_seg nv 6 (nv + r) && in_seg 0 nu j) with true by (symmetry; unfold in_seg; seg_cases). reflexivity. }
    assert (U : mv 6 Ai (MU pcA du) r = rsum F (fun j => L (nv + r)%nat j * du j)).
    { unfold MU. rewrite <- (mv_mmul nu 6). unfold mv. rewrite (rsum_le F nu).
      - apply rsum_ext. intros j Hj. rewrite LV; [reflexivity|rewrite nu_eq; lia].
      - rewrite nu_eq. lia.
      - intros j Hj. unfold mmul. rewrite rsum_zero; [ring|]. intros k Hk. rewrite cmd_ju_zero; [ring|auto|]. unfold F in Hj. lia. }
    rewrite U, E. unfold mv at 1. rewrite nu_eq. rewrite rsum_app. unfold Rminus. f_equal.
    - apply rsum_ext. intros j Hj. f_equal. unfold bset. replace (in_seg F (nv - 6) j) with false by (unfold in_seg; seg_cases).
      now rewrite andb_false_r.
    - rewrite <- (mv_mmul (nv - 6) 6). unfold mv. rewrite <- (Rmult_1_l (rsum (nv - 6) (fun j => mmul 6 _ _ _ _ * _))), Ropp_mult_distr_l, <- rsum_scale.
      apply rsum_ext. intros j Hj. rewrite utail_eq. unfold bset.
      replace (in_seg nv 6 (nv + r) && in_seg F (nv - 6) (F + j)) with true by (symmetry; unfold in_seg; seg_cases).
      replace (nv + r - nv)%nat with r by lia. replace (F + j - F)%nat with j by lia. ring. }
  eapply dl_eq; [|exact D]. rewrite JX, JU.
  rewrite !mv_sub. rewrite !mv_add. ring.
Qed.
Lemma kino_ok : ocomputes nq nv (2 * nv) nu (2 * nv) tq anywhere KD kd_rate.
Proof.
  intros d Hd. apply kd_reach in Hd. split.
  - intros x u i Hi. now apply kd_forward_eq.
  - intros cv dx u du Hx Hu _ i Hi d'.
    assert (RI : kd_I d') by (apply kd_I_jac, kd_I_fwd, Hd).
    change (o_Jx KD d') with (kd_Jx d'). change (o_Ju KD d') with (kd_Ju d').
    destruct (in_seg nv 6 i) eqn:Es.
    + apply in_seg_true in Es. pose proof (kd_rows cv dx u du d (i - nv) Hd Hx Hu ltac:(lia)) as D. cbv zeta in D.
      replace (nv + (i - nv))%nat with i in D by lia. eapply dl_ext; [|exact D].
      intros t. unfold kd_rate. destruct (Nat.ltb_spec i nv); [lia|]. destruct (Nat.ltb_spec i (nv + 6)); [reflexivity|lia].
    + destruct RI as [_ B].
      rewrite (mv_ext (2 * nv) _ (top_right nv) dx dx) by (auto; intros j _; now apply B).
      rewrite (mv_ext nu _ Ju0 du du) by (auto; intros j _; now apply B).
      assert (Es' : (i < nv \/ nv + 6 <= i)%nat) by (revert Es; unfold in_seg; destruct (Nat.leb_spec nv i), (Nat.ltb_spec i (nv + 6)); cbn; intros; try discriminate; lia).
      destruct Es' as [L|L].
      * replace (mv nu Ju0 du i) with 0.
        2:{ symmetry. apply mv_zero. intros j Hj. unfold Ju0. apply bset_out. unfold in_seg. seg_cases. }
        rewrite Rplus_0_r. replace (mv (2 * nv) (top_right nv) dx i) with (dx (nv + i)%nat).
        -- apply (dl_ext (fun t => xtail nv (nq + nv) (cv t) i)).
           ++ intros t. unfold kd_rate. destruct (Nat.ltb_spec i nv); [reflexivity|lia].
           ++ exact (xtail_moves nq nv tq cv dx Hx i L).
        -- symmetry. rewrite (mv_both nv (2 * nv) _ mzero ident dx i); [| lia | |].
           ++ rewrite mv_zero by reflexivity. rewrite Rplus_0_l. unfold mv. now apply (ident_sum nv i (fun j => dx (nv + j)%nat)).
           ++ intros j Hj. unfold top_right, bset. replace (in_seg nv nv j) with false by (unfold in_seg; seg_cases). now rewrite andb_false_r.
           ++ intros j Hj. unfold top_right, bset. replace (in_seg 0 nv i && in_seg nv nv (nv + j)) with true by (symmetry; unfold in_seg; seg_cases).
              rewrite Nat.sub_0_r. f_equal. lia.
      * replace (mv (2 * nv) (top_right nv) dx i) with 0.
        2:{ symmetry. apply mv_zero. intros j Hj. unfold top_right. apply bset_out. unfold in_seg. seg_cases. }
        rewrite Rplus_0_l.
        assert (Hl : (i - (nv + 6) < nv - 6)%nat) by lia.
        replace (mv nu Ju0 du i) with (du (F + (i - (nv + 6)))%nat).
        -- apply (dl_ext (fun t => u t (F + (i - (nv + 6)))%nat)).
           ++ intros t. unfold kd_rate. destruct (Nat.ltb_spec i nv); [lia|]. destruct (Nat.ltb_spec i (nv + 6)); [lia|].
              now rewrite utail_eq.
           ++ apply Hu. rewrite nu_eq. lia.
        -- unfold mv. rewrite nu_eq, rsum_app. rewrite rsum_zero.
           ++ rewrite Rplus_0_l. rewrite <- (ident_sum (nv - 6) (i - (nv + 6)) (fun j => du (F + j)%nat)) by exact Hl.
              apply rsum_ext. intros j Hj. f_equal. unfold Ju0, bset.
              replace (kd_nu nv c - (nv - 6))%nat with F by (change (kd_nu nv c) with nu; rewrite nu_eq; lia).
              replace (2 * nv - (nv - 6))%nat with (nv + 6)%nat by lia.
              replace (in_seg (nv + 6) (nv - 6) i && in_seg F (nv - 6) (F + j)) with true by (symmetry; unfold in_seg; seg_cases).
              f_equal. lia.
           ++ intros j Hj. unfold Ju0, bset.
              replace (kd_nu nv c - (nv - 6))%nat with F by (change (kd_nu nv c) with nu; rewrite nu_eq; lia).
              replace (in_seg F (nv - 6) j) with false by (unfold in_seg; seg_cases). rewrite andb_false_r. unfold mzero. ring.
Qed.
(** kd_rate satisfies the equations, and is the only function which does *)
Lemma split_mv A f a k : (forall i, (i < nv - 6)%nat -> f (nv + 6 + i)%nat = a i) ->
  mv nv A (seg f nv) k = mv 6 A (seg f nv) k + mv (nv - 6) (right_of A) a k.
Proof.
  intros E. unfold mv. replace nv with (6 + (nv - 6))%nat at 1 by lia. rewrite rsum_app. f_equal.
  apply rsum_ext. intros i Hi. unfold right_of, seg. rewrite <- E by auto. f_equal. f_equal. lia.
Qed.
Lemma xtail_val x i : (i < nv)%nat -> xtail nv (nq + nv) x i = x (nq + i)%nat.
Proof. intros H. unfold xtail. destruct (Nat.ltb_spec i nv); [|lia]. f_equal. lia. Qed.
Lemma kd_rate_sat x u f : (forall i, (i < 2 * nv)%nat -> f i = kd_rate x u i) -> kino_rate P K nq nv c ids x u f.
Proof.
  intros E. split; [|split].
  - intros i Hi. rewrite E by lia. unfold kd_rate. destruct (Nat.ltb_spec i nv); [|lia]. now apply xtail_val.
  - intros i Hi. rewrite E by lia. unfold kd_rate. destruct (Nat.ltb_spec (nv + 6 + i) nv); [lia|].
    destruct (Nat.ltb_spec (nv + 6 + i) (nv + 6)); [lia|]. rewrite utail_eq. unfold F, N. f_equal. lia.
  - intros k Hk. rewrite (split_mv _ f (utail nv c u)).
    2:{ intros i Hi. rewrite E by lia. unfold kd_rate. destruct (Nat.ltb_spec (nv + 6 + i) nv); [lia|].
        destruct (Nat.ltb_spec (nv + 6 + i) (nv + 6)); [lia|]. f_equal. lia. }
    rewrite (mv_ext 6 (p_Ag P (xq nq x)) (p_Ag P (xq nq x)) (seg f nv) (base x u) k).
    2:{ auto. }
    2:{ intros j Hj. unfold seg. rewrite E by lia. unfold kd_rate. destruct (Nat.ltb_spec (nv + j) nv); [lia|].
        destruct (Nat.ltb_spec (nv + j) (nv + 6)); [|lia]. f_equal. lia. }
    unfold base. rewrite <- (mv_mmul 6 6). rewrite (mv_ext 6 (mmul 6 (p_Ag P (xq nq x)) (Agu_inv (xq nq x))) ident (rhs x u) (rhs x u) k).
    + unfold mv at 1. rewrite ident_sum by auto. unfold rhs. ring.
    + intros j Hj. now apply inv_ok.
    + auto.
Qed.
Lemma kd_rate_unique x u f : kino_rate P K nq nv c ids x u f -> forall i, (i < 2 * nv)%nat -> f i = kd_rate x u i.
Proof.
  intros (E1 & E2 & E3) i Hi. unfold kd_rate. destruct (Nat.ltb_spec i nv) as [L|L].
  - rewrite xtail_val by auto. auto.
  - destruct (Nat.ltb_spec i (nv + 6)) as [M|M].
    + transitivity (mv 6 (Agu_inv (xq nq x)) (mv 6 (p_Ag P (xq nq x)) (seg f nv)) (i - nv)%nat).
      * rewrite <- (mv_mmul 6 6). rewrite (mv_ext 6 (mmul 6 (Agu_inv (xq nq x)) (p_Ag P (xq nq x))) ident (seg f nv) (seg f nv) (i - nv)).
        -- unfold mv. rewrite ident_sum by lia. unfold seg. f_equal. lia.
        -- intros j Hj. apply inv_ok; auto. lia.
        -- auto.
      * unfold base. apply mv_ext; auto. intros k Hk. specialize (E3 k Hk).
        rewrite (split_mv _ f (utail nv c u)) in E3.
        -- unfold rhs. lra.
        -- intros j Hj. rewrite E2 by auto. now rewrite utail_eq.
    + replace i with (nv + 6 + (i - (nv + 6)))%nat at 1 by lia. rewrite E2 by lia. now rewrite utail_eq.
Qed.
End Kino.

(** *** free and constrained dynamics *)
Section Free.
Variables (A : apin) (nq nv nu : nat) (tq : tangent) (B : mtx).
Hypothesis HA : acc_ok A nv tq.
Definition ad_J (d : adata) : Prop := forall i j, (i < nv)%nat ->
  ad_Jx d i j = top_right nv i j /\ ad_Ju d i j = 0.
Lemma ndx_sub : (2 * nv - nv = nv)%nat. Proof. lia. Qed.
Lemma ad_value x u d i : (i < 2 * nv)%nat -> ad_xdot (ad_forward A nq nv nu B x u d) i = robot_rate A nq nv nu B x u i.
Proof.
  intros Hi. cbn [ad_forward ad_xdot]. unfold robot_rate, sset. destruct (Nat.ltb_spec i nv); seg_cases.
  - now rewrite Nat.sub_0_r.
  - reflexivity.
Qed.
(** the Jacobians after the derivatives at (q, v, t) are written *)
Lemma ad_rows cv dx u du Jx Ju i : xtang nq nv tq cv dx -> vmoves nu u du ->
  (forall i j, (i < nv)%nat -> Jx i j = top_right nv i j /\ Ju i j = 0) -> (i < 2 * nv)%nat ->
  let q := xq nq (cv 0) in let v := xv nq nv (cv 0) in let t := mv nu B (u 0) in
  forall dq dv dt, (forall k j, (k < nv)%nat -> (j < nv)%nat ->
      dq k j = a_dq A q v t k j /\ dv k j = a_dv A q v t k j /\ dt k j = a_dtau A q v t k j) ->
  derivable_pt_lim (fun s => robot_rate A nq nv nu B (cv s) (u s) i) 0
    (mv (2 * nv) (bottom_set nv (2 * nv) dq dv Jx) dx i +
     mv nu (bset Ju (2 * nv - nv) 0 nv nu (mmul nv dt B)) du i).
Proof.
  intros Hx Hu HJ Hi q v t dq dv dt E. unfold bottom_set. rewrite ndx_sub.
  unfold robot_rate. destruct (Nat.ltb_spec i nv) as [L|L].
  - rewrite (mv_zero nu). 2:{ intros j Hj. rewrite bset_out by (unfold in_seg; seg_cases). now apply HJ. }
    rewrite Rplus_0_r. rewrite (mv_both nv (2 * nv) _ mzero ident dx i); [|lia| |].
    + rewrite mv_zero by (intros; reflexivity). rewrite Rplus_0_l. unfold mv at 1.
      rewrite (ident_sum nv i (fun j => dx (nv + j)%nat)) by auto. exact (proj2 Hx i L).
    + intros j Hj. rewrite !bset_out by (unfold in_seg; seg_cases). rewrite (proj1 (HJ i j L)).
      unfold top_right, bset. replace (in_seg nv nv j) with false by (unfold in_seg; seg_cases). now rewrite andb_false_r.
    + intros j Hj. rewrite !bset_out by (unfold in_seg; seg_cases). rewrite (proj1 (HJ i _ L)).
      unfold top_right, bset. replace (in_seg 0 nv i && in_seg nv nv (nv + j)) with true by (symmetry; unfold in_seg; seg_cases).
      rewrite Nat.sub_0_r. f_equal. lia.
  - pose proof (HA (fun s => xq nq (cv s)) dx (fun s => xv nq nv (cv s)) (fun j => dx (nv + j)%nat) (fun s => mv nu B (u s)) (mv nu B du)
      (proj1 Hx) (proj2 Hx) (mv_moves nv nu B u du Hu) (i - nv)%nat ltac:(lia)) as D.
    cbv beta in D. fold q v t in D. eapply dl_eq; [|exact D].
    rewrite <- (mv_mmul nu nv).
    rewrite (mv_both nv (2 * nv) (bset _ _ _ _ _ _) (fun _ => dq (i - nv)%nat) (fun _ => dv (i - nv)%nat) dx i); [|lia| |].
    + apply f_equal2; [apply f_equal2|]; unfold mv; apply rsum_ext; intros j Hj.
      * now rewrite (proj1 (E (i - nv)%nat j ltac:(lia) Hj)).
      * now rewrite (proj1 (proj2 (E (i - nv)%nat j ltac:(lia) Hj))).
      * f_equal. unfold bset. replace (in_seg nv nv i && in_seg 0 nu j) with true by (symmetry; unfold in_seg; seg_cases).
        rewrite Nat.sub_0_r. unfold mmul. apply rsum_ext. intros k Hk. now rewrite (proj2 (proj2 (E (i - nv)%nat k ltac:(lia) Hk))).
    + intros j Hj. unfold bset. replace (in_seg nv nv j) with false by (unfold in_seg; seg_cases). rewrite andb_false_r.
      replace (in_seg nv nv i && in_seg 0 nv j) with true by (symmetry; unfold in_seg; seg_cases). now rewrite Nat.sub_0_r.
    + intros j Hj. unfold bset at 1. replace (in_seg nv nv i && in_seg nv nv (nv + j)) with true by (symmetry; unfold in_seg; seg_cases).
      f_equal. lia.
Qed.
Lemma ad_J_init d : ad_init nv (2 * nv) d -> ad_J d.
Proof. intros (q & v & t & ->) i j Hi. split; [|reflexivity]. cbn [ad_Jx]. rewrite ndx_sub. reflexivity. Qed.
Lemma ad_J_set q v t Jx Ju : (forall i j, (i < nv)%nat -> Jx i j = top_right nv i j /\ Ju i j = 0) ->
  forall i j, (i < nv)%nat ->
  bottom_set nv (2 * nv) (a_dq A q v t) (a_dv A q v t) Jx i j = top_right nv i j /\
  bset Ju (2 * nv - nv) 0 nv nu (mmul nv (a_dtau A q v t) B) i j = 0.
Proof.
  intros H i j Hi. unfold bottom_set. rewrite ndx_sub. rewrite !bset_out by (unfold in_seg; seg_cases). now apply H.
Qed.
Lemma xtail_eq x : xtail nv (nq + nv) x = xv nq nv x.
Proof.
  apply functional_extensionality. intros i. unfold xtail, xv. destruct (Nat.ltb_spec i nv); auto. f_equal. lia.
Qed.
Lemma free_ok : ocomputes nq nv (2 * nv) nu (2 * nv) tq anywhere (free_dynamics A nq nv (nq + nv) (2 * nv) nu B) (robot_rate A nq nv nu B).
Proof.
  intros d Hd.
  assert (I : ad_J d).
  { revert d Hd. apply (oreach_inv (free_dynamics A nq nv (nq + nv) (2 * nv) nu B)); cbn [o_init o_eval o_jac free_dynamics].
    - apply ad_J_init.
    - intros x u d H. exact H.
    - intros x u d H. exact (ad_J_set _ _ _ _ _ H). }
  split; [intros; now apply ad_value|]. intros cv dx u du Hx Hu _ i Hi d'.
  apply (ad_rows cv dx u du (ad_Jx d) (ad_Ju d) i Hx Hu I Hi). intros k j Hk Hj. rewrite xtail_eq. repeat split; reflexivity.
Qed.
Lemma cons_ok : ocomputes nq nv (2 * nv) nu (2 * nv) tq anywhere (constraint_dynamics A nq nv (2 * nv) nu B) (robot_rate A nq nv nu B).
Proof.
  intros d Hd.
  assert (I : ad_J d).
  { revert d Hd. apply (oreach_inv (constraint_dynamics A nq nv (2 * nv) nu B)); cbn [o_init o_eval o_jac constraint_dynamics].
    - apply ad_J_init.
    - intros x u d H. exact H.
    - intros x u d H. exact (ad_J_set _ _ _ _ _ H). }
  split; [intros; now apply ad_value|]. intros cv dx u du Hx Hu _ i Hi d'.
  apply (ad_rows cv dx u du (ad_Jx d) (ad_Ju d) i Hx Hu I Hi). intros k j Hk Hj. repeat split; reflexivity.
Qed.
End Free.

(** ** C58 *)
Theorem C58_kinodynamics : forall P K nq nv tq c ids, pin_ok P nv tq -> hdot_ok P K nv tq -> lu_ok P K ->
  (3 <= cf_fs c)%nat -> (6 <= nv)%nat ->
  let s := kinodynamics P K nq nv (nq + nv) c ids in
  let nu := (nv - 6 + cm_size (cf_map c) * cf_fs c)%nat in
  (forall d x u, oreach s d -> kino_rate P K nq nv c ids x u (o_value s (o_eval s x u d))) /\
  (forall f, (forall x u, kino_rate P K nq nv c ids x u (f x u)) -> ocomputes nq nv (2 * nv) nu (2 * nv) tq anywhere s f).
Proof.
  intros P K nq nv tq c ids HP HK HL Hfs H6 s nu.
  pose proof (kino_ok P K nq nv tq c ids HP HK HL Hfs H6) as G. split.
  - intros d x u Hd. apply kd_rate_sat; auto. intros i Hi. now apply (proj1 (G d Hd)).
  - intros f Hf. eapply ocomputes_ext; [| |exact G]; [auto|].
    intros x u i Hi. symmetry. now apply kd_rate_unique.
Qed.
(** the constructor throws exactly when there is not one state for each contact *)
Theorem C58_kino_make : forall nv c n, kd_make nv c n = None <-> n <> cm_size (cf_map c).
Proof. intros. unfold kd_make. destruct (Nat.eqb_spec n (cm_size (cf_map c))); split; congruence. Qed.
Theorem C58_free : forall A nq nv nu tq B, acc_ok A nv tq ->
  ocomputes nq nv (2 * nv) nu (2 * nv) tq anywhere (free_dynamics A nq nv (nq + nv) (2 * nv) nu B) (robot_rate A nq nv nu B).
Proof. exact free_ok. Qed.
Theorem C58_constraint : forall A nq nv nu tq B, acc_ok A nv tq ->
  ocomputes nq nv (2 * nv) nu (2 * nv) tq anywhere (constraint_dynamics A nq nv (2 * nv) nu B) (robot_rate A nq nv nu B).
Proof. exact cons_ok. Qed.
Theorem C58_act_make : forall nv rows cols, act_make nv rows cols = if Nat.eqb rows nv then Some cols else None.
Proof. intros. unfold act_make. now rewrite Nat.eqb_sym. Qed.
(** dForward away from the point of the last forward: the free dynamics differentiates at the
    new state with the old torques, the constrained one at the old state with the old torques *)
Definition after (s : obj) (x1 u1 x2 u2 : vec) (d : oD s) : oD s := o_jac s x2 u2 (o_eval s x1 u1 d).
Theorem C58_free_stale : forall A nq nv nu tq B, acc_ok A nv tq ->
  let s := free_dynamics A nq nv (nq + nv) (2 * nv) nu B in
  forall d x1 u2 c dx u du, oreach s d -> xtang nq nv tq c dx -> vmoves nu u du -> forall i, (i < 2 * nv)%nat ->
    let d' := after s x1 (u 0) (c 0) u2 d in
    derivable_pt_lim (fun t => robot_rate A nq nv nu B (c t) (u t) i) 0 (mv (2 * nv) (o_Jx s d') dx i + mv nu (o_Ju s d') du i).
Proof.
  intros A nq nv nu tq B H s d x1 u2 c dx u du Hd Hx Hu i Hi d'.
  exact (proj2 (free_ok A nq nv nu tq B H d Hd) c dx u du Hx Hu I i Hi).
Qed.
Theorem C58_constraint_stale : forall A nq nv nu tq B, acc_ok A nv tq ->
  let s := constraint_dynamics A nq nv (2 * nv) nu B in
  forall d x2 u2 c dx u du, oreach s d -> xtang nq nv tq c dx -> vmoves nu u du -> forall i, (i < 2 * nv)%nat ->
    let d' := after s (c 0) (u 0) x2 u2 d in
    derivable_pt_lim (fun t => robot_rate A nq nv nu B (c t) (u t) i) 0 (mv (2 * nv) (o_Jx s d') dx i + mv nu (o_Ju s d') du i).
Proof.
  intros A nq nv nu tq B H s d x2 u2 c dx u du Hd Hx Hu i Hi d'.
  exact (proj2 (cons_ok A nq nv nu tq B H d Hd) c dx u du Hx Hu I i Hi).
Qed.
Theorem C58_underactuated : forall nv rank, underactuated nv rank = true <-> (rank < nv)%nat.
Proof. intros. unfold underactuated. apply Nat.ltb_lt. Qed.

(** the wheeled inverted pendulum *)
Lemma lt7 i : (i < 7)%nat -> i = 0%nat \/ i = 1%nat \/ i = 2%nat \/ i = 3%nat \/ i = 4%nat \/ i = 5%nat \/ i = 6%nat.
Proof. lia. Qed.
Theorem C58_pendulum : forall len grav, len <> 0 ->
  ocomputes 7 0 7 2 7 (vmoves 7) anywhere (pendulum len grav) (wip_rate len grav).
Proof.
  intros len grav Hl d _. split.
  - intros x u i Hi. cbn [o_value o_eval pendulum wip_forward s_value].
    destruct (lt7 i Hi) as [-> | [-> | [-> | [-> | [-> | [-> | ->]]]]]]; cbn; try reflexivity. field; auto.
  - intros c dx u du [Hx _] Hu _ i Hi d'.
    pose proof (Hx 0%nat ltac:(lia)) as X0. pose proof (Hx 1%nat ltac:(lia)) as X1. pose proof (Hx 2%nat ltac:(lia)) as X2.
    pose proof (Hx 3%nat ltac:(lia)) as X3. pose proof (Hx 4%nat ltac:(lia)) as X4.
    cbv [xq Nat.ltb Nat.leb] in X0, X1, X2, X3, X4.
    pose proof (Hu 0%nat ltac:(lia)) as U0. pose proof (Hu 1%nat ltac:(lia)) as U1.
    clear Hx Hu. unfold wip_rate.
    destruct (lt7 i Hi) as [-> | [-> | [-> | [-> | [-> | [-> | ->]]]]]]; cbn [nth];
      (eapply dl_eq; [|first [dl_go | eapply dl_ext; [intros t; unfold Rdiv; apply Rmult_comm|]; apply dl_scal; dl_go]]);
      unfold d'; cbn [o_Jx o_Ju o_jac o_eval pendulum wip_forward wip_dforward s_Jx s_Ju];
      cbv [mv rsum mset Nat.eqb andb mzero]; first [ring | field; auto].
Qed.

(** the residual of the continuous dynamics: xdot - f, of derivative (Jx, Ju, -I) *)
Theorem C58_ode : forall nq nv ndx nu tq dom s f, ocomputes nq nv ndx nu ndx tq dom s f ->
  forall (d : odata (oD s)), oreach s (od_in d) ->
  forall c dx u du w dw, xtang nq nv tq c dx -> vmoves nu u du -> vmoves ndx w dw -> dom (c 0) (u 0) -> forall i, (i < ndx)%nat ->
    let e := ode_evaluate s (c 0) (u 0) (w 0) d in
    let d' := ode_jacobians s (c 0) (u 0) (w 0) e in
    od_value e i = f (c 0) (u 0) i - w 0 i /\
    derivable_pt_lim (fun t => f (c t) (u t) i - w t i) 0
      (mv ndx (o_Jx s (od_in d')) dx i + mv nu (o_Ju s (od_in d')) du i + mv ndx (od_Jxdot d') dw i) /\
    oreach s (od_in e) /\ oreach s (od_in d').
Proof.
  intros nq nv ndx nu tq dom s f H d Hd c dx u du w dw Hx Hu Hw HD i Hi e d'.
  destruct (H _ Hd) as [V D]. split; [|split; [|split]].
  - unfold e. cbn [ode_evaluate od_value]. now rewrite V.
  - replace (mv ndx (od_Jxdot d') dw i) with (- dw i).
    + apply dl_minus; [exact (D c dx u du Hx Hu HD i Hi)|auto].
    + unfold d'. cbn [ode_jacobians od_Jxdot]. unfold mv, neg_ident.
      rewrite (rsum_ext ndx _ (fun j => (-1) * ((if Nat.eqb i j then 1 else 0) * dw j))) by (intros j _; destruct (Nat.eqb i j); ring).
      rewrite rsum_scale, rsum_delta by auto. ring.
  - now apply OR1.
  - apply OR2. now apply OR1.
Qed.

(** ** Examples *)
(** a base which translates, with three more degrees of freedom which turn its rotors, and a
    sliding joint q6 of half the mass along x which carries the frame 1; the inertia of the
    third rotor is 1 + q6^2 *)
Definition k_place (id : nat) (q : vec) : se3 :=
  SE3 ident (v3 (match id with 0%nat => q 0%nat | _ => q 0%nat + q 6%nat end) (q 1%nat) (q 2%nat)).
Definition k_jac (id : nat) : mtx := fun i j =>
  if Nat.ltb i 3 then (if Nat.eqb i j then 1 else match id with 0%nat => 0 | _ => if Nat.eqb i 0 && Nat.eqb j 6 then 1 else 0 end) else 0.
Definition k_Jc : mtx := fun i j => if Nat.eqb i j then 1 else if Nat.eqb i 0 && Nat.eqb j 6 then / 2 else 0.
Definition k_Ag (q : vec) : mtx := fun i j => if Nat.eqb i 5 && Nat.eqb j 5 then 1 + q 6%nat * q 6%nat else k_Jc i j.
Definition only (a b : nat) (r : R) : mtx := fun i j => if Nat.eqb i a && Nat.eqb j b then r else 0.
Definition k_pin : pin :=
  Pin k_place (fun id j => true) (fun _ id _ _ => k_jac id) (fun _ id _ _ v => mv 7 (k_jac id) v)
    (fun _ _ _ _ _ _ => mzero) (fun _ id _ _ _ _ => k_jac id)
    (fun q => v3 (q 0%nat + q 6%nat * / 2) (q 1%nat) (q 2%nat)) (fun q v => mv 7 k_Jc v) (fun _ => k_Jc) (fun _ _ _ _ => mzero)
    k_Ag (fun q v => only 5 6 (2 * q 6%nat * v 5%nat)) (fun _ => vzero) (fun _ => ident).
Definition k_kpin : kpin :=
  KPin (fun q v => only 5 5 (2 * q 6%nat * v 6%nat))
    (fun q v a => only 5 6 (2 * q 6%nat * a 5%nat + 2 * v 6%nat * v 5%nat))
    (fun q v a => fun i j => only 5 5 (2 * q 6%nat * v 6%nat) i j + only 5 6 (2 * q 6%nat * v 5%nat) i j)
    (fun A i j => if Nat.eqb i j then (if Nat.eqb i 5 then / A 5%nat 5%nat else 1) else 0).
Definition k_tq : tangent := fun g w => forall i, (i < 7)%nat -> derivable_pt_lim (fun t => g t i) 0 (w i).
Ltac seven H := destruct (lt7 _ H) as [-> | [-> | [-> | [-> | [-> | [-> | ->]]]]]].
Ltac kcbv := cbv [mv rsum k_jac k_Jc k_Ag only mzero v3 vzero ident Nat.eqb Nat.ltb Nat.leb andb Nat.add cross ang col k_place sR sp].
Lemma k_pin_ok : pin_ok k_pin 7 k_tq.
Proof.
  constructor; cbn [p_place p_supp p_jac p_vel p_dvel_dq p_dvel_dv p_com p_vcom p_Jcom p_dvcom p_Ag p_dh_dq p_log6 p_Jlog6 k_pin].
  - intros. cbn [k_place sR]. split.
    + intros i j Hi Hj. three Hi; three Hj; kcbv; ring.
    + intros a b i Hi. three Hi; kcbv; ring.
  - discriminate.
  - discriminate.
  - intros id g w H.
    pose proof (H 0%nat ltac:(lia)) as G0. pose proof (H 1%nat ltac:(lia)) as G1. pose proof (H 2%nat ltac:(lia)) as G2. pose proof (H 6%nat ltac:(lia)) as G6.
    cbv beta in G0, G1, G2, G6. split.
    + intros i Hi. destruct id; three Hi; kcbv; dl.
    + intros i j Hi Hj. destruct id; three Hi; three Hj; kcbv; dl.
  - intros id q i j Hi Hj. destruct id; three Hi; seven Hj; kcbv; split; ring.
  - intros id q i j Hi Hj. destruct id; three Hi; seven Hj; kcbv; split; ring.
  - intros id q v i Hi. destruct id; three Hi; kcbv; ring.
  - intros rf id g w v a H Hv i Hi. rewrite (mv_zero _ mzero) by reflexivity.
    eapply dl_eq; [|apply (mv_moves 6 7 (k_jac id) v a Hv i Hi)]. ring.
  - reflexivity.
  - intros g w H i Hi. pose proof (H 0%nat ltac:(lia)) as G0. pose proof (H 1%nat ltac:(lia)) as G1. pose proof (H 2%nat ltac:(lia)) as G2. pose proof (H 6%nat ltac:(lia)) as G6.
    cbv beta in G0, G1, G2, G6. three Hi; kcbv; dl.
  - intros g w v a H Hv i Hi. rewrite (mv_zero _ mzero) by reflexivity.
    eapply dl_eq; [|apply (mv_moves 3 7 k_Jc v a Hv i Hi)]. ring.
  - intros g w v a H Hv i Hi.
    pose proof (H 6%nat ltac:(lia)) as G6. cbv beta in G6.
    pose proof (Hv 0%nat ltac:(lia)) as A0. pose proof (Hv 1%nat ltac:(lia)) as A1. pose proof (Hv 2%nat ltac:(lia)) as A2. pose proof (Hv 3%nat ltac:(lia)) as A3.
    pose proof (Hv 4%nat ltac:(lia)) as A4. pose proof (Hv 5%nat ltac:(lia)) as A5. pose proof (Hv 6%nat ltac:(lia)) as A6.
    cbv beta in A0, A1, A2, A3, A4, A5, A6. six Hi; kcbv; dl.
Qed.
Lemma k_hdot_ok : hdot_ok k_pin k_kpin 7 k_tq.
Proof.
  intros g w v dv a da H Hv Ha i Hi. cbn [k_pin p_Ag k_kpin k_dAg k_dq k_dv].
  pose proof (H 6%nat ltac:(lia)) as G6. pose proof (Hv 5%nat ltac:(lia)) as V5. pose proof (Hv 6%nat ltac:(lia)) as V6.
  pose proof (Ha 0%nat ltac:(lia)) as A0. pose proof (Ha 1%nat ltac:(lia)) as A1. pose proof (Ha 2%nat ltac:(lia)) as A2. pose proof (Ha 3%nat ltac:(lia)) as A3.
  pose proof (Ha 4%nat ltac:(lia)) as A4. pose proof (Ha 5%nat ltac:(lia)) as A5. pose proof (Ha 6%nat ltac:(lia)) as A6.
  cbv beta in G6, V5, V6, A0, A1, A2, A3, A4, A5, A6. clear H Hv Ha.
  eapply dl_eq with (l := mv 7 (k_Ag (g 0)) da i + (if Nat.eqb i 5 then 2 * g 0 6%nat * w 6%nat * a 0 5%nat
    + 2 * (w 6%nat * v 0 6%nat * v 0 5%nat + g 0 6%nat * dv 6%nat * v 0 5%nat + g 0 6%nat * v 0 6%nat * dv 5%nat) else 0)).
  - six Hi; kcbv; ring.
  - eapply dl_ext with (f := fun t => mv 7 (k_Ag (g t)) (a t) i + (if Nat.eqb i 5 then 2 * g t 6%nat * v t 6%nat * v t 5%nat else 0)).
    + intros t. six Hi; kcbv; ring.
    + six Hi; kcbv; dl.
Qed.
Lemma k_lu_ok : lu_ok k_pin k_kpin.
Proof.
  intros q. cbn [k_pin p_Ag k_kpin k_inv]. assert (E : 1 + q 6%nat * q 6%nat <> 0) by nra.
  intros i j Hi Hj. six Hi; six Hj; cbv [mmul block6]; kcbv; split; try ring; field; auto.
Qed.
(** the frame 1 is pushed along y by a force of 1; the other contact is not active *)
Definition k_contacts : cfwd := CFwd 1 (v3 0 0 (-10)) (CMap 2 (fun i => Nat.eqb i 1) (fun _ => vzero)) 3.
Definition k_curve (t : R) : vec := fun i => match i with 6%nat => 2 + t | 12%nat => 1 | 13%nat => 1 | _ => 0 end.
Definition k_dx : vec := fun i => match i with 6%nat => 1 | _ => 0 end.
Definition k_force : vec := fun i => match i with 0%nat => 5 | 4%nat => 1 | 6%nat => 7 | _ => 0 end.
Lemma k_curve_tang : xtang 7 7 k_tq k_curve k_dx.
Proof.
  assert (A : derivable_pt_lim (fun t => t) 0 1) by apply derivable_pt_lim_id.
  split; intros i Hi; seven Hi; cbv [xq xv Nat.ltb Nat.leb k_curve k_dx Nat.add]; dl.
Qed.
Example C58_kino_example :
  pin_ok k_pin 7 k_tq /\ hdot_ok k_pin k_kpin 7 k_tq /\ lu_ok k_pin k_kpin /\ (3 <= cf_fs k_contacts)%nat /\ xtang 7 7 k_tq k_curve k_dx /\
  let s := kinodynamics k_pin k_kpin 7 7 14 k_contacts (fun i => i) in
  forall d, oreach s d ->
    let e := o_eval s (k_curve 0) k_force d in
    (* gravity; the acceleration of the base along x makes up for that of the joint; the rotor *)
    kd_xdot e 9%nat = -10 /\ kd_xdot e 7%nat = - 7 / 2 /\ kd_xdot e 12%nat = - 3 / 5 /\
    kd_Jx (o_jac s (k_curve 0) k_force e) 12%nat 6%nat = 9 / 50.
Proof.
  split; [exact k_pin_ok|]. split; [exact k_hdot_ok|]. split; [exact k_lu_ok|]. split; [simpl; lia|]. split; [exact k_curve_tang|].
  intros s d Hd.
  destruct (C58_kinodynamics k_pin k_kpin 7 7 k_tq k_contacts (fun i => i) k_pin_ok k_hdot_ok k_lu_ok ltac:(simpl; lia) ltac:(lia)) as [V D].
  change (kinodynamics k_pin k_kpin 7 7 (7 + 7) k_contacts (fun i => i)) with s in V, D.
  set (f := fun x u => o_value s (o_eval s x u d)).
  assert (K : forall x u, kino_rate k_pin k_kpin 7 7 k_contacts (fun i => i) x u (f x u)) by (intros; now apply V).
  pose proof (D f K d Hd) as [_ J]. clear D V.
  assert (M : forall x k, (k < 6)%nat -> momentum_rate k_pin 7 k_contacts (fun i => i) x k_force k =
    match k with 1%nat => 1 | 2%nat => -10 | 5%nat => / 2 * x 6%nat | 3%nat => 0 | _ => 0 end).
  { intros x k Hk. six Hk; cbv [momentum_rate net_force net_moment over k_contacts contacts_at cf_map cm_size cm_state cm_pose cf_fs cf_mass cf_gravity seg rsum negb
      Nat.eqb Nat.ltb Nat.leb Nat.add Nat.mul Nat.sub k_force v3 cross sp pos_of p_place k_pin k_place p_com xq]; field. }
  assert (X : forall x k, (k < 6)%nat -> mv 7 (k_Ag (xq 7 x)) (seg (f x k_force) 7) k +
    mv 7 (only 5 5 (2 * x 6%nat * x 13%nat)) (xtail 7 14 x) k = match k with 1%nat => 1 | 2%nat => -10 | 5%nat => / 2 * x 6%nat | 3%nat => 0 | _ => 0 end).
  { intros x k Hk. rewrite <- (M x k Hk). exact (proj2 (proj2 (K x k_force)) k Hk). }
  assert (X13 : forall x, f x k_force 13%nat = 7) by (intros x; exact (proj1 (proj2 (K x k_force)) 0%nat ltac:(lia))).
  assert (X7 : forall x, f x k_force 7%nat = - 7 / 2).
  { intros x. pose proof (X x 0%nat ltac:(lia)) as E. pose proof (X13 x) as E'. revert E.
    cbv [mv rsum k_Ag k_Jc only seg Nat.eqb andb Nat.add]. lra. }
  assert (X9 : forall x, f x k_force 9%nat = -10).
  { intros x. pose proof (X x 2%nat ltac:(lia)) as E. revert E.
    cbv [mv rsum k_Ag k_Jc only seg Nat.eqb andb Nat.add]. lra. }
  assert (X12 : forall x, f x k_force 12%nat = (/ 2 * x 6%nat - 2 * x 6%nat * x 13%nat * x 12%nat) / (1 + x 6%nat * x 6%nat)).
  { intros x. pose proof (X x 5%nat ltac:(lia)) as E. revert E.
    cbv [mv rsum k_Ag k_Jc only seg Nat.eqb andb Nat.add xq xtail Nat.ltb Nat.leb Nat.sub]. intros E.
    assert (H : 1 + x 6%nat * x 6%nat <> 0) by nra. apply (Rmult_eq_reg_r (1 + x 6%nat * x 6%nat)); auto.
    unfold Rdiv. rewrite Rmult_assoc, Rinv_l, Rmult_1_r by auto. lra. }
  split; [apply X9|]. split; [apply X7|]. split.
  - change (f (k_curve 0) k_force 12%nat = - 3 / 5). rewrite X12. cbv [k_curve]. field.
  - pose proof (J k_curve k_dx (fun _ => k_force) vzero k_curve_tang (vmoves_const _ _) I 12%nat ltac:(lia)) as G. cbv zeta beta in G.
    rewrite mv_vzero in G.
    assert (G' : derivable_pt_lim (fun t => (/ 2 * (2 + t) - 2 * (2 + t)) / (1 + (2 + t) * (2 + t))) 0
      (kd_Jx (o_jac s (k_curve 0) k_force (o_eval s (k_curve 0) k_force d)) 12%nat 6%nat)).
    { eapply dl_eq; [|apply (dl_ext (fun t => f (k_curve t) k_force 12%nat)); [|exact G]].
      - set (d' := o_jac s (k_curve 0) k_force (o_eval s (k_curve 0) k_force d)). change (o_Jx s d') with (kd_Jx d').
        clearbody d'. cbv [mv rsum k_dx Nat.mul Nat.add]. ring.
      - intros t. rewrite X12. cbv [k_curve]. f_equal. ring. }
    apply (uniqueness_limite _ 0 _ _ G'). clear.
    assert (A : derivable_pt_lim (fun t => t) 0 1) by apply derivable_pt_lim_id.
    replace (9 / 50) with ((-3/2 * (1 + (2 + 0) * (2 + 0)) - (1 * (2 + 0) + (2 + 0) * 1) * (/ 2 * (2 + 0) - 2 * (2 + 0))) / Rsqr (1 + (2 + 0) * (2 + 0)))
      by (unfold Rsqr; field).
    apply (derivable_pt_lim_div (fun t => / 2 * (2 + t) - 2 * (2 + t)) (fun t => 1 + (2 + t) * (2 + t))); [dl; field|dl|lra].
Qed.

(** a pendulum with a motor: theta'' = u - (1 + theta'^2 / 2) sin theta *)
Definition motor_pin : apin :=
  APin (fun q v t _ => t 0%nat - (1 + v 0%nat * v 0%nat * / 2) * sin (q 0%nat))
       (fun q v t _ _ => - ((1 + v 0%nat * v 0%nat * / 2) * cos (q 0%nat)))
       (fun q v t _ _ => - (v 0%nat * sin (q 0%nat))) (fun q v t _ _ => 1).
Definition one_tq : tangent := fun g w => derivable_pt_lim (fun t => g t 0%nat) 0 (w 0%nat).
Lemma motor_ok : acc_ok motor_pin 1 one_tq.
Proof.
  intros g w v a t b H Hv Ht i Hi. pose proof (Hv 0%nat ltac:(lia)) as V. pose proof (Ht 0%nat ltac:(lia)) as T. unfold one_tq in H. cbv beta in V, T.
  cbn [a_acc a_dq a_dv a_dtau motor_pin]. cbv [mv rsum]. eapply dl_eq; [|dl_go]. cbv beta. field.
Qed.
(** gear of ratio 3; two calls to forward with different torques, and dForward at a third point *)
Example C58_motor_example :
  acc_ok motor_pin 1 one_tq /\
  let B : mtx := fun _ _ => 3 in
  let x (q v : R) : vec := fun i => match i with 0%nat => q | _ => v end in
  let free := free_dynamics motor_pin 1 1 2 2 1 B in
  let cons := constraint_dynamics motor_pin 1 1 2 1 B in
  (forall d, oreach free d ->
     let e := o_eval free (x 0 4) (fun _ => 5) d in
     ad_xdot e 0%nat = 4 /\ ad_xdot e 1%nat = 15 /\
     let j := o_jac free (x 0 4) (fun _ => 5) e in
     ad_Jx j 0%nat 0%nat = 0 /\ ad_Jx j 0%nat 1%nat = 1 /\ ad_Jx j 1%nat 0%nat = -9 /\ ad_Jx j 1%nat 1%nat = 0 /\
     ad_Ju j 0%nat 0%nat = 0 /\ ad_Ju j 1%nat 0%nat = 3) /\
  (* at another state, the constrained dynamics still returns the old derivative *)
  (forall d, oreach cons d -> forall u,
     let j := after cons (x 0 4) (fun _ => 5) (x 0 2) u d in
     ad_Jx j 1%nat 0%nat = -9 /\ ~ derivable_pt_lim (fun t => robot_rate motor_pin 1 1 1 B (x t 2) u 1%nat) 0 (ad_Jx j 1%nat 0%nat)) /\
  act_make 1 2 1 = None /\ act_make 1 1 3 = Some 3%nat.
Proof.
  split; [exact motor_ok|]. intros B x free cons. split; [|split; [|split; reflexivity]].
  - intros d Hd e.
    assert (I : ad_J 1 d).
    { revert d Hd e. intros d Hd _. revert d Hd. apply (oreach_inv free); unfold free; cbn [o_init o_eval o_jac free_dynamics].
      - apply ad_J_init.
      - intros y u d H. exact H.
      - intros y u d H. exact (ad_J_set motor_pin 1 1 B _ _ _ _ _ H). }
    pose proof (I 0%nat 0%nat ltac:(lia)) as I0. pose proof (I 0%nat 1%nat ltac:(lia)) as I1.
    unfold e. cbn. rewrite sin_0, cos_0. unfold B.
    cbv [top_right bset mzero ident Nat.leb Nat.ltb Nat.eqb Nat.sub Nat.add andb] in I0, I1.
    destruct I0 as [-> ->]. destruct I1 as [-> _]. repeat split; try ring; field.
  - intros d Hd u j.
    assert (E : ad_Jx j 1%nat 0%nat = -9) by (unfold j, after, cons; cbn; replace (x 0 4 0%nat) with 0 by reflexivity; rewrite cos_0; field).
    split; [exact E|]. rewrite E. intros H.
    assert (A : derivable_pt_lim (fun t => t) 0 1) by apply derivable_pt_lim_id.
    assert (G : derivable_pt_lim (fun t => robot_rate motor_pin 1 1 1 B (x t 2) u 1%nat) 0 (-3)).
    { clear H. cbn. eapply dl_eq; [|dl_go]. cbv beta. rewrite cos_0. field. }
    pose proof (uniqueness_limite _ 0 _ _ G H). lra.
Qed.
(** the pendulum leaning forward with both inputs: theta'' = (10 sin theta - a cos theta) / 2 *)
Example C58_pendulum_example : forall d, oreach (pendulum 2 10) d ->
  let x : vec := fun i => match i with 0%nat => 3 | 2%nat => PI / 2 | _ => 0 end in
  let u : vec := fun i => match i with 0%nat => 4 | _ => 1 end in
  let e := o_eval (pendulum 2 10) x u d in let j := o_jac (pendulum 2 10) x u e in
  s_value e 3%nat = 5 /\ s_value e 5%nat = 3 /\ s_value e 6%nat = 0 /\ s_Jx j 3%nat 2%nat = 2 /\ s_Jx j 6%nat 4%nat = 3.
Proof.
  intros d Hd x u e j. cbn. rewrite sin_PI2, cos_PI2, sin_0, cos_0. repeat split; field.
Qed.
