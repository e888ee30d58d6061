(** C57: the Jacobians of the force residuals are derivatives. *)
From Coq Require Import Reals List Lra Lia Arith Bool String.
From Verif Require P_cone.
From Verif Require Import CentroidalModel P_centroidal MbModel P_mb ConeModel MbForceModel.
Import ListNotations.
Local Open Scope R_scope.

(** ** Specification *)
Inductive oreach (s : obj) : oD s -> Prop :=
| OR0 d : o_init s d -> oreach s d
| OR1 x u d : oreach s d -> oreach s (o_eval s x u d)
| OR2 x u d : oreach s d -> oreach s (o_jac s x u d).
(** from any reachable data evaluate stores [f], and computeJacobians after it at the same
    point stores the derivative of [f], along all curves of states and controls through a
    point of [dom] *)
Definition ocomputes (nq nv ndx nu r : nat) (tq : tangent) (dom : vec -> vec -> Prop) (s : obj) (f : vec -> vec -> vec) : Prop :=
  forall d, oreach s d ->
    (forall x u i, (i < r)%nat -> o_value s (o_eval s x u d) i = f x u i) /\
    (forall c dx u du, xtang nq nv tq c dx -> vmoves nu u du -> dom (c 0) (u 0) -> forall i, (i < r)%nat ->
       let d' := o_jac s (c 0) (u 0) (o_eval s (c 0) (u 0) d) in
       derivable_pt_lim (fun t => f (c t) (u t) i) 0 (mv ndx (o_Jx s d') dx i + mv nu (o_Ju s d') du i)).
Definition anywhere (x u : vec) : Prop := True.

(** the contacts of a residual at a state: poses from the robot *)
Definition contacts_at (P : pin) (nq : nat) (c : cfwd) (ids : nat -> nat) (x : vec) : cfwd :=
  CFwd (cf_mass c) (cf_gravity c)
    (CMap (cm_size (cf_map c)) (cm_state (cf_map c)) (fun i => sp (pos_of P nq (ids i) x))) (cf_fs c).
(** rate of the centroidal momentum: m g + forces; moments about the centre of mass *)
Definition momentum_rate (P : pin) (nq : nat) (c : cfwd) (ids : nat -> nat) (x u : vec) : vec := fun k =>
  let cx := contacts_at P nq c ids x in
  if Nat.ltb k 3 then cf_mass c * cf_gravity c k + net_force cx u k
  else net_moment cx (p_com P (xq nq x)) u (k - 3)%nat.

(** gravity: the derivative routine is right where it writes, and the entries it does not
    write are zero *)
Definition grav_ok (G : gpin) (nv : nat) (tq : tangent) : Prop :=
  (forall g w, tq g w -> forall i, (i < nv)%nat ->
     derivable_pt_lim (fun t => g_grav G (g t) i) 0 (mv nv (g_dgrav G (g 0)) w i)) /\
  (forall q i j, (i < nv)%nat -> (j < nv)%nat -> g_rel G i j = false -> g_dgrav G q i j = 0).
(** contact forces *)
Definition lam_ok (L : lpin) (nv : nat) (tq : tangent) : Prop :=
  forall g w v a t b, tq g w -> vmoves nv v a -> vmoves nv t b -> forall i,
    derivable_pt_lim (fun s => l_lambda L (g s) (v s) (t s) i) 0
      (mv nv (l_dq L (g 0) (v 0) (t 0)) w i + mv nv (l_dv L (g 0) (v 0) (t 0)) a i + mv nv (l_dtau L (g 0) (v 0) (t 0)) b i).
(** the force of contact k among contacts of the given sizes, stacked *)
Fixpoint force_of (sizes : list nat) (k : nat) (l : vec) : vec :=
  match k, sizes with
  | S k, n :: sizes => force_of sizes k (fun i => l (n + i)%nat)
  | _, _ => l
  end.

(** ** Proofs *)
Lemma oreach_inv s (I : oD s -> Prop) : (forall d, o_init s d -> I d) ->
  (forall x u d, I d -> I (o_eval s x u d)) -> (forall x u d, I d -> I (o_jac s x u d)) -> forall d, oreach s d -> I d.
Proof. intros H0 H1 H2 d H. induction H; auto. Qed.

Lemma xtail_moves nq nv tq c dx : xtang nq nv tq c dx ->
  vmoves nv (fun t => xtail nv (nq + nv) (c t)) (fun i => dx (nv + i)%nat).
Proof.
  intros [_ Hv] k Hk. apply (dl_ext (fun t => xv nq nv (c t) k)); [intros; now rewrite xtail_xv|now apply Hv].
Qed.
Lemma mv_moves n nu B u du : vmoves nu u du -> vmoves n (fun t => mv nu B (u t)) (mv nu B du).
Proof.
  intros H i _. unfold mv. apply (dl_rsum nu (fun j t => B i j * u t j) (fun j => B i j * du j)).
  intros j Hj. apply dl_scal. now apply H.
Qed.

Lemma mv_neg_row n (M : mtx) k w i : mv n (fun _ j => - M k j) w i = - mv n M w k.
Proof. unfold mv. rewrite <- (Rmult_1_l (rsum n (fun j => M k j * w j))), Ropp_mult_distr_l, <- rsum_scale. apply rsum_ext. intros. ring. Qed.

(** *** contact forces *)
Section Force.
Variables (L : lpin) (nq nv nu : nat) (tq : tangent) (B : mtx) (id : nat).
Hypothesis HL : lam_ok L nv tq.
Definition lambda (x u : vec) : vec := l_lambda L (xq nq x) (xtail nv (nq + nv) x) (mv nu B u).
Lemma lambda_deriv c dx u du : xtang nq nv tq c dx -> vmoves nu u du -> forall i,
  let q := xq nq (c 0) in let v := xtail nv (nq + nv) (c 0) in let t := mv nu B (u 0) in
  derivable_pt_lim (fun s => lambda (c s) (u s) i) 0
    (mv nv (l_dq L q v t) dx i + mv nv (l_dv L q v t) (fun j => dx (nv + j)%nat) i + mv nu (mmul nv (l_dtau L q v t) B) du i).
Proof.
  intros Hx Hu i q v t. unfold lambda.
  rewrite mv_mmul.
  apply (HL (fun s => xq nq (c s)) dx (fun s => xtail nv (nq + nv) (c s)) _ (fun s => mv nu B (u s)) _ (proj1 Hx)).
  - now apply (xtail_moves nq nv tq).
  - now apply mv_moves.
Qed.
Lemma contact_force_ok fs fref :
  ocomputes nq nv (2 * nv) nu fs tq anywhere (contact_force L nq nv (nq + nv) (2 * nv) nu B id fs fref)
    (fun x u => vsub (seg (lambda x u) (id * fs)) fref).
Proof.
  intros d _. split; [reflexivity|].
  intros c dx u du Hx Hu _ i Hi d'.
  set (q := xq nq (c 0)). set (v := xtail nv (nq + nv) (c 0)). set (t := mv nu B (u 0)).
  rewrite (mv_both nv fs _ (block_rows (l_dq L q v t) (id * fs)) (block_rows (l_dv L q v t) (id * fs))); auto.
  - unfold vsub, seg. apply dl_sub. exact (lambda_deriv c dx u du Hx Hu (id * fs + i)).
  - intros j Hj. unfold d'. cbn [o_Jx o_jac o_eval contact_force force_obj fd_Jx]. rewrite right_out, left_in by auto. reflexivity.
  - intros j Hj. unfold d'. cbn [o_Jx o_jac o_eval contact_force force_obj fd_Jx]. rewrite right_in by auto. reflexivity.
Qed.
Lemma mb_wrench_ok mu hL hW :
  ocomputes nq nv (2 * nv) nu 17 tq anywhere (mb_wrench L nq nv (nq + nv) (2 * nv) nu B id mu hL hW)
    (fun x u => mv 6 (acone mu hL hW) (seg (lambda x u) (id * 6))).
Proof.
  intros d _. split; [reflexivity|].
  intros c dx u du Hx Hu _ i Hi d'. set (A := acone mu hL hW).
  set (q := xq nq (c 0)). set (v := xtail nv (nq + nv) (c 0)). set (t := mv nu B (u 0)).
  rewrite (mv_both nv 17 _ (mmul 6 A (block_rows (l_dq L q v t) (id * 6))) (mmul 6 A (block_rows (l_dv L q v t) (id * 6)))); auto.
  - change (o_Ju _ d') with (mmul 6 A (mmul nv (block_rows (l_dtau L q v t) (id * 6)) B)).
    rewrite (mv_mmul nu 6), !(mv_mmul nv 6).
    unfold mv at 1. eapply dl_eq; [|apply (dl_rsum 6 (fun k s => A i k * seg (lambda (c s) (u s)) (id * 6) k));
      intros k Hk; apply dl_scal; exact (lambda_deriv c dx u du Hx Hu (id * 6 + k))].
    cbv beta. fold q v t.
    assert (M : forall w, mv 6 A w i = rsum 6 (fun k => A i k * w k)) by reflexivity.
    rewrite !M, <- !rsum_plus. apply rsum_ext. intros k Hk.
    rewrite <- !Rmult_plus_distr_l. reflexivity.
  - intros j Hj. unfold d'. cbn [o_Jx o_jac o_eval mb_wrench force_obj fd_Jx]. rewrite right_out, left_in by auto. reflexivity.
  - intros j Hj. unfold d'. cbn [o_Jx o_jac o_eval mb_wrench force_obj fd_Jx]. rewrite right_in by auto. reflexivity.
Qed.
(** friction cone, where the tangential force is not zero *)
Definition friction_value (mu : R) (f : vec) : vec := fun k =>
  match k with 0%nat => - f 2%nat | _ => - mu * f 2%nat + sqrt (f 0%nat * f 0%nat + f 1%nat * f 1%nat) end.
Lemma mb_friction_ok mu :
  ocomputes nq nv (2 * nv) nu 2 tq
    (fun x u => lambda x u (id * 3)%nat <> 0 \/ lambda x u (id * 3 + 1)%nat <> 0)
    (mb_friction L nq nv (nq + nv) nu B id mu)
    (fun x u => friction_value mu (seg (lambda x u) (id * 3))).
Proof.
  intros d _. split.
  - intros x u i Hi. destruct i as [|[|i]]; [| |lia]; cbn [o_value o_eval mb_friction force_obj force_eval fd_value friction_value].
    + reflexivity.
    + unfold seg. rewrite Nat.add_0_r. simpl pow. rewrite !Rmult_1_r. reflexivity.
  - intros c dx u du Hx Hu HD i Hi d'.
    set (q := xq nq (c 0)). set (v := xtail nv (nq + nv) (c 0)). set (t := mv nu B (u 0)).
    set (l := lambda (c 0) (u 0)) in *.
    set (s := sqrt (l (id * 3)%nat ^ 2 + l (id * 3 + 1)%nat ^ 2)).
    set (dc := row3 (l (id * 3)%nat / s) (l (id * 3 + 1)%nat / s) (- mu)).
    set (T := mmul nv (block_rows (l_dtau L q v t) (id * 3)) B).
    assert (N : 0 < l (id * 3)%nat ^ 2 + l (id * 3 + 1)%nat ^ 2).
    { simpl. rewrite !Rmult_1_r. destruct HD as [H|H].
      - pose proof (Rsqr_pos_lt _ H). pose proof (Rle_0_sqr (l (id * 3 + 1)%nat)). unfold Rsqr in *. lra.
      - pose proof (Rsqr_pos_lt _ H). pose proof (Rle_0_sqr (l (id * 3)%nat)). unfold Rsqr in *. lra. }
    assert (Hl : forall k, (k < 3)%nat -> derivable_pt_lim (fun s => lambda (c s) (u s) (id * 3 + k)%nat) 0
       (mv nv (block_rows (l_dq L q v t) (id * 3)) dx k + mv nv (block_rows (l_dv L q v t) (id * 3)) (fun j => dx (nv + j)%nat) k + mv nu T du k))
      by (intros k _; exact (lambda_deriv c dx u du Hx Hu (id * 3 + k))).
    destruct i as [|[|i]]; [| |lia].
    + rewrite (mv_both nv 1 _ (fun _ j => - l_dq L q v t (id * 3 + 2)%nat j) (fun _ j => - l_dv L q v t (id * 3 + 2)%nat j)); [|lia| |].
      * replace (mv nu (o_Ju _ d') du 0%nat) with (- mv nu T du 2%nat).
        -- eapply dl_eq; [|apply dl_opp, (Hl 2%nat); lia].
           rewrite !mv_neg_row. unfold mv, block_rows. ring.
        -- rewrite <- (mv_neg_row nu T 2 du 0). unfold mv. apply rsum_ext. intros j Hj. f_equal.
           unfold d'. cbn [o_Ju o_jac o_eval mb_friction force_obj fd_Ju]. unfold bset. seg_cases. rewrite Nat.sub_0_r. reflexivity.
      * intros j Hj. unfold d'. cbn [o_Jx o_jac o_eval mb_friction force_obj fd_Jx]. unfold bset. seg_cases.
        rewrite ?Nat.sub_0_r, ?Nat.add_0_r. reflexivity.
      * intros j Hj. unfold d'. cbn [o_Jx o_jac o_eval mb_friction force_obj fd_Jx]. unfold bset. seg_cases.
        rewrite ?Nat.add_0_r. replace (nv + j - nv)%nat with j by lia. reflexivity.
    + rewrite (mv_both nv 2 _ (fun _ => mmul 3 dc (block_rows (l_dq L q v t) (id * 3)) 0%nat) (fun _ => mmul 3 dc (block_rows (l_dv L q v t) (id * 3)) 0%nat)); [|lia| |].
      * replace (mv nu (o_Ju _ d') du 1%nat) with (mv nu (mmul 3 dc T) du 0%nat).
        -- change (mv nv (fun _ => mmul 3 dc (block_rows (l_dq L q v t) (id * 3)) 0%nat) dx 1%nat) with (mv nv (mmul 3 dc (block_rows (l_dq L q v t) (id * 3))) dx 0%nat).
           change (mv nv (fun _ => mmul 3 dc (block_rows (l_dv L q v t) (id * 3)) 0%nat) (fun j => dx (nv + j)%nat) 1%nat)
             with (mv nv (mmul 3 dc (block_rows (l_dv L q v t) (id * 3))) (fun j => dx (nv + j)%nat) 0%nat).
           rewrite !mv_mmul. cbn [friction_value].
           pose proof (Hl 0%nat ltac:(lia)) as D0. pose proof (Hl 1%nat ltac:(lia)) as D1. pose proof (Hl 2%nat ltac:(lia)) as D2.
           rewrite Nat.add_0_r in D0.
           assert (DS : derivable_pt_lim (fun r => lambda (c r) (u r) (id * 3)%nat * lambda (c r) (u r) (id * 3)%nat + lambda (c r) (u r) (id * 3 + 1)%nat * lambda (c r) (u r) (id * 3 + 1)%nat) 0 _)
             by (apply dl_plus; apply dl_mult; eassumption).
           assert (E : l (id * 3)%nat * l (id * 3)%nat + l (id * 3 + 1)%nat * l (id * 3 + 1)%nat = l (id * 3)%nat ^ 2 + l (id * 3 + 1)%nat ^ 2) by ring.
           assert (Hs : 0 < s) by now apply sqrt_lt_R0.
           eapply dl_eq; [|apply dl_plus; [apply dl_scal, D2|]].
           2:{ eapply dl_ext; [|apply (dl_comp _ sqrt _ (/ (2 * s)) DS)].
               - intros r. unfold seg. rewrite Nat.add_0_r. reflexivity.
               - cbv beta. fold l. rewrite E. apply derivable_pt_lim_sqrt. exact N. }
           cbv beta. fold l.
           assert (M : forall w, mv 3 dc w 0%nat = rsum 3 (fun k => dc 0%nat k * w k)) by reflexivity.
           rewrite !M. cbn [rsum]. unfold dc, row3. cbv beta iota. field. lra.
        -- unfold mv. apply rsum_ext. intros j Hj. f_equal.
           unfold d'. cbn [o_Ju o_jac o_eval mb_friction force_obj fd_Ju]. unfold bset at 1. seg_cases. rewrite Nat.sub_0_r. reflexivity.
      * intros j Hj. unfold d'. cbn [o_Jx o_jac o_eval mb_friction force_obj fd_Jx]. unfold bset. seg_cases.
        rewrite ?Nat.sub_0_r. reflexivity.
      * intros j Hj. unfold d'. cbn [o_Jx o_jac o_eval mb_friction force_obj fd_Jx]. unfold bset. seg_cases.
        replace (nv + j - nv)%nat with j by lia. reflexivity.
Qed.
End Force.

(** *** centroidal momentum derivative *)
Lemma dl_over c n (f : nat -> R -> R) a : (forall i, (i < n)%nat -> cm_state (cf_map c) i = true -> derivable_pt_lim (f i) 0 (a i)) ->
  derivable_pt_lim (fun t => overn c n (fun i => f i t)) 0 (overn c n a).
Proof.
  intros H. unfold overn. apply (dl_rsum n (fun i t => if cm_state (cf_map c) i then f i t else 0)).
  intros i Hi. specialize (H i Hi). destruct (cm_state (cf_map c) i); [auto|apply dl_const].
Qed.
Lemma dl_cross a a' b b' k : (forall i, (i < 3)%nat -> derivable_pt_lim (fun t => a t i) 0 (a' i)) ->
  (forall i, (i < 3)%nat -> derivable_pt_lim (fun t => b t i) 0 (b' i)) ->
  derivable_pt_lim (fun t => cross (a t) (b t) k) 0 (cross a' (b 0) k + cross (a 0) b' k).
Proof.
  intros A B.
  assert (G : forall i j, (i < 3)%nat -> (j < 3)%nat -> derivable_pt_lim (fun t => a t i * b t j) 0 (a' i * b 0 j + a 0 i * b' j))
    by (intros; apply dl_mult; auto).
  destruct k as [|[|[|k]]]; cbn [cross]; try (eapply dl_eq; [|apply dl_minus; apply G; lia]; ring).
  eapply dl_eq; [|apply dl_const]. ring.
Qed.
Section Cmd.
Variables (P : pin) (nq nv : nat) (tq : tangent) (c : cfwd) (ids : nat -> nat).
Hypothesis HP : pin_ok P nv tq.
Hypothesis Hfs : (3 <= cf_fs c)%nat.

Definition cmd_at (q : vec) (pc : pcache) (n : nat) : Prop :=
  c_oMi pc = q /\ c_com pc = q /\ forall j, (j < n)%nat -> cm_state (cf_map c) j = true -> c_oMf pc (ids j) = q.
Lemma cmd_loop x u n pc v : let q := xq nq x in let cx := contacts_at P nq c ids x in
  cmd_at q pc 0 ->
  let s := for_n n (cmd_body P c ids u) (pc, v) in
  cmd_at q (fst s) n /\
  forall k, snd s k = v k + (if Nat.ltb k 3 then overn c n (fun i => u (i * cf_fs c + k)%nat)
                             else if Nat.ltb k 6 then overn c n (fun i => moment1 cx (p_com P q) u 0 i (k - 3)%nat) else 0).
Proof.
  intros q cx H0 s. induction n.
  - split; [exact H0|]. intros k. unfold s, overn. simpl. repeat destruct (Nat.ltb _ _); ring.
  - unfold s. cbn [for_n]. clear s. destruct (for_n n (cmd_body P c ids u) (pc, v)) as [pc' v'].
    cbn [fst snd] in IHn. destruct IHn as [(I1 & I2 & I3) I4]. unfold cmd_body.
    destruct (cm_state (cf_map c) n) eqn:En.
    + cbn [fst snd]. split.
      * split; [exact I1|]. split; [exact I2|]. intros j Hj Ej. cbn [c_oMf update_frame].
        destruct (Nat.eqb_spec (ids j) (ids n)); [exact I1|]. apply I3; auto.
        assert (j <> n) by congruence. lia.
      * intros k. rewrite !overn_S, En.
        replace (sp (frame P (ids n) (update_frame (ids n) pc'))) with (cm_pose (cf_map cx) n).
        2:{ unfold frame. cbn [c_oMf update_frame]. rewrite Nat.eqb_refl, I1. reflexivity. }
        cbn [c_com update_frame]. rewrite I2. 
        match goal with |- _ = v k + (if _ then ?A + _ else if _ then ?B + _ else 0) =>
          transitivity ((v k + (if Nat.ltb k 3 then A else if Nat.ltb k 6 then B else 0)) +
            (if Nat.ltb k 3 then u (n * cf_fs c + k)%nat else if Nat.ltb k 6 then moment1 cx (p_com P q) u 0 n (k - 3)%nat else 0)) end;
          [rewrite <- I4|destruct (Nat.ltb k 3); [ring|]; destruct (Nat.ltb k 6); ring].
        unfold moment1, seg. change (cf_fs cx) with (cf_fs c).
        destruct (Nat.lt_ge_cases k 6) as [H|H].
        -- do 6 (destruct k as [|k]; [unfold sadd, sset, vadd, vset, in_seg, cross; simpl; rewrite ?Nat.add_0_r;
             destruct (Nat.eqb (cf_fs c) 6); simpl; rewrite ?Nat.add_0_r, <- ?Nat.add_assoc; simpl; ring|]). lia.
        -- replace k with (6 + (k - 6))%nat by lia. generalize (k - 6)%nat as l. intros l.
           destruct (Nat.eqb (cf_fs c) 6); unfold sadd, sset, vadd, vset, in_seg; simpl; ring.
    + cbn [fst snd]. split.
      * split; [exact I1|]. split; [exact I2|]. intros j Hj Ej. apply I3; auto. assert (j <> n) by congruence. lia.
      * intros k. rewrite !overn_S, En, I4. repeat destruct (Nat.ltb _ _); ring.
Qed.
Definition jtf (u : vec) (l : nat) : mtx := let o := (l * cf_fs c)%nat in
  m3 0 (- u (o + 2)%nat) (u (o + 1)%nat) (u (o + 2)%nat) 0 (- u o) (- u (o + 1)%nat) (u o) 0.
Lemma jtf_cross u l w k : (k < 3)%nat -> mv 3 (jtf u l) w k = cross (seg u (l * cf_fs c)) w k.
Proof. intros H. unfold jtf, mv, m3, seg. three H; cbn [rsum cross]; rewrite ?Nat.add_0_r; ring. Qed.
Lemma cmd_jx_loop pc u n J f i j :
  fst (for_n n (cmd_jx P nv c ids pc u) (J, f)) i j = J i j +
   (if in_seg 3 3 i && in_seg 0 nv j
    then overn c n (fun l => mmul 3 (jtf u l) (msub (p_Jcom P (c_Jcom pc)) (get_jac P LWA (ids l) pc mzero)) (i - 3)%nat j) else 0).
Proof.
  induction n.
  - unfold overn. cbn [for_n fst rsum]. destruct (_ && _); ring.
  - cbn [for_n]. destruct (for_n n _ (J, f)) as [J' f'] eqn:E. cbn [fst] in IHn. rewrite overn_S.
    unfold cmd_jx. destruct (cm_state (cf_map c) n); cbn [fst].
    + unfold bset at 1. destruct (in_seg 3 3 i && in_seg 0 nv j) eqn:Es.
      * rewrite Nat.sub_0_r. replace (3 + (i - 3))%nat with i
          by (unfold in_seg in Es; destruct (Nat.leb_spec 3 i); [lia|simpl in Es; discriminate]).
        rewrite IHn. unfold jtf. ring.
      * exact IHn.
    + rewrite IHn. destruct (_ && _); ring.
Qed.
Lemma cmd_ju_loop x pc n i j : let q := xq nq x in let cx := contacts_at P nq c ids x in
  cmd_at q pc n -> (i < 6)%nat ->
  for_n n (cmd_ju P c ids pc) mzero i j = colval cx (fun l i => cblock cx (p_com P q) l (3 + i)) n i j.
Proof.
  intros q cx H Hi. revert j. induction n; intros j.
  - unfold colval. simpl. reflexivity.
  - cbn [for_n].
    assert (IH : forall j, for_n n (cmd_ju P c ids pc) mzero i j = colval cx (fun l i => cblock cx (p_com P q) l (3 + i)) n i j).
    { apply IHn. destruct H as (A & B & C). split; [exact A|split; [exact B|intros; apply C; auto]]. }
    rewrite <- colval_S by (auto; intros; apply cblock_out; auto). clear IHn.
    set (J := for_n n _ mzero) in *. unfold cmd_ju. change (cm_state (cf_map cx)) with (cm_state (cf_map c)).
    destruct (cm_state (cf_map c) n) eqn:En.
    + assert (Z : forall l, (n * cf_fs c <= l)%nat -> J i l = 0).
      { intros l Hl. rewrite IH. unfold colval. change (cf_fs cx) with (cf_fs c). destruct (Nat.ltb_spec l (n * cf_fs c)); [lia|reflexivity]. }
      destruct H as (A & B & C).
      replace (sp (frame P (ids n) pc)) with (cm_pose (cf_map cx) n) by (unfold frame; rewrite C by auto; reflexivity).
      rewrite B, (Nat.mul_comm (cf_fs c) n). change (cf_fs cx) with (cf_fs c).
      set (o := (n * cf_fs c)%nat) in *. rewrite <- IH.
      assert (S0 : forall w, in_seg o w j = in_seg (o + 0) w j) by (intros; now rewrite Nat.add_0_r).
      destruct (Nat.ltb_spec j o) as [L|L].
      * destruct (Nat.eqb (cf_fs c) 6); unfold bset; rewrite !S0, !in_seg_lt, !andb_false_r by assumption; reflexivity.
      * unfold cblock. change (cf_fs cx) with (cf_fs c). replace (j - (o + 3))%nat with (j - o - 3)%nat by lia.
        destruct (Nat.eqb (cf_fs c) 6); unfold bset; rewrite !S0, !in_seg_shift by assumption;
          rewrite (Z j L), ?Nat.sub_add_distr, ?Nat.sub_0_r;
          do 6 (destruct i as [|i]; [cbn [in_seg Nat.leb Nat.ltb andb Nat.add Nat.sub]; unfold in_seg; simpl; reflexivity|]); lia.
    + rewrite IH. unfold colval. now destruct (Nat.ltb j (n * cf_fs cx)).
Qed.

Lemma momentum_derivative_ok ndx nu : (nv <= ndx)%nat -> (cm_size (cf_map c) * cf_fs c <= nu)%nat ->
  ocomputes nq nv ndx nu 6 tq anywhere (momentum_derivative P nq nv (nq + nv) c ids) (momentum_rate P nq c ids).
Proof.
  intros Hn Hu d _.
  set (N := cm_size (cf_map c)) in *.
  assert (E0 : forall x pc, cmd_at (xq nq x) (center_of_mass_v (xq nq x) (xtail nv (nq + nv) x) (fwd_kin (xq nq x) pc)) 0)
    by (intros; split; [reflexivity|split; [reflexivity|intros; lia]]).
  split.
  - intros x u i Hi. cbn [o_value o_eval momentum_derivative]. unfold cmd_evaluate. fold N.
    pose proof (cmd_loop x u N _ (sset (sset (m_value d) 0 3 (fun k => cf_mass c * cf_gravity c k)) 3 3 vzero) (E0 x (m_pc d))) as [_ V].
    cbv zeta in V. destruct (for_n N _ _) as [pc v]. cbn [m_value snd] in *. rewrite V. clear V.
    unfold momentum_rate, net_force, net_moment, over. fold N.
    assert (A : forall k, sset (sset (m_value d) 0 3 (fun k => cf_mass c * cf_gravity c k)) 3 3 vzero k =
      if Nat.ltb k 3 then cf_mass c * cf_gravity c k else if Nat.ltb k 6 then 0 else m_value d k)
      by (intros k; unfold sset; seg_cases; rewrite ?Nat.sub_0_r; reflexivity).
    rewrite A. destruct (Nat.ltb i 3); [reflexivity|]. destruct (Nat.ltb_spec i 6); [|lia].
    rewrite Rplus_0_l. apply rsum_ext. intros l _. unfold moment1. destruct (cm_state (cf_map c) l) eqn:E;
      cbn [contacts_at cf_map cm_state]; rewrite E; reflexivity.
  - intros cv dx u du Hx Hdu _ i Hi d'.
    set (q := xq nq (cv 0)). set (cx := contacts_at P nq c ids (cv 0)).
    set (pc0 := center_of_mass_v q (xtail nv (nq + nv) (cv 0)) (fwd_kin q (m_pc d))).
    set (v0 := sset (sset (m_value d) 0 3 (fun k => cf_mass c * cf_gravity c k)) 3 3 vzero).
    pose proof (cmd_loop (cv 0) (u 0) N pc0 v0 (E0 (cv 0) (m_pc d))) as [(A1 & A2 & A3) _].
    cbv zeta in A1, A2, A3. destruct (for_n N (cmd_body P c ids (u 0)) (pc0, v0)) as [pc1 v1] eqn:Eb. cbn [fst] in *.
    set (pc2 := joint_jacobians (jacobian_com q pc1)).
    assert (EJ : o_Jx (momentum_derivative P nq nv (nq + nv) c ids) d' = fst (for_n N (cmd_jx P nv c ids pc2 (u 0)) (mzero, m_fJf d))).
    { unfold d'. cbn [o_Jx o_jac o_eval momentum_derivative]. unfold cmd_evaluate. fold N. fold q. fold pc0 v0. rewrite Eb.
      unfold cmd_jacobians. cbn [m_pc m_fJf]. fold N q pc2. destruct (for_n N (cmd_jx _ _ _ _ _ _) _). reflexivity. }
    assert (EU : o_Ju (momentum_derivative P nq nv (nq + nv) c ids) d' = for_n N (cmd_ju P c ids pc2) mzero).
    { unfold d'. cbn [o_Ju o_jac o_eval momentum_derivative]. unfold cmd_evaluate. fold N. fold q. fold pc0 v0. rewrite Eb.
      unfold cmd_jacobians. cbn [m_pc m_fJf]. fold N q pc2. destruct (for_n N (cmd_jx _ _ _ _ _ _) _). reflexivity. }
    assert (AT : cmd_at q pc2 N) by (split; [reflexivity|split; [reflexivity|exact A3]]).
    (* the control part *)
    assert (MU : mv nu (o_Ju _ d') du i =
       if Nat.ltb i 3 then overn c N (fun l => seg du (l * cf_fs c) i)
       else overn c N (fun l => cross (fun k => cm_pose (cf_map cx) l k - p_com P q k) (seg du (l * cf_fs c)) (i - 3)%nat
                        + (if Nat.eqb (cf_fs c) 6 then seg du (l * cf_fs c + 3) (i - 3)%nat else 0))).
    { rewrite EU. unfold mv.
      rewrite (rsum_ext nu _ (fun j => colval cx (fun l i => cblock cx (p_com P q) l (3 + i)) N i j * du j))
        by (intros j Hj; f_equal; exact (cmd_ju_loop (cv 0) pc2 N i j AT Hi)).
      rewrite colval_sum by assumption. change (overn cx N) with (overn c N). change (cf_fs cx) with (cf_fs c).
      destruct (Nat.ltb_spec i 3) as [L|L]; apply overn_ext; intros l Hl.
      - pose proof (cblock_sum cx (p_com P q) l (3 + i) (seg du (l * cf_fs c)) Hfs ltac:(lia)) as B.
        change (cf_fs cx) with (cf_fs c) in B. unfold seg in B at 1. rewrite B.
        destruct (Nat.ltb_spec (3 + i) 3); [lia|]. destruct (Nat.ltb_spec (3 + i) 6); [|lia]. f_equal. lia.
      - pose proof (cblock_sum cx (p_com P q) l (3 + i) (seg du (l * cf_fs c)) Hfs ltac:(lia)) as B.
        change (cf_fs cx) with (cf_fs c) in B. unfold seg in B at 1. rewrite B.
        destruct (Nat.ltb_spec (3 + i) 3); [lia|]. destruct (Nat.ltb_spec (3 + i) 6); [lia|].
        replace (3 + i - 6)%nat with (i - 3)%nat by lia. f_equal. destruct (Nat.eqb _ 6); auto. unfold seg. f_equal. lia. }
    (* the state part *)
    set (jac l := p_jac P LWA (ids l) q q).
    assert (MX : mv ndx (o_Jx _ d') dx i =
       if Nat.ltb i 3 then 0 else overn c N (fun l => cross (vsub (mv nv (jac l) dx) (mv nv (p_Jcom P q) dx)) (seg (u 0) (l * cf_fs c)) (i - 3)%nat)).
    { rewrite EJ. destruct (Nat.ltb_spec i 3) as [L|L].
      - apply mv_zero. intros j Hj. rewrite cmd_jx_loop. unfold mzero. unfold in_seg at 1. destruct (Nat.leb_spec 3 i); [lia|]. simpl. ring.
      - unfold mv at 1. rewrite (rsum_le nv ndx) by
          (auto; intros j Hj; rewrite cmd_jx_loop; unfold mzero; replace (in_seg 0 nv j) with false by (unfold in_seg; seg_cases);
           rewrite andb_false_r; ring).
        transitivity (rsum nv (fun j => overn c N (fun l => mmul 3 (jtf (u 0) l) (msub (p_Jcom P q) (jac l)) (i - 3)%nat j * dx j))).
        + apply rsum_ext. intros j Hj. rewrite cmd_jx_loop. unfold mzero at 1.
          replace (in_seg 3 3 i && in_seg 0 nv j) with true by (symmetry; unfold in_seg; seg_cases).
          rewrite Rplus_0_l, Rmult_comm. unfold overn. rewrite <- rsum_scale. apply rsum_ext. intros l Hl.
          destruct (cm_state (cf_map c) l); [|ring]. rewrite Rmult_comm. f_equal.
          unfold mmul. apply rsum_ext. intros k Hk. f_equal. unfold msub. f_equal. f_equal.
          apply (get_jac_val P nv tq HP); auto; try (intros a b _; reflexivity); lia.
        + unfold overn. rewrite rsum_swap. apply rsum_ext. intros l Hl. destruct (cm_state (cf_map c) l).
          * fold (mv nv (mmul 3 (jtf (u 0) l) (msub (p_Jcom P q) (jac l))) dx (i - 3)%nat).
            rewrite mv_mmul, jtf_cross by lia.
            transitivity (cross (seg (u 0) (l * cf_fs c)) (vsub (mv nv (p_Jcom P q) dx) (mv nv (jac l) dx)) (i - 3)%nat).
            -- apply cross_ext; auto. intros k Hk. apply mv_msub.
            -- unfold vsub. destruct (i - 3)%nat as [|[|[|]]]; cbn [cross]; ring.
          * now apply rsum_zero. }
    rewrite MX, MU. clear MX MU. unfold momentum_rate.
    destruct (Nat.ltb_spec i 3) as [L|L].
    + rewrite Rplus_0_l. unfold net_force, over. fold N.
      eapply dl_eq; [|apply dl_plus; [apply dl_const|apply (dl_over c N (fun l t => seg (u t) (l * cf_fs c) i) (fun l => seg du (l * cf_fs c) i))]].
      * ring.
      * intros l Hl _. unfold seg. apply Hdu.
        apply Nat.lt_le_trans with (l * cf_fs c + cf_fs c)%nat; [lia|].
        apply Nat.le_trans with (N * cf_fs c)%nat; [|assumption].
        replace (l * cf_fs c + cf_fs c)%nat with (S l * cf_fs c)%nat by (simpl; lia). apply Nat.mul_le_mono_r. lia.
    + unfold net_moment, over. fold N.
      eapply dl_eq; [|apply (dl_over c N (fun l t => cross (fun k => cm_pose (cf_map (contacts_at P nq c ids (cv t))) l k - p_com P (xq nq (cv t)) k)
           (seg (u t) (l * cf_fs c)) (i - 3)%nat + (if Nat.eqb (cf_fs c) 6 then seg (u t) (l * cf_fs c + 3) (i - 3)%nat else 0))
         (fun l => cross (vsub (mv nv (jac l) dx) (mv nv (p_Jcom P q) dx)) (seg (u 0) (l * cf_fs c)) (i - 3)%nat
           + cross (fun k => cm_pose (cf_map cx) l k - p_com P q k) (seg du (l * cf_fs c)) (i - 3)%nat
           + (if Nat.eqb (cf_fs c) 6 then seg du (l * cf_fs c + 3) (i - 3)%nat else 0)))].
      * unfold overn. rewrite <- rsum_plus. apply rsum_ext. intros l Hl. destruct (cm_state (cf_map c) l); ring.
      * intros l Hl _.
        assert (Hw : (l * cf_fs c + cf_fs c <= nu)%nat).
        { apply Nat.le_trans with (N * cf_fs c)%nat; [|assumption].
          replace (l * cf_fs c + cf_fs c)%nat with (S l * cf_fs c)%nat by (simpl; lia). apply Nat.mul_le_mono_r. lia. }
        apply dl_plus.
        -- apply (dl_cross (fun t k => cm_pose (cf_map (contacts_at P nq c ids (cv t))) l k - p_com P (xq nq (cv t)) k) _ (fun t => seg (u t) (l * cf_fs c))).
           ++ intros k Hk. apply dl_minus.
              ** exact (proj1 (ok_move P nv tq HP (ids l) _ _ (proj1 Hx)) k Hk).
              ** exact (ok_com P nv tq HP _ _ (proj1 Hx) k Hk).
           ++ intros k Hk. unfold seg. apply Hdu. lia.
        -- destruct (Nat.eqb_spec (cf_fs c) 6); [|apply dl_const]. unfold seg. apply Hdu. lia.
Qed.
End Cmd.

(** *** gravity *)
Section Gravity.
Variables (G : gpin) (nq nv nu : nat) (tq : tangent) (act : option mtx).
Hypothesis HG : grav_ok G nv tq.
(** the static torque error *)
Definition static_error (x u : vec) : vec := fun i =>
  (match act with Some B => mv nu B u i | None => u i end) - g_grav G (xq nq x) i.
Definition unrelated_zero (B : mtx) : Prop :=
  forall i j, (i < nv)%nat -> (j < nv)%nat -> g_rel G i j = false -> B i j = 0.
Definition grav_inv (d : gdata) : Prop :=
  unrelated_zero (gd_dq d) /\ forall i j, (nv <= j)%nat -> gd_Jx d i j = 0.
Lemma gravity_ok (init : mtx -> Prop) ndx : (nv <= ndx)%nat -> (act = None -> nu = nv) -> (forall B, init B -> unrelated_zero B) ->
  ocomputes nq nv ndx nu nv tq anywhere (gravity_compensation G nq nv nu act init) static_error.
Proof.
  intros Hn Hact Hz d Hd.
  assert (I : grav_inv d).
  { revert d Hd. apply oreach_inv; cbn [o_init o_eval o_jac gravity_compensation].
    - intros d (B & HB & ->). split; [exact (Hz B HB)|reflexivity].
    - intros x u d [A B]. split; assumption.
    - intros x u d [A B]. split.
      + intros i j Hi Hj E. cbn [grav_jacobians gd_dq]. rewrite E. now apply A.
      + intros i j Hj. cbn [grav_jacobians gd_Jx]. rewrite left_out by assumption. now apply B. }
  split.
  - intros x u i Hi. cbn [o_value o_eval gravity_compensation grav_evaluate gd_value]. unfold static_error. destruct act; ring.
  - intros c dx u du Hx Hu _ i Hi d'. destruct I as [A B].
    replace (mv ndx (o_Jx _ d') dx i) with (- mv nv (g_dgrav G (xq nq (c 0))) dx i).
    + replace (mv nu (o_Ju _ d') du i) with (match act with Some B => mv nu B du i | None => du i end).
      * unfold static_error. rewrite Rplus_comm. apply dl_minus.
        -- destruct act as [M|].
           ++ exact (mv_moves nv nu M u du Hu i Hi).
           ++ rewrite Hact in Hu by reflexivity. now apply Hu.
        -- apply (proj1 HG (fun t => xq nq (c t)) dx (proj1 Hx)). exact Hi.
      * unfold d'. cbn [o_Ju o_jac o_eval gravity_compensation grav_jacobians gd_Ju].
        destruct act; [reflexivity|]. rewrite Hact by reflexivity. unfold mv, ident. symmetry. now apply rsum_delta.
    + unfold d'. cbn [o_Jx o_jac o_eval gravity_compensation grav_jacobians grav_evaluate gd_Jx gd_dq].
      rewrite mv_left by (auto). 
      rewrite <- (mv_neg_row nv (g_dgrav G (xq nq (c 0))) i dx i).
      apply mv_ext; [|auto]. intros j Hj. destruct (g_rel G i j) eqn:E; [reflexivity|].
      rewrite A by auto. rewrite (proj2 HG) by auto. reflexivity.
Qed.
End Gravity.

(** *** the choice of the contact *)
Lemma search_none l name i id : contact_search l name i id = None <-> id = None /\ ~ In name l.
Proof.
  revert i id. induction l as [|a l IH]; intros i id; simpl.
  - tauto.
  - rewrite IH. destruct (String.eqb_spec a name) as [->|N].
    + split; [intros [E _]; discriminate|intros [_ H]; destruct H; auto].
    + split; intros [E H]; split; auto. intros [K|K]; auto.
Qed.
Lemma search_some l name i id k : contact_search l name i id = Some k ->
  (id = Some k /\ ~ In name l) \/
  (exists n, k = (i + n)%nat /\ nth_error l n = Some name /\ forall m, (n < m)%nat -> nth_error l m <> Some name).
Proof.
  revert i id. induction l as [|a l IH]; intros i id H; simpl in H.
  - left. auto.
  - apply IH in H. destruct H as [[E NI]|(n & -> & A & B)].
    + destruct (String.eqb_spec a name) as [->|N].
      * right. exists 0%nat. split; [injection E; lia|]. split; [reflexivity|].
        intros m Hm. destruct m as [|m]; [lia|]. simpl. intros K. apply NI. eapply nth_error_In; eauto.
      * left. split; auto. intros [K|K]; auto.
    + right. exists (S n). split; [lia|]. split; [exact A|]. intros m Hm. destruct m as [|m]; [lia|]. apply B. lia.
Qed.
Lemma force_of_uniform sizes id n l i : (id <= List.length sizes)%nat -> (forall k, (k < id)%nat -> nth k sizes 0%nat = n) ->
  force_of sizes id l i = l (id * n + i)%nat.
Proof.
  revert sizes l. induction id as [|id IH]; intros sizes l Hl Hs; [destruct sizes; reflexivity|].
  destruct sizes as [|a sizes]; [simpl in Hl; lia|]. cbn [force_of].
  rewrite IH; [|simpl in Hl; lia|intros k Hk; apply (Hs (S k)); lia].
  pose proof (Hs 0%nat ltac:(lia)) as E. simpl in E. subst a. f_equal. simpl. lia.
Qed.
Lemma ocomputes_ext nq nv ndx nu r tq (dom dom' : vec -> vec -> Prop) s f g :
  (forall x u, dom' x u -> dom x u) -> (forall x u i, (i < r)%nat -> f x u i = g x u i) ->
  ocomputes nq nv ndx nu r tq dom s f -> ocomputes nq nv ndx nu r tq dom' s g.
Proof.
  intros Hd E H d Hr. destruct (H d Hr) as [A B]. split.
  - intros. rewrite A by auto. auto.
  - intros c dx u du Hx Hu D i Hi. eapply dl_ext; [|apply (B c dx u du Hx Hu (Hd _ _ D) i Hi)]. intros. now apply E.
Qed.

(** ** Theorems *)
(** momentum rate: value and Jacobians, for any contacts *)
Theorem C57_momentum_derivative : forall P nq nv tq c ids ndx nu, pin_ok P nv tq -> (3 <= cf_fs c)%nat ->
  (nv <= ndx)%nat -> (cm_size (cf_map c) * cf_fs c <= nu)%nat ->
  ocomputes nq nv ndx nu 6 tq anywhere (momentum_derivative P nq nv (nq + nv) c ids) (momentum_rate P nq c ids).
Proof. intros. now apply momentum_derivative_ok. Qed.

(** gravity compensation is right when every pair of joints is related (serial chains),
    whatever the buffer holds, and for all robots if the buffer had been set to zero *)
Theorem C57_gravity_serial_partial : forall G nq nv nu tq act ndx, grav_ok G nv tq -> (nv <= ndx)%nat -> (act = None -> nu = nv) ->
  (forall i j, (i < nv)%nat -> (j < nv)%nat -> g_rel G i j = true) ->
  ocomputes nq nv ndx nu nv tq anywhere (gravity_compensation G nq nv nu act (fun _ => True)) (static_error G nq nu act).
Proof.
  intros G nq nv nu tq act ndx HG Hn Ha Hr. apply gravity_ok; auto.
  intros B _ i j Hi Hj E. rewrite Hr in E by auto. discriminate.
Qed.
Theorem C57_gravity_zeroed : forall G nq nv nu tq act ndx, grav_ok G nv tq -> (nv <= ndx)%nat -> (act = None -> nu = nv) ->
  ocomputes nq nv ndx nu nv tq anywhere (gravity_compensation G nq nv nu act (fun B => B = mzero)) (static_error G nq nu act).
Proof. intros G nq nv nu tq act ndx HG Hn Ha. apply gravity_ok; auto. intros B ->. intros i j _ _ _. reflexivity. Qed.

(** the constructors select the last contact of that name, and throw iff there is none *)
Theorem C57_contact_id : forall l name,
  (contact_id l name = None <-> ~ In name l) /\
  (forall k, contact_id l name = Some k ->
     nth_error l k = Some name /\ forall m, (k < m)%nat -> nth_error l m <> Some name).
Proof.
  intros l name. split.
  - unfold contact_id. rewrite search_none. tauto.
  - intros k H. apply search_some in H. destruct H as [[E _]|(n & -> & A & B)]; [discriminate|]. auto.
Qed.

(** contact residuals when all the contacts before the selected one have the size of the
    residual's force *)
Theorem C57_contact_force_partial : forall L nq nv nu tq B sizes id fs fref, lam_ok L nv tq -> (id <= List.length sizes)%nat ->
  (forall k, (k < id)%nat -> nth k sizes 0%nat = fs) ->
  ocomputes nq nv (2 * nv) nu fs tq anywhere (contact_force L nq nv (nq + nv) (2 * nv) nu B id fs fref)
    (fun x u => vsub (force_of sizes id (lambda L nq nv nu B x u)) fref).
Proof.
  intros L nq nv nu tq B sizes id fs fref HL H1 H2.
  eapply ocomputes_ext; [| |apply (contact_force_ok L nq nv nu tq B id HL)]; [auto|].
  intros x u i Hi. unfold vsub. now rewrite (force_of_uniform sizes id fs).
Qed.
Theorem C57_friction_cone_partial : forall L nq nv nu tq B sizes id mu, lam_ok L nv tq -> (id <= List.length sizes)%nat ->
  (forall k, (k < id)%nat -> nth k sizes 0%nat = 3%nat) ->
  let f x u := force_of sizes id (lambda L nq nv nu B x u) in
  ocomputes nq nv (2 * nv) nu 2 tq (fun x u => f x u 0%nat <> 0 \/ f x u 1%nat <> 0)
    (mb_friction L nq nv (nq + nv) nu B id mu) (fun x u => friction_value mu (f x u)).
Proof.
  intros L nq nv nu tq B sizes id mu HL H1 H2 f.
  assert (E : forall x u k, f x u k = lambda L nq nv nu B x u (id * 3 + k)%nat) by (intros; now apply force_of_uniform).
  eapply ocomputes_ext; [| |apply (mb_friction_ok L nq nv nu tq B id HL)].
  - intros x u. cbv beta. rewrite !E, Nat.add_0_r. auto.
  - intros x u i Hi. unfold friction_value, seg. destruct i; rewrite ?E; reflexivity.
Qed.
(** the seventeen rows of the wrench cone, as those of the centroidal residual (C46) *)
Definition six_of (f : vec) : list R := [f 0%nat; f 1%nat; f 2%nat; f 3%nat; f 4%nat; f 5%nat].
Definition wrench_value (mu hL hW : R) (f : vec) : vec :=
  fun i => nth i (cd_value (wrench_evaluate 0 mu hL hW (six_of f) (ConeData [] []))) 0.
Lemma wrench_row mu hL hW f i : (i < 17)%nat -> mv 6 (acone mu hL hW) f i = wrench_value mu hL hW f i.
Proof.
  intros H. unfold wrench_value, six_of.
  do 17 (destruct i as [|i]; [cbv [mv rsum acone wrench_matrix wrench_evaluate cd_value nth Nat.mul Nat.add]; ring|]). lia.
Qed.
Theorem C57_wrench_cone_partial : forall L nq nv nu tq B sizes id mu hL hW, lam_ok L nv tq -> (id <= List.length sizes)%nat ->
  (forall k, (k < id)%nat -> nth k sizes 0%nat = 6%nat) ->
  let f x u := force_of sizes id (lambda L nq nv nu B x u) in
  ocomputes nq nv (2 * nv) nu 17 tq anywhere (mb_wrench L nq nv (nq + nv) (2 * nv) nu B id mu hL hW)
    (fun x u => wrench_value mu hL hW (f x u)) /\
  forall x u, (forall i, (i < 17)%nat -> wrench_value mu hL hW (f x u) i <= 0) <->
    P_cone.in_wrench_cone mu hL hW (P_cone.wrench_of 0 (six_of (f x u))).
Proof.
  intros L nq nv nu tq B sizes id mu hL hW HL H1 H2 f. split.
  - eapply ocomputes_ext; [| |apply (mb_wrench_ok L nq nv nu tq B id HL)]; [auto|].
    intros x u i Hi. cbv beta. rewrite <- wrench_row by auto. apply mv_ext; auto.
    intros j Hj. unfold seg, f. symmetry. now apply force_of_uniform.
  - intros x u. rewrite <- (P_cone.C46_residual 0 mu hL hW (six_of (f x u)) (ConeData [] [])).
    unfold P_cone.nonpos. rewrite Forall_forall. split.
    + intros H r Hr. apply In_nth with (d := 0) in Hr. destruct Hr as (n & Hn & <-). exact (H n Hn).
    + intros H i Hi. apply H. apply nth_In. exact Hi.
Qed.

(** ** Examples and refutations *)
(** the cart and pendulum of C56 pushed at the foot and at the tip, 3D and 6D *)
Definition ex_contacts (fs : nat) : cfwd :=
  CFwd 1 (v3 0 0 (-10)) (CMap 3 (fun i => negb (Nat.eqb i 1)) (fun _ => vzero)) fs.
Definition ex_force (t : R) : vec := fun i => match i with 2%nat => 5 + t | 12%nat => 2 | 7%nat => 4 | _ => 0 end.
Definition ex_dforce : vec := fun i => match i with 2%nat => 1 | _ => 0 end.
Example C57_momentum_example :
  let c := ex_contacts 6 in
  pin_ok ex_pin 2 ex_tq /\ (3 <= cf_fs c)%nat /\ xtang 2 2 ex_tq ex_curve ex_dx /\ vmoves 18 ex_force ex_dforce /\
  (* the force of the inactive contact does not count *)
  momentum_rate ex_pin 2 c S (ex_curve 0) (ex_force 0) 2%nat = -5 /\
  momentum_rate ex_pin 2 c S (ex_curve 0) (ex_force 0) 5%nat = -4 /\
  let s := momentum_derivative ex_pin 2 2 4 c S in
  forall pc M e, let d := o_jac s (ex_curve 0) (ex_force 0) (o_eval s (ex_curve 0) (ex_force 0) (mdata0 pc M e)) in
  mv 4 (m_Jx d) ex_dx 4%nat + mv 18 (m_Ju d) ex_dforce 4%nat = 8.
Proof.
  assert (A : derivable_pt_lim (fun t => t) 0 1) by apply derivable_pt_lim_id.
  assert (V : vmoves 18 ex_force ex_dforce).
  { intros i Hi. unfold ex_force, ex_dforce. do 18 (destruct i as [|i]; [dl|]). lia. }
  intros c. split; [exact ex_pin_ok|]. split; [simpl; lia|]. split; [exact ex_curve_tang|]. split; [exact V|].
  split; [|split].
  - cbv [momentum_rate net_force over c ex_contacts contacts_at cf_map cm_size cm_state cf_fs cf_mass cf_gravity seg rsum negb
      Nat.eqb Nat.ltb Nat.leb Nat.add Nat.mul ex_force v3]. ring.
  - cbv [momentum_rate net_moment over c ex_contacts contacts_at cf_map cm_size cm_state cm_pose cf_fs cf_mass cf_gravity seg rsum negb
      Nat.eqb Nat.ltb Nat.leb Nat.add Nat.mul Nat.sub ex_force v3 cross sp pos_of p_place ex_pin ex_place p_com ex_com xq ex_curve ex_len].
    replace (2 * 0) with 0 by ring. rewrite cos_0, ?sin_0. simpl INR. ring.
  - intros s pc M e d.
    destruct (C57_momentum_derivative ex_pin 2 2 ex_tq c S 4 18 ex_pin_ok ltac:(simpl; lia) ltac:(lia) ltac:(simpl; lia)
      (mdata0 pc M e) (OR0 s _ (ex_intro _ pc (ex_intro _ M (ex_intro _ e eq_refl))))) as [_ H].
    pose proof (H ex_curve ex_dx ex_force ex_dforce ex_curve_tang V I 4%nat ltac:(lia)) as G. cbv zeta in G.
    apply (uniqueness_limite _ 0 _ _ G). clear G H.
    apply (dl_ext (fun t => 4 * sin (2 * t))); [|eapply dl_eq; [|dl_go]; cbv beta; rewrite Rmult_0_r, cos_0; ring]. intros t.
    cbv [momentum_rate net_moment over c ex_contacts contacts_at cf_map cm_size cm_state cm_pose cf_fs cf_mass cf_gravity seg rsum negb
      Nat.eqb Nat.ltb Nat.leb Nat.add Nat.mul Nat.sub ex_force v3 cross sp pos_of p_place ex_pin ex_place p_com ex_com xq ex_curve ex_len].
    simpl INR. ring.
Qed.
(** two pendulums hanging side by side: joint i is related to itself only *)
Definition pend2 : gpin :=
  GPin (fun q i => sin (q i)) (fun q i j => if Nat.eqb i j then cos (q i) else 0) Nat.eqb.
(** two pendulums, one hanging from the other (both torques depend on both angles) *)
Definition pend_serial : gpin :=
  GPin (fun q i => match i with 0%nat => 2 * sin (q 0%nat) + sin (q 0%nat + q 1%nat) | _ => sin (q 0%nat + q 1%nat) end)
       (fun q i j => match i, j with
                     | 0%nat, 0%nat => 2 * cos (q 0%nat) + cos (q 0%nat + q 1%nat)
                     | _, _ => cos (q 0%nat + q 1%nat) end) (fun _ _ => true).
Lemma pend2_ok : grav_ok pend2 2 ex_tq.
Proof.
  split.
  - intros g w H i Hi. pose proof (H 0%nat ltac:(lia)) as G0. pose proof (H 1%nat ltac:(lia)) as G1. cbv beta in G0, G1.
    two Hi; cbv [pend2 g_grav g_dgrav mv rsum Nat.eqb]; dl.
  - intros q i j _ _ E. cbn [g_rel g_dgrav pend2] in *. rewrite E. reflexivity.
Qed.
Lemma pend_serial_ok : grav_ok pend_serial 2 ex_tq.
Proof.
  split.
  - intros g w H i Hi. pose proof (H 0%nat ltac:(lia)) as G0. pose proof (H 1%nat ltac:(lia)) as G1. cbv beta in G0, G1.
    two Hi; cbv [pend_serial g_grav g_dgrav mv rsum]; dl.
  - discriminate.
Qed.
Definition motor (i j : nat) : R := match i, j with 1%nat, 0%nat => 1 | _, _ => 0 end.
Example C57_gravity_example :
  grav_ok pend_serial 2 ex_tq /\ (forall i j, (i < 2)%nat -> (j < 2)%nat -> g_rel pend_serial i j = true) /\
  let s := gravity_compensation pend_serial 2 2 1 (Some motor) (fun _ => True) in
  forall B, let d := o_jac s (ex_curve 0) vzero (o_eval s (ex_curve 0) vzero (GData vzero mzero mzero B)) in
  mv 4 (gd_Jx d) ex_dx 0%nat = - (2 * cos 1 + 3 * cos (1 + 2 * 0)).
Proof.
  split; [exact pend_serial_ok|]. split; [reflexivity|]. intros s B d.
  unfold d, s. cbn [o_jac o_eval gravity_compensation grav_jacobians gd_Jx]. rewrite mv_left by (auto; lia).
  cbv [mv rsum pend_serial g_rel g_dgrav xq Nat.ltb Nat.leb ex_curve ex_dx]. rewrite Rplus_0_r. ring.
Qed.
(** The buffer gravity_partial_dq_ is never set to zero (gravity-compensation-residual.hxx
    55-61), so for robots with branches the Jacobian need not be the derivative. *)
Theorem C57_gravity_refuted :
  ~ (forall G nq nv nu tq act ndx, grav_ok G nv tq -> (nv <= ndx)%nat -> (act = None -> nu = nv) ->
     ocomputes nq nv ndx nu nv tq anywhere (gravity_compensation G nq nv nu act (fun _ => True)) (static_error G nq nu act)).
Proof.
  intros H. specialize (H pend2 2%nat 2%nat 2%nat ex_tq None 4%nat pend2_ok ltac:(lia) ltac:(auto)).
  set (s := gravity_compensation pend2 2 2 2 None (fun _ => True)) in H.
  set (d := GData vzero mzero mzero (fun _ _ => 1)).
  destruct (H d (OR0 s d (ex_intro _ (fun _ _ => 1) (conj I eq_refl)))) as [_ G].
  assert (V : vmoves 2 (fun _ => vzero) vzero) by (intros i _; apply dl_const).
  assert (A : derivable_pt_lim (fun t => t) 0 1) by apply derivable_pt_lim_id.
  assert (D' : derivable_pt_lim (fun t => static_error pend2 2 2 None (ex_curve t) vzero 0%nat) 0 (- cos 1)).
  { cbv [static_error pend2 g_grav xq Nat.ltb Nat.leb ex_curve vzero]. eapply dl_eq; [|dl_go]. cbv beta. replace (1 + 0) with 1 by ring. ring. }
  pose proof (G ex_curve ex_dx (fun _ => vzero) vzero ex_curve_tang V I 0%nat ltac:(lia)) as D. cbv zeta in D.
  pose proof (uniqueness_limite _ 0 _ _ D D') as E. clear - E.
  unfold s, d in E. cbn [o_Jx o_Ju o_jac o_eval gravity_compensation grav_jacobians grav_evaluate gd_Jx gd_Ju gd_dq] in E.
  rewrite mv_left in E by (auto; lia).
  cbv [mv rsum pend2 g_rel g_dgrav Nat.eqb ident vzero xq Nat.ltb Nat.leb ex_curve ex_dx] in E. rewrite Rplus_0_r in E. lra.
Qed.

(** contact forces: lambda from a hand-made robot with constant contact forces 0, 1, 2, ... *)
Definition lpin_const : lpin := LPin (fun _ _ _ i => INR i) (fun _ _ _ => mzero) (fun _ _ _ => mzero) (fun _ _ _ => mzero).
(** and one whose forces follow the state and the torques *)
Definition lpin_ex : lpin :=
  LPin (fun q v t i => INR (S i) * q 0%nat + v 1%nat + t 0%nat) (fun _ _ _ i => fun j => if Nat.eqb j 0 then INR (S i) else 0)
       (fun _ _ _ _ j => if Nat.eqb j 1 then 1 else 0) (fun _ _ _ _ j => if Nat.eqb j 0 then 1 else 0).
Lemma lpin_const_ok nv tq : lam_ok lpin_const nv tq.
Proof.
  intros g w v a t b _ _ _ i. cbn [l_lambda l_dq l_dv l_dtau lpin_const].
  rewrite !mv_zero by reflexivity. eapply dl_eq; [|apply dl_const]. ring.
Qed.
Lemma lpin_ex_ok : lam_ok lpin_ex 2 ex_tq.
Proof.
  intros g w v a t b Hq Hv Ht i.
  pose proof (Hq 0%nat ltac:(lia)) as G0. pose proof (Hv 1%nat ltac:(lia)) as G1. pose proof (Ht 0%nat ltac:(lia)) as G2. cbv beta in G0, G1, G2.
  cbv [lpin_ex l_lambda l_dq l_dv l_dtau mv rsum Nat.eqb]. dl.
Qed.
Example C57_contact_example :
  lam_ok lpin_ex 2 ex_tq /\ contact_id ["lf"; "rf"; "lf"]%string "rf" = Some 1%nat /\
  (forall k, (k < 1)%nat -> nth k [3; 3; 3]%nat 0%nat = 3%nat) /\
  let f := force_of [3; 3; 3]%nat 1 (lambda lpin_ex 2 2 1 (fun _ _ => 1) (ex_curve 0) (fun _ => 7)) in
  f 0%nat = 12 /\ f 1%nat <> 0 /\
  let s := contact_force lpin_ex 2 2 4 4 1 (fun _ _ => 1) 1 3 vzero in
  forall d, let d' := o_jac s (ex_curve 0) (fun _ => 7) (o_eval s (ex_curve 0) (fun _ => 7) d) in
  mv 4 (fd_Jx d') ex_dx 2%nat = 5 /\ fd_Ju d' 2%nat 0%nat = 1.
Proof.
  split; [exact lpin_ex_ok|]. split; [reflexivity|]. split; [intros k Hk; destruct k; [reflexivity|lia]|].
  intros f. split; [|split].
  - cbv [f force_of lambda lpin_ex l_lambda xq xtail Nat.ltb Nat.leb Nat.add Nat.sub ex_curve mv rsum]. simpl INR. ring.
  - cbv [f force_of lambda lpin_ex l_lambda xq xtail Nat.ltb Nat.leb Nat.add Nat.sub ex_curve mv rsum]. simpl INR. lra.
  - intros s d d'. split.
    + unfold d', s. cbn [o_jac o_eval contact_force force_obj fd_Jx].
      cbv [mv rsum right_cols left_cols bset in_seg Nat.leb Nat.ltb andb Nat.sub Nat.add block_rows Nat.mul dlq dlv lpin_ex l_dq l_dv Nat.eqb ex_dx].
      simpl INR. ring.
    + unfold d', s. cbn [o_jac o_eval contact_force force_obj fd_Ju]. cbv [mmul rsum block_rows dlt lpin_ex l_dtau Nat.eqb]. ring.
Qed.
(** With contacts of both kinds the offset contact_id * force_size is wrong (contact-force.hxx
    24): the residual of the 3D contact after a 6D one reads the torque of the first. *)
Theorem C57_contact_force_refuted :
  ~ (forall L nq nv nu tq B sizes id fs fref, lam_ok L nv tq -> (id < List.length sizes)%nat -> nth id sizes 0%nat = fs ->
     ocomputes nq nv (2 * nv) nu fs tq anywhere (contact_force L nq nv (nq + nv) (2 * nv) nu B id fs fref)
       (fun x u => vsub (force_of sizes id (lambda L nq nv nu B x u)) fref)).
Proof.
  intros H. specialize (H lpin_const 0%nat 0%nat 0%nat (fun _ _ => True) mzero [6; 3]%nat 1%nat 3%nat vzero
    (lpin_const_ok _ _) ltac:(simpl; lia) eq_refl).
  set (d := FData vzero vzero vzero vzero mzero mzero).
  set (s := contact_force _ _ _ _ _ _ _ _ _ _) in H.
  destruct (H d (OR0 s d (ex_intro _ vzero (ex_intro _ vzero (ex_intro _ vzero eq_refl))))) as [V _].
  specialize (V vzero vzero 0%nat ltac:(lia)).
  unfold s in V. cbn [o_value o_eval contact_force force_obj force_eval fd_value] in V.
  cbv [vsub vzero force_of lambda lpin_const l_lambda Nat.mul Nat.add] in V. simpl INR in V. lra.
Qed.
