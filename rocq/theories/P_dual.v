(** C63: the outer loop is a proximal-point iteration on the multipliers. *)
From Coq Require Import Reals List Lra Lia Bool Arith.
From Verif Require Import CSetModel CSetSpec CSetProofs MultModel P_mult DualModel.
Import ListNotations.
Local Open Scope R_scope.

(** ** Specification *)
Definition sumR (l : list R) : R := fold_right Rplus 0 l.
(** inner product and squared distance of stage-wise vectors *)
Definition vdots (v c : list (list R)) : R := sumR (zip_with vdot v c).
Definition dist2s (v w : list (list R)) : R := sumR (zip_with dist2 v w).

(** An optimisation problem over points of any kind: cost, constraint values by stage,
    errors of the initial condition and of the dynamics, sets. *)
Record problem := { T : Type; cost : T -> R; cval : T -> list (list R);
                    gap0 : T -> list R; gaps : T -> list (list R); sets : list (list kind) }.
Definition feasible (P : problem) (x : T P) : Prop :=
  Forall (fun a => a = 0) (gap0 P x) /\ Forall (Forall (fun a => a = 0)) (gaps P x).
Definition lagrangian (P : problem) (x : T P) (v : list (list R)) : R := cost P x + vdots v (cval P x).
(** [x] minimises the Lagrangian up to [e] among the points that satisfy the dynamics. *)
Definition near_min (P : problem) (e : R) (x : T P) (v : list (list R)) : Prop :=
  forall y, feasible P y -> lagrangian P x v <= lagrangian P y v + e.
(** constraint values in their sets, multipliers in the normal cones *)
Inductive kkt : list (list kind) -> list (list R) -> list (list R) -> Prop :=
| kkt0 : kkt [] [] []
| kkt1 ks kss c cs v vs : in_set ks c -> normal_cone ks c v -> kkt kss cs vs ->
    kkt (ks :: kss) (c :: cs) (v :: vs).
(** a point and multipliers that satisfy the optimality conditions *)
Definition optimal (P : problem) (x : T P) (v : list (list R)) : Prop :=
  feasible P x /\ near_min P 0 x v /\ kkt (sets P) (cval P x) v.

(** The inner loop ended at [x]. *)
Definition ended_at (P : problem) (n : inner) (x : T P) : Prop :=
  n_gap0 n = gap0 P x /\ n_gaps n = gaps P x /\
  map (fun s => concat (i_values s)) (n_stages n) = cval P x /\
  Forall2 (fun s ks => well_formed (with_prev s (i_v s)) ks) (n_stages n) (sets P).
(** Its criterion on the multipliers (Lvs) is zero. *)
Definition lv_zero (out : mult_out) : Prop :=
  Forall (fun o => Forall (fun a => a = 0) (o_Lv o)) (m_stages out).
Definition fit (P : problem) (v : list (list R)) : Prop :=
  Forall2 (fun w ks => length w = length ks) v (sets P).

(** ** One stage *)
Lemma vdot_cons a b x y : vdot (a :: x) (b :: y) = a * b + vdot x y.
Proof. reflexivity. Qed.
Lemma stage_ineq mu vp : forall vs vo c cs p, length vs = length vp -> length vo = length vp ->
  length c = length vp -> length cs = length vp -> length p = length vp ->
  (forall i, (i < length vp)%nat ->
     0 <= (nth i vp 0 - nth i vs 0) * (nth i p 0 - nth i cs 0) /\
     nth i p 0 + mu * nth i vp 0 = nth i c 0 + mu * nth i vo 0) ->
  mu / 2 * (dist2 vp vs + dist2 vp vo - dist2 vo vs) <= vdot vp c + vdot vs cs - vdot vp cs - vdot vs c.
Proof.
  induction vp as [|a vp IH]; intros [|b vs] [|d vo] [|c0 c] [|e cs] [|q p] L1 L2 L3 L4 L5 H;
    simpl in L1, L2, L3, L4, L5; try discriminate.
  - unfold vdot; simpl. lra.
  - rewrite !vdot_cons. simpl dist2.
    specialize (IH vs vo c cs p ltac:(lia) ltac:(lia) ltac:(lia) ltac:(lia) ltac:(lia)
      (fun i I => H (S i) ltac:(simpl; lia))).
    destruct (H 0%nat) as [H1 H2]; [simpl; lia|]. simpl in H1, H2.
    assert (Ec : c0 = q + mu * (a - d)) by lra. subst c0.
    assert (0 <= (a - b) * (q - e)) by exact H1.
    assert (mu / 2 * ((a - b) * (a - b) + (a - d) * (a - d) - (d - b) * (d - b)) =
            mu * ((a - b) * (a - d))) by field.
    assert (a * (q + mu * (a - d)) + b * e - a * e - b * (q + mu * (a - d)) =
            (a - b) * (q - e) + mu * ((a - b) * (a - d))) by ring.
    lra.
Qed.
Lemma dist2_nonneg x : forall y, 0 <= dist2 x y.
Proof.
  induction x as [|a x IH]; intros [|b y]; simpl; try lra.
  specialize (IH y). pose proof (Rle_0_sqr (a - b)) as H. unfold Rsqr in H. lra.
Qed.
Lemma dist2_coord x : forall y i, length y = length x -> (i < length x)%nat ->
  (nth i x 0 - nth i y 0) * (nth i x 0 - nth i y 0) <= dist2 x y.
Proof.
  induction x as [|a x IH]; intros [|b y] i L I; simpl in *; try lia; try discriminate.
  pose proof (dist2_nonneg x y). pose proof (Rle_0_sqr (a - b)) as Q. unfold Rsqr in Q.
  destruct i; [lra|]. specialize (IH y i ltac:(lia) ltac:(lia)). lra.
Qed.
Lemma dist2_refl x : dist2 x x = 0.
Proof. induction x; simpl; auto. rewrite IHx. ring. Qed.

Lemma F2_nth {A B} (Q : A -> B -> Prop) l l' a b : Forall2 Q l l' ->
  forall i, (i < length l)%nat -> Q (nth i l a) (nth i l' b).
Proof. induction 1; intros [|i] I; simpl in *; try lia; auto. apply IHForall2. lia. Qed.

(** ** All stages *)
Lemma dist2s_nonneg v : forall w, 0 <= dist2s v w.
Proof.
  induction v as [|a v IH]; intros [|b w]; unfold dist2s in *; simpl; try lra.
  specialize (IH w). pose proof (dist2_nonneg a b). lra.
Qed.
Lemma kkt_vprev kss cs vs : kkt kss cs vs -> Forall2 (fun v ks => length v = length ks) vs kss.
Proof. induction 1; constructor; auto. now destruct H0. Qed.

Lemma with_prev_wf s ks v : well_formed (with_prev s (i_v s)) ks -> length v = length ks ->
  well_formed (with_prev s v) ks.
Proof.
  intros (A & B & _ & D) L. split; [exact A|]. split; [exact B|]. split; [|exact D].
  cbn [with_prev i_vprev i_values i_set] in *. rewrite L. exact (layout_length _ _ _ A).
Qed.

Lemma prev_wf l kss : forall v, Forall2 (fun s ks => well_formed (with_prev s (i_v s)) ks) l kss ->
  Forall2 (fun w ks => length w = length ks) v kss ->
  Forall2 well_formed (zip_with with_prev l v) kss.
Proof.
  intros v F. revert v. induction F as [|s ks l kss H F IH]; intros v G; inversion_clear G as [|w ? v' ? L G'].
  - constructor.
  - simpl. constructor; [now apply with_prev_wf|now apply IH].
Qed.

(** what [stages_mult] gives, as a list relation *)
Inductive estimates (mu : R) : list stage_in -> list (list kind) -> list stage_out -> Prop :=
| es0 : estimates mu [] [] []
| es1 s ks o p l kss os : well_formed s ks -> estimate mu s ks o p -> estimates mu l kss os ->
    estimates mu (s :: l) (ks :: kss) (o :: os).
Lemma mult_estimates mu l kss : 0 < mu -> Forall2 well_formed l kss ->
  exists os, stages_mult mu l = Some os /\ estimates mu l kss os.
Proof.
  intros M F. induction F as [|s ks l kss H F (os & E & G)].
  - exists []. split; constructor.
  - destruct (stage_estimate mu s ks M H) as (o & p & E0 & H0). exists (o :: os). simpl. rewrite E0, E.
    split; auto. econstructor; eauto.
Qed.

Lemma stages_ineq mu l kss os : estimates mu l kss os -> forall cs vs, kkt kss cs vs ->
  let vp := map o_vplus os in let vo := map i_vprev l in
  let c := map (fun s => concat (i_values s)) l in
  mu / 2 * (dist2s vp vs + dist2s vp vo - dist2s vo vs) <= vdots vp c + vdots vs cs - vdots vp cs - vdots vs c.
Proof.
  intros E. induction E as [|s ks o p l kss os W H E IH]; intros cs vs K; inversion_clear K as [|? ? c0 cs' v0 vs' K1 K2 K3].
  - cbn. unfold vdots, dist2s; simpl. lra.
  - cbn [map]. cbv zeta. specialize (IH cs' vs' K3). cbv zeta in IH. unfold vdots, dist2s in *. cbn [zip_with sumR fold_right] in *.
    destruct W as (W1 & W2 & W3 & _). destruct H as (H1 & _ & _ & H4 & H5 & H6 & H7).
    pose proof (layout_length _ _ _ W1) as Lk. destruct K2 as (K4 & K5 & K6). destruct H6 as (_ & _ & H8).
    pose proof (stage_ineq mu (o_vplus o) v0 (i_vprev s) (concat (i_values s)) c0 p
      ltac:(lia) ltac:(lia) ltac:(lia) ltac:(lia) ltac:(lia)) as S.
    assert (Q : forall i, (i < length (o_vplus o))%nat ->
      0 <= (nth i (o_vplus o) 0 - nth i v0 0) * (nth i p 0 - nth i c0 0) /\
      nth i p 0 + mu * nth i (o_vplus o) 0 = nth i (concat (i_values s)) 0 + mu * nth i (i_vprev s) 0).
    { intros i I. rewrite H1 in I. split; [|apply (H7 i I)].
      assert (Ik : (i < length ks)%nat) by lia.
      assert (Dp : dom (nth i ks KFree) (nth i p 0)) by (apply F2_nth; auto; lia).
      assert (Dc : dom (nth i ks KFree) (nth i c0 0)) by (apply F2_nth; auto; lia).
      pose proof (H8 i Ik _ Dc). pose proof (K6 i Ik _ Dp). nra. }
    specialize (S Q).
    set (t := fold_right Rplus 0 (zip_with dist2 (map o_vplus os) vs')) in *.
    set (t1 := fold_right Rplus 0 (zip_with dist2 (map o_vplus os) (map i_vprev l))) in *.
    set (t2 := fold_right Rplus 0 (zip_with dist2 (map i_vprev l) vs')) in *.
    unfold sumR in *. fold t t1 t2 in IH. nra.
Qed.

Lemma prev_vals l : forall v : list (list R), length v = length l ->
  map (fun s => concat (i_values s)) (zip_with with_prev l v) = map (fun s => concat (i_values s)) l /\
  map i_vprev (zip_with with_prev l v) = v /\ map i_v (zip_with with_prev l v) = map i_v l.
Proof.
  induction l as [|s l IH]; intros [|w v] L; simpl in *; try discriminate; auto.
  destruct (IH v ltac:(lia)) as (A & B & C). rewrite A, B, C. auto.
Qed.
Lemma F2_len {A B} (Q : A -> B -> Prop) l l' : Forall2 Q l l' -> length l = length l'.
Proof. induction 1; simpl; auto. Qed.

(** the residual and the step on the multipliers *)
Lemma stages_residual mu l kss os : 0 < mu -> estimates mu l kss os ->
  let vp := map o_vplus os in let vo := map i_vprev l in
  Forall (Forall (fun a => a * a <= mu * mu * dist2s vp vo)) (map o_infeas os).
Proof.
  intros M E. induction E as [|s ks o p l kss os W H E IH]; [constructor|]. cbv zeta in *.
  cbn [map] in *. destruct W as (W1 & W2 & W3 & _). destruct H as (H1 & _ & H3 & H4 & H5 & H6 & H7).
  pose proof (dist2s_nonneg (map o_vplus os) (map i_vprev l)) as N.
  pose proof (dist2_nonneg (o_vplus o) (i_vprev s)) as N'.
  assert (D : dist2s (o_vplus o :: map o_vplus os) (i_vprev s :: map i_vprev l) =
              dist2 (o_vplus o) (i_vprev s) + dist2s (map o_vplus os) (map i_vprev l)) by reflexivity.
  rewrite D. assert (0 < mu * mu) by nra. constructor.
  - apply Forall_forall. intros a Ia. destruct (In_nth _ _ 0 Ia) as (i & I & <-).
    destruct (H7 i ltac:(lia)) as (Q1 & Q2 & _). rewrite Q2.
    replace (nth i (concat (i_values s)) 0 - nth i p 0)
      with (mu * (nth i (o_vplus o) 0 - nth i (i_vprev s) 0)) by lra.
    pose proof (dist2_coord (o_vplus o) (i_vprev s) i ltac:(lia) ltac:(lia)).
    set (t := nth i (o_vplus o) 0 - nth i (i_vprev s) 0) in *. nra.
  - eapply Forall_impl; [|exact IH]. intros v. apply Forall_impl. intros a Q. nra.
Qed.
Lemma stages_newton mu l kss os : 0 < mu -> estimates mu l kss os ->
  Forall (fun o => Forall (fun a => a = 0) (o_Lv o)) os -> map i_v l = map o_vplus os.
Proof.
  intros M E. induction E as [|s ks o p l kss os W H E IH]; intros F; [reflexivity|].
  inversion_clear F as [|? ? F1 F2]. cbn [map]. f_equal; [|now apply IH].
  destruct W as (W1 & W2 & W3 & W4 & _). destruct H as (H1 & H2 & _ & _ & _ & _ & H7).
  apply nth_ext with (d := 0) (d' := 0); [lia|]. intros i I.
  destruct (H7 i ltac:(lia)) as (_ & _ & Q). rewrite Forall_forall in F1.
  rewrite (F1 (nth i (o_Lv o) 0)) in Q by (apply nth_In; lia). nra.
Qed.
Lemma zero_norms (v : list (list R)) : Forall (Forall (fun a => a = 0)) v -> infty_norms v <= 0.
Proof.
  intros F. apply infty_norms_le; [lra|]. eapply Forall_impl; [|exact F]. intros w.
  apply Forall_impl. intros a ->. rewrite Rabs_R0. lra.
Qed.

(** ** One pass *)
Theorem C63_pass : forall (P : problem) md d n x d' out e xs v,
  0 < n_mu n -> ended_at P n x -> feasible P x -> fit P (d_prev d) ->
  optimal P xs v -> pass md d n = Some (d', out) -> near_min P e x (d_vplus d') ->
  dist2s (d_vplus d') v + dist2s (d_vplus d') (d_prev d) <= dist2s (d_prev d) v + 2 * e / n_mu n /\
  m_prim_infeas out * m_prim_infeas out <=
    n_mu n * n_mu n * dist2s (d_vplus d') (d_prev d) /\
  0 <= m_prim_infeas out /\ fit P (d_vplus d') /\
  d_prev d' = (if Rle_dec (m_prim_infeas out) (n_tol n) then
                 match md with NEWTON => map i_v (n_stages n) | PRIMAL => d_vplus d' | PRIMAL_DUAL => d_pdal d end
               else d_prev d) /\
  (lv_zero out -> map i_v (n_stages n) = d_vplus d').
Proof.
  intros P md d n x d' out e xs v M (E1 & E2 & E3 & E4) FX FT (O1 & O2 & O3) HP NM.
  pose proof (prev_wf _ _ _ E4 FT) as W.
  destruct (mult_estimates _ _ _ M W) as (os & Eo & Es).
  assert (Ln : length (d_prev d) = length (n_stages n)).
  { rewrite (F2_len _ _ _ FT), (F2_len _ _ _ E4). reflexivity. }
  destruct (prev_vals (n_stages n) (d_prev d) Ln) as (V1 & V2 & V3).
  pose proof (stages_ineq _ _ _ _ Es _ _ O3) as I. cbv zeta in I. rewrite V1, V2, E3 in I.
  pose proof (stages_residual _ _ _ _ M Es) as Rs. cbv zeta in Rs. rewrite V2 in Rs.
  unfold pass, computeMultipliers in HP. rewrite Eo in HP. cbn [m_stages m_prim_infeas] in HP.
  assert (Ev : d_vplus d' = map o_vplus os) by (inversion HP; destruct (leb _ _); reflexivity).
  assert (Eout : m_stages out = os /\ m_prim_infeas out =
     Rmax (infty_norms (map o_infeas os)) (infty_norms (n_gap0 n :: n_gaps n))) by (inversion HP; auto).
  destruct Eout as (Eo1 & Eo2). rewrite <- Ev in I, Rs.
  assert (G0 : infty_norms (n_gap0 n :: n_gaps n) <= 0).
  { apply zero_norms. rewrite E1, E2. destruct FX. constructor; auto. }
  assert (N0 : forall w, 0 <= infty_norms w).
  { intros w. unfold infty_norms. clear. 
    assert (A : forall l a, a <= fold_left Rmax l a).
    { induction l as [|b l IH]; intros a; simpl; [lra|]. pose proof (Rmax_l a b). specialize (IH (Rmax a b)). lra. }
    apply A. }
  pose proof (dist2s_nonneg (d_vplus d') (d_prev d)) as Dn.
  set (D := dist2s (d_vplus d') (d_prev d)) in *.
  pose proof (sqrt_pos D) as Sp. pose proof (sqrt_sqrt D Dn) as Sq.
  assert (R1 : infty_norms (map o_infeas os) <= n_mu n * sqrt D).
  { apply infty_norms_le; [apply Rmult_le_pos; lra|]. eapply Forall_impl; [|exact Rs]. intros w.
    apply Forall_impl. intros a Q.
    rewrite <- (Rabs_right (n_mu n * sqrt D)) by (apply Rle_ge, Rmult_le_pos; lra).
    apply Rsqr_le_abs_0. unfold Rsqr.
    replace (n_mu n * sqrt D * (n_mu n * sqrt D)) with (n_mu n * n_mu n * (sqrt D * sqrt D)) by ring.
    rewrite Sq. exact Q. }
  assert (R0 : 0 <= m_prim_infeas out).
  { rewrite Eo2. eapply Rle_trans; [|apply Rmax_l]. apply N0. }
  assert (R2 : m_prim_infeas out <= n_mu n * sqrt D).
  { rewrite Eo2. apply Rmax_lub; auto. eapply Rle_trans; [exact G0|]. apply Rmult_le_pos; lra. }
  split; [|split; [|split; [exact R0|split; [|split]]]].
  - specialize (NM xs O1). specialize (O2 x FX). unfold lagrangian in NM, O2.
    assert (J : n_mu n / 2 * (dist2s (d_vplus d') v + D - dist2s (d_prev d) v) <= e) by lra.
    assert (K : dist2s (d_vplus d') v + D - dist2s (d_prev d) v <= 2 * e / n_mu n); [|lra].
    apply (Rmult_le_reg_l (n_mu n / 2)); [lra|]. eapply Rle_trans; [exact J|].
    right. field. lra.
  - replace (n_mu n * n_mu n * D) with (n_mu n * sqrt D * (n_mu n * sqrt D)).
    + now apply Rmult_le_compat.
    + rewrite <- Sq at 3. ring.
  - unfold fit. rewrite Ev. clear - Es. induction Es; simpl; constructor; auto.
    destruct H0 as (A & _). destruct H as (B & _). rewrite A. symmetry. exact (layout_length _ _ _ B).
  - assert (Ed : d' = if leb (m_prim_infeas out) (n_tol n)
       then {| d_prev := update md (map i_v (n_stages n)) {| d_prev := d_prev d; d_vplus := map o_vplus os; d_pdal := d_pdal d |};
               d_vplus := map o_vplus os; d_pdal := d_pdal d |}
       else {| d_prev := d_prev d; d_vplus := map o_vplus os; d_pdal := d_pdal d |}) by (inversion HP; reflexivity).
    unfold leb in Ed. destruct (Rle_dec (m_prim_infeas out) (n_tol n)); rewrite Ed; [|reflexivity].
    destruct md; reflexivity.
  - intros LZ. unfold lv_zero in LZ. rewrite Eo1 in LZ. rewrite Ev.
    rewrite <- (stages_newton _ _ _ _ M Es LZ). symmetry. exact V3.
Qed.

(** ** The outer loop *)
(** penalty, tolerance, primal infeasibility and inexactness of a pass *)
Record pass_rec := { r_mu : R; r_tol : R; r_res : R; r_err : R }.
Inductive trace (P : problem) (md : mode) : duals -> list pass_rec -> duals -> Prop :=
| tr0 d : trace P md d [] d
| tr1 d n x e d1 out l d2 :
    0 < n_mu n -> ended_at P n x -> feasible P x -> pass md d n = Some (d1, out) ->
    near_min P e x (d_vplus d1) -> (md = NEWTON -> lv_zero out) -> trace P md d1 l d2 ->
    trace P md d ({| r_mu := n_mu n; r_tol := n_tol n; r_res := m_prim_infeas out; r_err := e |} :: l) d2.

(** passes that accept new multipliers although the infeasibility is above [eps] *)
Definition coarse (eps : R) (r : pass_rec) : bool :=
  if Rle_dec (r_res r) (r_tol r) then if Rle_dec (r_res r) eps then false else true else false.
Definition drift (l : list pass_rec) : R := sumR (map (fun r => 2 * r_err r / r_mu r) l).

Lemma near_min_err P e x v : feasible P x -> near_min P e x v -> 0 <= e.
Proof. intros F N. specialize (N x F). lra. Qed.
Lemma drift_nonneg P md d l d' : trace P md d l d' -> 0 <= drift l.
Proof.
  induction 1; unfold drift in *; cbn [map sumR fold_right r_mu r_err] in *; [lra|].
  pose proof (near_min_err _ _ _ _ H1 H3).
  assert (0 <= 2 * e / n_mu n) by (apply Rmult_le_pos; [lra|apply Rlt_le, Rinv_0_lt_compat; auto]). 
  fold (sumR (map (fun r => 2 * r_err r / r_mu r) l)) in *. lra.
Qed.

(** NEWTON and PRIMAL: the multipliers approach those of every solution, up to the errors
    of the inner loop; each pass leaves an infeasibility at most the penalty times the initial
    distance; few passes accept multipliers with a large infeasibility. *)
Theorem C63_multipliers_partial : forall (P : problem) md d l d' xs v eps M,
  md <> PRIMAL_DUAL -> trace P md d l d' -> fit P (d_prev d) -> optimal P xs v ->
  0 <= eps -> 0 < M -> Forall (fun r => r_mu r <= M) l ->
  INR (length (filter (coarse eps) l)) * ((eps / M) * (eps / M)) + dist2s (d_prev d') v
    <= dist2s (d_prev d) v + drift l /\
  Forall (fun r => r_res r * r_res r <= r_mu r * r_mu r * (dist2s (d_prev d) v + drift l)) l.
Proof.
  intros P md d l d' xs v eps M Hm Tr. revert Hm.
  induction Tr as [d|d n x e d1 out l d2 M0 EA FX HP NM NT Tr IH]; intros Hm FT O Pe PM FM.
  - unfold drift. simpl. split; [lra|constructor].
  - inversion_clear FM as [|? ? FM1 FM2]. cbn [r_mu] in FM1.
    destruct (C63_pass P md d n x d1 out e xs v M0 EA FX FT O HP NM) as (A1 & A2 & A3 & A4 & A5 & A6).
    pose proof (near_min_err _ _ _ _ FX NM) as Pe'.
    assert (D0 : 0 <= 2 * e / n_mu n) by (apply Rmult_le_pos; [lra|apply Rlt_le, Rinv_0_lt_compat; auto]).
    pose proof (drift_nonneg _ _ _ _ _ Tr) as D1.
    assert (Dr : drift ({| r_mu := n_mu n; r_tol := n_tol n; r_res := m_prim_infeas out; r_err := e |} :: l)
                 = 2 * e / n_mu n + drift l) by reflexivity.
    rewrite Dr. clear Dr.
    pose proof (dist2s_nonneg (d_vplus d1) v) as N1. pose proof (dist2s_nonneg (d_vplus d1) (d_prev d)) as N2.
    assert (N3 : dist2s (d_prev d1) v + (if Rle_dec (m_prim_infeas out) (n_tol n)
        then dist2s (d_vplus d1) (d_prev d) else 0) <= dist2s (d_prev d) v + 2 * e / n_mu n /\ fit P (d_prev d1)).
    { rewrite A5. destruct (Rle_dec _ _).
      - destruct md; [rewrite (A6 (NT eq_refl))| |congruence]; split; auto; lra.
      - split; auto; lra. }
    destruct N3 as (N3 & N4). specialize (IH Hm N4 O Pe PM FM2). destruct IH as (IH1 & IH2). split.
    + cbn [filter]. unfold coarse at 1. cbn [r_res r_tol].
      destruct (Rle_dec (m_prim_infeas out) (n_tol n)); [|lra].
      destruct (Rle_dec (m_prim_infeas out) eps) as [|G]; [lra|]. cbn [length]. rewrite S_INR.
      assert (K : eps / M * (eps / M) <= dist2s (d_vplus d1) (d_prev d)); [|lra].
      apply Rnot_le_lt in G. set (rr := m_prim_infeas out) in *. set (D := dist2s (d_vplus d1) (d_prev d)) in *.
      apply (Rmult_le_reg_l (M * M)); [nra|].
      replace (M * M * (eps / M * (eps / M))) with (eps * eps) by (field; lra).
      apply Rle_trans with (rr * rr); [nra|]. eapply Rle_trans; [exact A2|]. apply Rmult_le_compat_r; [exact N2|nra].
    + constructor.
      * cbn [r_res r_mu]. eapply Rle_trans; [exact A2|]. apply Rmult_le_compat_l; [nra|]. lra.
      * assert (N5 : dist2s (d_prev d1) v <= dist2s (d_prev d) v + 2 * e / n_mu n).
        { destruct (Rle_dec (m_prim_infeas out) (n_tol n)); lra. }
        eapply Forall_impl; [|exact IH2]. intros r Q. eapply Rle_trans; [exact Q|].
        apply Rmult_le_compat_l; [apply Rle_0_sqr|]. lra.
Qed.

(** With exact inner solves the distance to every solution never grows, the number of accepted
    passes with infeasibility above [eps] is bounded, and a pass whose penalty times the initial
    distance is at most its tolerance is accepted. *)
Corollary C63_exact_partial : forall (P : problem) md d l d' xs v eps M,
  md <> PRIMAL_DUAL -> trace P md d l d' -> fit P (d_prev d) -> optimal P xs v ->
  0 < eps -> 0 < M -> Forall (fun r => r_mu r <= M /\ r_err r = 0) l ->
  dist2s (d_prev d') v <= dist2s (d_prev d) v /\
  INR (length (filter (coarse eps) l)) <= M * M * dist2s (d_prev d) v / (eps * eps) /\
  Forall (fun r => r_mu r * sqrt (dist2s (d_prev d) v) <= r_tol r -> r_res r <= r_tol r) l.
Proof.
  intros P md d l d' xs v eps M Hm Tr FT O Pe PM FM.
  assert (D : drift l = 0).
  { clear - FM. unfold drift. induction FM as [|r l [_ Q] FM IH]; simpl in *; [reflexivity|].
    rewrite Q, IH. lra. }
  assert (Pm : Forall (fun r => 0 < r_mu r) l) by (clear - Tr; induction Tr; constructor; auto).
  destruct (C63_multipliers_partial P md d l d' xs v eps M Hm Tr FT O ltac:(lra) PM) as (A & B).
  { eapply Forall_impl; [|exact FM]. intros r [Q _]. exact Q. }
  rewrite D, Rplus_0_r in *.
  pose proof (dist2s_nonneg (d_prev d') v) as N. pose proof (dist2s_nonneg (d_prev d) v) as N'.
  pose proof (pos_INR (length (filter (coarse eps) l))) as NI.
  assert (Pq : 0 < eps / M) by (apply Rdiv_lt_0_compat; lra).
  set (q := eps / M) in *. set (K := INR _) in *.
  split; [nra|split].
  - assert (Q : K * (q * q) <= dist2s (d_prev d) v) by lra.
    apply (Rmult_le_reg_r (q * q)); [nra|]. eapply Rle_trans; [exact Q|]. right. unfold q. field. lra.
  - rewrite Forall_forall in B, Pm |- *. intros r I H. specialize (B r I). specialize (Pm r I).
    pose proof (sqrt_pos (dist2s (d_prev d) v)). pose proof (sqrt_sqrt _ N') as Sq.
    set (w := sqrt (dist2s (d_prev d) v)) in *. rewrite <- Sq in B.
    destruct (Rle_dec (r_res r) (r_tol r)) as [|G]; auto. exfalso. apply Rnot_le_lt in G.
    assert (0 <= r_mu r * w) by (apply Rmult_le_pos; lra). nra.
Qed.

(** ** PRIMAL_DUAL: vs_pdal is never written by the solver *)
(** min x^2/2 subject to x = 1, whose solution is x = 1 with multiplier -1 *)
Definition toy : problem :=
  {| T := R; cost := fun x => x * x / 2; cval := fun x => [[x - 1]];
     gap0 := fun _ => []; gaps := fun _ => []; sets := [[KEq]] |}.
Example toy_optimal : optimal toy 1 [[-1]].
Proof.
  split; [split; constructor|]. split.
  - intros y _. unfold lagrangian. simpl. unfold vdots, vdot; simpl. pose proof (Rle_0_sqr (y - 1)) as Q. unfold Rsqr in Q. lra.
  - constructor; [| |constructor].
    + constructor; [simpl; lra|constructor].
    + split; [reflexivity|]. split; [reflexivity|]. intros [|i] I; simpl in *; [|lia].
      intros y Hy. simpl in Hy. lra.
Qed.

Lemma len1 {A} (l : list A) : length l = 1%nat -> exists a, l = [a].
Proof. destruct l as [|a [|b l]]; simpl; intros H; try discriminate. now exists a. Qed.
Lemma toy_pass md d n x d' out w : 0 < n_mu n -> d_prev d = [[w]] ->
  ended_at toy n x -> pass md d n = Some (d', out) -> near_min toy 0 x (d_vplus d') ->
  x = (1 - n_mu n * w) / (1 + n_mu n) /\ d_vplus d' = [[- x]] /\ m_prim_infeas out = Rabs (x - 1).
Proof.
  intros M Ew (E1 & E2 & E3 & E4) HP NM.
  assert (FT : fit toy (d_prev d)) by (rewrite Ew; repeat constructor).
  pose proof (prev_wf _ _ _ E4 FT) as W.
  destruct (mult_estimates _ _ _ M W) as (os & Eo & Es).
  unfold pass, computeMultipliers in HP. rewrite Eo in HP. cbn [m_stages m_prim_infeas] in HP.
  assert (Ev : d_vplus d' = map o_vplus os) by (inversion HP; destruct (leb _ _); reflexivity).
  assert (Er : m_prim_infeas out =
     Rmax (infty_norms (map o_infeas os)) (infty_norms (n_gap0 n :: n_gaps n))) by (inversion HP; auto).
  clear HP. cbn [cval gap0 gaps toy] in E1, E2, E3. rewrite E1, E2 in Er.
  cbn [sets toy] in E4. inversion E4 as [|s ks l kss W0 E5 A B]; subst. inversion E5; subst. clear E4 E5.
  rewrite <- A in *. rewrite Ew in *. cbn [zip_with] in *.
  cbn [sets toy] in Es. inversion Es as [|s' ks o p l' kss' os' W1 Est Es' A1 A2 A3]; subst.
  inversion Es'; subst. clear Es Es'. cbn [map] in *.
  injection E3 as E3. destruct Est as (L1 & L2 & L3 & L4 & Is & _ & Q).
  cbn [with_prev i_values i_vprev i_v] in *. rewrite E3 in *. cbn [length] in *.
  destruct (len1 _ L1) as (vp & Evp). destruct (len1 _ L3) as (f & Ef). destruct (len1 _ L4) as (p0 & Ep).
  rewrite Evp, Ef, Ep in *. destruct (Q 0%nat ltac:(lia)) as (Q1 & Q2 & _). simpl in Q1, Q2.
  inversion_clear Is as [|? ? ? ? Ip _]. simpl in Ip. subst p0.
  assert (X : x = - vp).
  { rewrite Ev in NM. specialize (NM (- vp)). unfold lagrangian in NM. cbn [cost cval toy] in NM.
    unfold vdots, vdot in NM. simpl in NM. specialize (NM (conj (Forall_nil _) (Forall_nil _))).
    assert ((x + vp) * (x + vp) <= 0) by nra. assert (x + vp = 0) by nra. lra. }
  split; [|split].
  - apply (Rmult_eq_reg_r (1 + n_mu n)); [|lra]. field_simplify; [|lra]. nra.
  - rewrite Ev, X. do 2 f_equal. ring.
  - rewrite Er. unfold infty_norms, infty_norm. simpl. rewrite Q2, Rminus_0_r.
    pose proof (Rabs_pos (x - 1)). rewrite (Rmax_right 0 (Rabs (x - 1))) by lra.
    rewrite (Rmax_right 0 (Rabs (x - 1))) by lra. rewrite (Rmax_left 0 0) by lra.
    now rewrite Rmax_left by lra.
Qed.

Lemma toy_stuck d l d' m : trace toy PRIMAL_DUAL d l d' -> 0 < m ->
  d_prev d = [[0]] -> d_pdal d = [[0]] ->
  Forall (fun r => m <= r_mu r /\ r_err r = 0) l ->
  d_prev d' = [[0]] /\
  Forall (fun r => r_res r = r_mu r / (1 + r_mu r) /\ m / (1 + m) <= r_res r) l.
Proof.
  intros Tr Pm.
  induction Tr as [d|d n x e d1 out l d2 M0 EA FX HP NM NT Tr IH]; intros Sp Sd F.
  - split; [exact Sp|constructor].
  - inversion_clear F as [|? ? [F1 F2] F3]. cbn [r_mu r_err] in *. subst e.
    destruct (toy_pass _ _ _ _ _ _ 0 M0 Sp EA HP NM) as (X & V & Rr).
    assert (S1 : d_prev d1 = [[0]] /\ d_pdal d1 = [[0]]).
    { unfold pass in HP. destruct (computeMultipliers _ _ _ _ _ _); [|discriminate].
      injection HP as <- _. destruct (leb _ _); simpl; auto. }
    destruct S1 as (S1 & S2). destruct (IH S1 S2 F3) as (I1 & I2). split; auto. constructor; auto. cbn [r_res r_mu].
    assert (E : m_prim_infeas out = n_mu n / (1 + n_mu n)).
    { rewrite Rr, X. replace ((1 - n_mu n * 0) / (1 + n_mu n) - 1) with (- (n_mu n / (1 + n_mu n))) by (field; lra).
      rewrite Rabs_Ropp. apply Rabs_right. apply Rle_ge, Rlt_le, Rdiv_lt_0_compat; lra. }
    split; [exact E|]. rewrite E.
    apply (Rmult_le_reg_r ((1 + m) * (1 + n_mu n))); [nra|].
    replace (m / (1 + m) * ((1 + m) * (1 + n_mu n))) with (m * (1 + n_mu n)) by (field; lra).
    replace (n_mu n / (1 + n_mu n) * ((1 + m) * (1 + n_mu n))) with (n_mu n * (1 + m)) by (field; lra). nra.
Qed.

(** Whatever the penalties and tolerances, every pass of the exact PRIMAL_DUAL iteration from zero
    multipliers ends at infeasibility mu / (1 + mu), the multiplier estimate never improves, and a
    target below m / (1 + m) is never reached by penalties at least m. *)
Theorem C63_primal_dual_refuted : forall l d' m,
  trace toy PRIMAL_DUAL (start [1%nat] (zeros [1%nat])) l d' ->
  0 < m -> Forall (fun r => m <= r_mu r /\ r_err r = 0) l ->
  d_prev d' = [[0]] /\
  Forall (fun r => r_res r = r_mu r / (1 + r_mu r) /\ m / (1 + m) <= r_res r) l.
Proof. intros l d' m Tr Pm F. now apply (toy_stuck _ _ _ _ Tr). Qed.

Lemma trace_inv P md d l d' : trace P md d l d' ->
  match l with
  | [] => True
  | r :: t => exists n x e d1 out,
      r = {| r_mu := n_mu n; r_tol := n_tol n; r_res := m_prim_infeas out; r_err := e |} /\
      0 < n_mu n /\ ended_at P n x /\ pass md d n = Some (d1, out) /\ near_min P e x (d_vplus d1) /\
      trace P md d1 t d'
  end.
Proof. intros []; auto. exists n, x, e, d1, out. auto 8. Qed.

(** The same after the first accepted pass from any multiplier [w]: a warm start is lost, even
    the solution's own multiplier -1, from which the first pass ends at infeasibility 0. *)
Theorem C63_primal_dual_warm_refuted : forall w r l d' m,
  trace toy PRIMAL_DUAL (start [1%nat] [[w]]) (r :: l) d' -> r_res r <= r_tol r ->
  0 < m -> Forall (fun r => m <= r_mu r /\ r_err r = 0) (r :: l) ->
  r_res r = r_mu r * Rabs (1 + w) / (1 + r_mu r) /\ d_prev d' = [[0]] /\
  Forall (fun r => r_res r = r_mu r / (1 + r_mu r) /\ m / (1 + m) <= r_res r) l.
Proof.
  intros w r l d' m Tr Ac Pm F. apply Forall_cons_iff in F. destruct F as ((F1 & F2) & F3).
  destruct (trace_inv _ _ _ _ _ Tr) as (n & x0 & e & d1 & out & Er & M0 & EA & HP & NM & Tr'). subst r.
  cbn [r_res r_tol r_mu r_err] in *. subst e.
  destruct (toy_pass _ (start [1%nat] [[w]]) _ _ _ _ w M0 eq_refl EA HP NM) as (X & V & Rr).
  assert (S1 : d_prev d1 = [[0]] /\ d_pdal d1 = [[0]]).
  { unfold pass in HP. destruct (computeMultipliers _ _ _ _ _ _); [|discriminate].
    injection HP as <- Eo. subst m0. unfold leb. destruct (Rle_dec _ _); [split; reflexivity|contradiction]. }
  destruct S1 as (S1 & S2). split.
  - rewrite Rr, X. replace ((1 - n_mu n * w) / (1 + n_mu n) - 1) with (- (n_mu n / (1 + n_mu n) * (1 + w))) by (field; lra).
    rewrite Rabs_Ropp, Rabs_mult, (Rabs_right (n_mu n / (1 + n_mu n))); [field; lra|].
    apply Rle_ge, Rlt_le, Rdiv_lt_0_compat; lra.
  - now apply (toy_stuck _ _ _ _ Tr').
Qed.

(** ** Examples *)
(** The inner loop ends at [x] with multiplier [v]. *)
Definition toy_inner (mu tol x v : R) : inner :=
  {| n_mu := mu; n_tol := tol; n_lam0 := []; n_gap0 := []; n_lams := []; n_gaps := [];
     n_stages := [{| i_set := SEq pp_default; i_values := [[x - 1]]; i_vprev := [0]; i_v := [v];
                     i_vbuf := [0]; i_abuf := [false] |}] |}.
Lemma toy_ended mu tol x v : ended_at toy (toy_inner mu tol x v) x.
Proof.
  split; [reflexivity|]. split; [reflexivity|]. split; [reflexivity|].
  constructor; [|constructor]. split; [reflexivity|]. split; [|repeat split].
  constructor; [exact I|constructor].
Qed.
(** From multiplier [w] with penalty 1: the inner loop ends at x = (1 - w) / 2. *)
Lemma toy_step md d w : d_prev d = [[w]] -> Rabs (1 + w) <= 2 ->
  exists d1 out, pass md d (toy_inner 1 1 ((1 - w) / 2) ((w - 1) / 2)) = Some (d1, out) /\
    d_prev d1 = match md with PRIMAL_DUAL => d_pdal d | _ => [[(w - 1) / 2]] end /\ d_pdal d1 = d_pdal d /\ d_vplus d1 = [[(w - 1) / 2]] /\ lv_zero out /\
    m_prim_infeas out = Rabs (1 + w) / 2.
Proof.
  intros Ew B. unfold pass. cbn [n_stages toy_inner n_mu n_lam0 n_gap0 n_lams n_gaps n_tol]. rewrite Ew.
  cbn [zip_with with_prev]. unfold computeMultipliers. cbn [stages_mult].
  set (s := with_prev _ _).
  assert (E : stage_mult 1 s = Some {| o_shifted := [(1 - w) / 2 - 1 + 1 * w];
     o_vplus := [1 / 1 * ((1 - w) / 2 - 1 + 1 * w)]; o_active := [true];
     o_Lv := [(1 - w) / 2 - 1 + 1 * w - 1 * ((w - 1) / 2)];
     o_infeas := [1 * (1 / 1 * ((1 - w) / 2 - 1 + 1 * w) - w)] |}) by reflexivity.
  rewrite E. cbn [m_stages m_prim_infeas map o_vplus o_infeas].
  assert (Er : Rmax (infty_norms [[1 * (1 / 1 * ((1 - w) / 2 - 1 + 1 * w) - w)]]) (infty_norms [[]]) = Rabs (1 + w) / 2).
  { unfold infty_norms, infty_norm. simpl.
    replace (1 * (1 / 1 * ((1 - w) / 2 - 1 + 1 * w) - w)) with (- ((1 + w) / 2)) by field.
    rewrite Rabs_Ropp. unfold Rdiv at 1 2. rewrite Rabs_mult, (Rabs_right (/ 2)) by lra.
    pose proof (Rabs_pos (1 + w)). rewrite (Rmax_right 0 (Rabs (1 + w) * / 2)) by lra.
    rewrite (Rmax_right 0 (Rabs (1 + w) * / 2)) by lra. rewrite (Rmax_left 0 0) by lra.
    rewrite Rmax_left by lra. lra. }
  rewrite Er.
  assert (V : 1 / 1 * ((1 - w) / 2 - 1 + 1 * w) = (w - 1) / 2) by field.
  assert (L : leb (Rabs (1 + w) / 2) 1 = true) by (unfold leb; destruct (Rle_dec _ _); auto; lra).
  rewrite L. eexists. eexists. split; [reflexivity|]. cbn [d_prev d_pdal d_vplus].
  split; [destruct md; cbn; [reflexivity|now rewrite V|reflexivity]|]. split; [reflexivity|].
  split; [now rewrite V|]. split; [|reflexivity].
  unfold lv_zero. cbn [m_stages]. constructor; [|constructor]. cbn [o_Lv]. constructor; [field|constructor].
Qed.
Lemma toy_near x : near_min toy 0 x [[- x]].
Proof.
  intros y _. unfold lagrangian. simpl. unfold vdots, vdot; simpl.
  pose proof (Rle_0_sqr (y - x)) as Q. unfold Rsqr in Q. lra.
Qed.

(** Two exact passes with penalty 1 and tolerance 1 from zero: multipliers 0, -1/2, -3/4. *)
Example C63_example : forall md, md <> PRIMAL_DUAL -> exists d',
  trace toy md (start [1%nat] (zeros [1%nat]))
    [{| r_mu := 1; r_tol := 1; r_res := 1 / 2; r_err := 0 |};
     {| r_mu := 1; r_tol := 1; r_res := 1 / 4; r_err := 0 |}] d' /\ d_prev d' = [[- (3 / 4)]] /\
  fit toy (d_prev (start [1%nat] (zeros [1%nat]))) /\ optimal toy 1 [[-1]].
Proof.
  intros md Hm. set (d := start _ _).
  destruct (toy_step md d 0 eq_refl) as (d1 & o1 & A1 & A2 & A3 & A4 & A5 & A6).
  { rewrite Rabs_right; lra. }
  assert (A2' : d_prev d1 = [[(0 - 1) / 2]]) by (destruct md; [exact A2|exact A2|congruence]).
  destruct (toy_step md d1 ((0 - 1) / 2) A2') as (d2 & o2 & B1 & B2 & B3 & B4 & B5 & B6).
  { rewrite Rabs_right; lra. }
  exists d2. split; [|split; [destruct md; [| |congruence]; rewrite B2; do 2 f_equal; field|split; [repeat constructor|apply toy_optimal]]].
  assert (F : forall x : T toy, feasible toy x) by (split; constructor).
  rewrite Rabs_right in A6, B6 by lra.
  replace (1 / 2) with (m_prim_infeas o1) by (rewrite A6; field).
  replace (1 / 4) with (m_prim_infeas o2) by (rewrite B6; field).
  apply (tr1 toy md d (toy_inner 1 1 ((1 - 0) / 2) ((0 - 1) / 2)) ((1 - 0) / 2) 0 d1 o1); auto.
  - simpl; lra.
  - apply toy_ended.
  - rewrite A4. replace ((0 - 1) / 2) with (- ((1 - 0) / 2)) by field. apply toy_near.
  - apply (tr1 toy md d1 (toy_inner 1 1 ((1 - (0 - 1) / 2) / 2) (((0 - 1) / 2 - 1) / 2)) ((1 - (0 - 1) / 2) / 2) 0 d2 o2); auto.
    + simpl; lra.
    + apply toy_ended.
    + rewrite B4. replace (((0 - 1) / 2 - 1) / 2) with (- ((1 - (0 - 1) / 2) / 2)) by field. apply toy_near.
    + constructor.
Qed.

(** The same two passes with PRIMAL_DUAL: the infeasibility stays. *)
Example C63_primal_dual_example : exists d',
  trace toy PRIMAL_DUAL (start [1%nat] (zeros [1%nat]))
    [{| r_mu := 1; r_tol := 1; r_res := 1 / 2; r_err := 0 |};
     {| r_mu := 1; r_tol := 1; r_res := 1 / 2; r_err := 0 |}] d' /\ d_prev d' = [[0]].
Proof.
  set (d := start _ _).
  destruct (toy_step PRIMAL_DUAL d 0 eq_refl) as (d1 & o1 & A1 & A2 & A3 & A4 & A5 & A6).
  { rewrite Rabs_right; lra. }
  destruct (toy_step PRIMAL_DUAL d1 0 A2) as (d2 & o2 & B1 & B2 & B3 & B4 & B5 & B6).
  { rewrite Rabs_right; lra. }
  exists d2. split; [|rewrite B2, A3; reflexivity].
  assert (F : forall x : T toy, feasible toy x) by (split; constructor).
  rewrite Rabs_right in A6, B6 by lra.
  replace (1 / 2) with (m_prim_infeas o1) at 1 by (rewrite A6; field).
  replace (1 / 2) with (m_prim_infeas o2) by (rewrite B6; field).
  apply (tr1 toy PRIMAL_DUAL d (toy_inner 1 1 ((1 - 0) / 2) ((0 - 1) / 2)) ((1 - 0) / 2) 0 d1 o1); auto.
  - simpl; lra.
  - apply toy_ended.
  - rewrite A4. replace ((0 - 1) / 2) with (- ((1 - 0) / 2)) by field. apply toy_near.
  - apply (tr1 toy PRIMAL_DUAL d1 (toy_inner 1 1 ((1 - 0) / 2) ((0 - 1) / 2)) ((1 - 0) / 2) 0 d2 o2); auto.
    + simpl; lra.
    + apply toy_ended.
    + rewrite B4. replace ((0 - 1) / 2) with (- ((1 - 0) / 2)) by field. apply toy_near.
    + constructor.
Qed.

(** Warm start at the multiplier of the solution: accepted with infeasibility 0, then 1/2. *)
Example C63_primal_dual_warm_example : exists d',
  trace toy PRIMAL_DUAL (start [1%nat] [[-1]])
    [{| r_mu := 1; r_tol := 1; r_res := 0; r_err := 0 |};
     {| r_mu := 1; r_tol := 1; r_res := 1 / 2; r_err := 0 |}] d' /\ d_prev d' = [[0]].
Proof.
  set (d := start _ _).
  destruct (toy_step PRIMAL_DUAL d (-1) eq_refl) as (d1 & o1 & A1 & A2 & A3 & A4 & A5 & A6).
  { rewrite Rabs_right; lra. }
  destruct (toy_step PRIMAL_DUAL d1 0 A2) as (d2 & o2 & B1 & B2 & B3 & B4 & B5 & B6).
  { rewrite Rabs_right; lra. }
  exists d2. split; [|rewrite B2, A3; reflexivity].
  assert (F : forall x : T toy, feasible toy x) by (split; constructor).
  rewrite Rabs_right in A6, B6 by lra.
  assert (Z : m_prim_infeas o1 = 0) by (rewrite A6; field).
  assert (Hf : m_prim_infeas o2 = 1 / 2) by (rewrite B6; field).
  rewrite <- Hf. set (q := {| r_mu := 1; r_tol := 1; r_res := m_prim_infeas o2; r_err := 0 |}).
  replace {| r_mu := 1; r_tol := 1; r_res := 0; r_err := 0 |}
    with {| r_mu := 1; r_tol := 1; r_res := m_prim_infeas o1; r_err := 0 |} by (now rewrite Z).
  apply (tr1 toy PRIMAL_DUAL d (toy_inner 1 1 ((1 - -1) / 2) ((-1 - 1) / 2)) ((1 - -1) / 2) 0 d1 o1); auto.
  - simpl; lra.
  - apply toy_ended.
  - rewrite A4. replace ((-1 - 1) / 2) with (- ((1 - -1) / 2)) by field. apply toy_near.
  - apply (tr1 toy PRIMAL_DUAL d1 (toy_inner 1 1 ((1 - 0) / 2) ((0 - 1) / 2)) ((1 - 0) / 2) 0 d2 o2); auto.
    + simpl; lra.
    + apply toy_ended.
    + rewrite B4. replace ((0 - 1) / 2) with (- ((1 - 0) / 2)) by field. apply toy_near.
    + constructor.
Qed.
