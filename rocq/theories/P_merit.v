(** C51: the merit function and its slope. *)
From Coq Require Import Reals List Lra Lia Bool Arith.
From Verif Require Import CSetModel CSetSpec CSetProofs MultModel P_mult MeritModel.
Import ListNotations.
Local Open Scope R_scope.

(** ** Specification *)

(** sum of the squares *)
Fixpoint ssq (v : list R) : R := match v with [] => 0 | x :: v' => x * x + ssq v' end.
(** squared distance from [z] to the set: a point of the set attains it, none does
    better *)
Definition sqdist (ks : list kind) (z : list R) (D : R) : Prop :=
  (exists p, in_set ks p /\ length p = length z /\ D = ssq (zip_with Rminus z p)) /\
  forall q, in_set ks q -> length q = length z -> D <= ssq (zip_with Rminus z q).
(** shifted values: c + mu v, and gap + mu lam *)
Definition shift (mu : R) (c v : list R) : list R := zip_with (fun a b => a + mu * b) c v.

(** The Powell-Hestenes-Rockafellar augmented Lagrangian of the header
    (merit-function.hpp 18-31), with mu/10 on the dynamics:
    J + |gap0 + mu lam0|^2/(2 mu) + sum |gap + mu_d lam|^2/(2 mu_d)
      + sum dist(c + mu v, C)^2/(2 mu). *)
Fixpoint sumR (l : list R) : R := match l with [] => 0 | x :: l' => x + sumR l' end.
Definition augmented (mu cost : R) (lam0 gap0 : list R) (lams gaps : list (list R))
  (dists : list R) : R :=
  cost + ssq (shift mu gap0 lam0) / (2 * mu)
  + sumR (zip_with (fun g l => ssq (shift (mu / 10) g l) / (2 * (mu / 10))) gaps lams)
  + sumR (map (fun D => D / (2 * mu)) dists).

(** ** Norms *)
Lemma squaredNorm_ssq v : squaredNorm v = ssq v.
Proof. induction v; unfold squaredNorm in *; simpl; [reflexivity|now rewrite IHv]. Qed.
Lemma ssq_scale a v : ssq (vscale a v) = a * a * ssq v.
Proof. induction v; simpl; [ring|]. rewrite IHv. ring. Qed.
Lemma ssq_nonneg v : 0 <= ssq v.
Proof. induction v; simpl; [lra|nra]. Qed.

Lemma vncp_dist ks z : Forall is_set ks -> length z = length ks -> sqdist ks z (ssq (vncp ks z)).
Proof.
  intros Hs Hl; split.
  - exists (vproj ks z). split; [apply vproj_in; congruence|]. split; [unfold vproj; rewrite zip_with_length; congruence|].
    f_equal. revert z Hl. induction Hs as [|k ks Hk Hs IH]; intros [|x z] Hl; simpl in *; try discriminate; auto.
    f_equal; [|apply IH; lia]. assert (k <> KFree) by (intros ->; exact Hk).
    pose proof (sproj_ncp k x H). lra.
  - intros q Hq. revert q z Hl Hq. induction Hs as [|k ks Hk Hs IH]; intros q [|x z] Hl Hq Hlq; simpl in *;
      try discriminate; try lra.
    inversion Hq as [|k' y ks' l' H2 H3]; subst. simpl in Hlq |- *.
    assert (N := sncp_normal k x Hk _ H2). assert (k <> KFree) by (intros ->; exact Hk).
    pose proof (sproj_ncp k x H). 
    assert (ssq (vncp ks z) <= ssq (zip_with Rminus z l')) by (apply IH; try assumption; lia).
    unfold vncp in *. assert (sncp k x * sncp k x <= (x - y) * (x - y)); [|lra].
    replace (x - y) with (sncp k x + (sproj k x - y)) by lra.
    assert (0 <= (sproj k x - y) * (sproj k x - y)) by (apply Rle_0_sqr). lra.
Qed.

(** ** Value *)
Lemma shift_eq mu c v : vplus' c (vscale mu v) = shift mu c v.
Proof.
  unfold vplus', shift, vscale. revert v; induction c; intros [|b v]; simpl; auto. f_equal. apply IHc.
Qed.
Lemma shift_length mu c v : length c = length v -> length (shift mu c v) = length c.
Proof. intros H; unfold shift; now rewrite zip_with_length. Qed.

Lemma stage_vplus mu s ks : 0 < mu -> well_formed s ks ->
  exists o, stage_mult mu s = Some o /\
    o_vplus o = vscale (1 / mu) (vncp ks (shift mu (concat (i_values s)) (i_vprev s))).
Proof.
  intros Hmu (Hk & Hs & L1 & L2 & L3 & L4). unfold stage_mult.
  set (c := concat (i_values s)) in *. set (n := length c) in *.
  rewrite (same_len_true c (i_vprev s)), (same_len_true c (i_v s)) by (unfold n in *; lia).
  simpl negb. cbn iota. rewrite shift_eq.
  assert (Lz : length (shift mu c (i_vprev s)) = n) by (apply shift_length; unfold n in *; lia).
  assert (Hc := is_set_covered ks Hs).
  rewrite (ncp_eq _ n ks) by auto. rewrite (active_eq _ n ks) by auto.
  eexists. split; reflexivity.
Qed.

(** shifted constraint values of a stage, as the line search sees them *)
Definition shifted (mu : R) (s : stage_in) := shift mu (concat (i_values s)) (i_vprev s).
Definition vplus_of (mu : R) (ks : list kind) (s : stage_in) := vscale (1 / mu) (vncp ks (shifted mu s)).
Fixpoint vplus_all mu (kss : list (list kind)) (l : list stage_in) : list (list R) :=
  match kss, l with ks :: kss', s :: l' => vplus_of mu ks s :: vplus_all mu kss' l' | _, _ => [] end.
Lemma stages_vplus mu l kss : 0 < mu -> Forall2 well_formed l kss ->
  exists os, stages_mult mu l = Some os /\ map o_vplus os = vplus_all mu kss l.
Proof.
  intros Hmu H; induction H as [|s ks l kss Hw H IH]; simpl; [eauto|].
  destruct (stage_vplus mu s ks Hmu Hw) as (o & -> & E). destruct IH as (os & -> & E').
  eexists; split; [reflexivity|]. simpl. rewrite E'. f_equal. exact E.
Qed.

Lemma penalty_sum mudyn mucstr has_term : forall lams vs p,
  length vs = S (length lams) -> (has_term = false -> last vs [] = []) ->
  penalty_loop mudyn mucstr true has_term (length lams) lams vs p =
  p + sumR (map (fun l => mudyn / 2 * ssq l) lams) + sumR (map (fun v => mucstr / 2 * ssq v) vs).
Proof.
  induction lams as [|l lams IH]; intros [|v vs] p Hl Ht; try discriminate.
  - destruct vs; [|discriminate]. simpl in *. rewrite squaredNorm_ssq.
    destruct has_term; [lra|]. rewrite (Ht eq_refl). simpl. lra.
  - cbn [length penalty_loop hd tl]. rewrite IH.
    + rewrite !squaredNorm_ssq. simpl. lra.
    + simpl in Hl; lia.
    + intros h. specialize (Ht h). destruct vs; [discriminate|exact Ht].
Qed.

Lemma ssq_lam mu l g : 0 < mu -> length l = length g ->
  mu / 2 * ssq (vplus' l (map (fun x => x / mu) g)) = ssq (shift mu g l) / (2 * mu).
Proof.
  intros Hmu. revert g; induction l as [|a l IH]; intros [|b g] H; try discriminate.
  - simpl. unfold Rdiv. ring.
  - unfold vplus', shift in *. simpl. rewrite Rmult_plus_distr_l, IH by (simpl in H; lia). field. lra.
Qed.
Lemma lams_sum mu : forall lams gaps, 0 < mu -> Forall2 (fun l g => length l = length g) lams gaps ->
  sumR (map (fun l => mu / 2 * ssq l) (lams_plus mu lams gaps)) =
  sumR (zip_with (fun g l => ssq (shift mu g l) / (2 * mu)) gaps lams).
Proof.
  intros lams gaps Hmu H; induction H; simpl; [reflexivity|].
  rewrite ssq_lam by assumption. f_equal. exact IHForall2.
Qed.

Definition dists_of (mu : R) (kss : list (list kind)) (l : list stage_in) : list R :=
  zip_with (fun ks s => ssq (vncp ks (shifted mu s))) kss l.
Lemma vplus_sum mu kss l : 0 < mu ->
  sumR (map (fun v => mu / 2 * ssq v) (vplus_all mu kss l)) =
  sumR (map (fun D => D / (2 * mu)) (dists_of mu kss l)).
Proof.
  intros Hmu; revert l; induction kss as [|ks kss IH]; intros [|s l]; simpl; try reflexivity.
  unfold dists_of in IH. rewrite IH. unfold vplus_of. rewrite ssq_scale. f_equal. field. lra.
Qed.

(** sizes of the co-states and of the constraint data *)
Definition sizes (lam0 gap0 : list R) (lams gaps : list (list R)) (l : list stage_in)
  (kss : list (list kind)) (has_term : bool) : Prop :=
  length lam0 = length gap0 /\ Forall2 (fun x y => length x = length y) lams gaps /\
  Forall2 well_formed l kss /\ length l = S (length gaps) /\
  (has_term = false -> last kss [] = []).

Lemma last_vplus mu kss l : Forall2 well_formed l kss -> last kss [] = [] ->
  last (vplus_all mu kss l) [] = [].
Proof.
  intros H; induction H as [|s ks l kss Hw H IH]; simpl; auto.
  destruct H; simpl in *.
  - intros ->. reflexivity.
  - intros E. apply IH. exact E.
Qed.
Lemma vplus_all_length mu kss l : Forall2 well_formed l kss -> length (vplus_all mu kss l) = length l.
Proof. intros H; induction H; simpl; auto. Qed.
Lemma lams_plus_length md lams gaps : length lams = length gaps -> length (lams_plus md lams gaps) = length gaps.
Proof. intros H; unfold lams_plus; rewrite zip_with_length; auto. Qed.
Lemma Forall2_len {A B} (P : A -> B -> Prop) a b : Forall2 P a b -> length a = length b.
Proof. intros H; induction H; simpl; auto. Qed.

Lemma merit_value mu cost lam0 gap0 lams gaps l kss has_term :
  0 < mu -> sizes lam0 gap0 lams gaps l kss has_term ->
  merit mu cost lam0 gap0 lams gaps l has_term =
  Some (augmented mu cost lam0 gap0 lams gaps (dists_of mu kss l)).
Proof.
  intros Hmu (L0 & Ll & Hw & Ls & Ht). unfold merit, computeMultipliers.
  destruct (stages_vplus mu l kss Hmu Hw) as (os & -> & E). cbn [m_lams m_stages]. rewrite E.
  assert (Lg := Forall2_len _ _ _ Ll). f_equal. unfold al_evaluate, augmented.
  assert (Hd : 0 < mu_dyn mu) by (unfold mu_dyn; lra).
  rewrite <- (lams_plus_length (mu_dyn mu) lams gaps) by assumption.
  rewrite penalty_sum.
  - rewrite vplus_sum, lams_sum by assumption.
    rewrite squaredNorm_ssq.
    replace (1 / 2 * (mu * ssq (vplus' lam0 (map (fun x => x / mu) gap0))))
      with (mu / 2 * ssq (vplus' lam0 (map (fun x => x / mu) gap0))) by lra.
    rewrite ssq_lam by assumption. unfold mu_dyn.
    replace (1 / 10 * mu) with (mu / 10) by lra. ring.
  - rewrite vplus_all_length, lams_plus_length by assumption. exact Ls.
  - intros h. apply last_vplus; auto.
Qed.

(** C51, value: for every horizon, gaps, multipliers and (product of) equality,
    inequality and box constraints. *)
Theorem C51_value : forall mu cost lam0 gap0 lams gaps l kss has_term,
  0 < mu -> sizes lam0 gap0 lams gaps l kss has_term ->
  exists dists, length dists = length l /\
    (forall i s ks D, nth_error l i = Some s -> nth_error kss i = Some ks -> nth_error dists i = Some D ->
       sqdist ks (shift mu (concat (i_values s)) (i_vprev s)) D) /\
    merit mu cost lam0 gap0 lams gaps l has_term =
    Some (augmented mu cost lam0 gap0 lams gaps dists).
Proof.
  intros mu cost lam0 gap0 lams gaps l kss has_term Hmu Hs.
  exists (dists_of mu kss l). split; [|split; [|now apply merit_value]].
  - destruct Hs as (_ & _ & Hw & _). apply Forall2_len in Hw.
    unfold dists_of. rewrite zip_with_length; congruence.
  - destruct Hs as (_ & _ & Hw & _). induction Hw as [|s ks l kss Hsk Hw IH]; intros [|i] s' ks' D; simpl;
      try discriminate; [|apply IH].
    intros E1 E2 E3. injection E1 as <-. injection E2 as <-. injection E3 as <-.
    destruct Hsk as (Hk & Hset & L1 & _). apply vncp_dist; auto.
    unfold shifted; rewrite shift_length by auto. symmetry. eapply layout_length; eauto.
Qed.

(** ** Slope *)

(** a curve of vectors with derivative [dv] at 0 *)
Definition vderiv (v : R -> list R) (dv : list R) : Prop :=
  (forall a, length (v a) = length dv) /\
  forall i, (i < length dv)%nat -> derivable_pt_lim (fun a => nth i (v a) 0) 0 (nth i dv 0).

Lemma dlim_ext f g x l : (forall a, f a = g a) -> derivable_pt_lim f x l -> derivable_pt_lim g x l.
Proof.
  intros E H e He. destruct (H e He) as [d Hd]. exists d. intros h h0 hd. rewrite <- !E. auto.
Qed.

Lemma sncp_sq_bound k x h : is_set k ->
  0 <= sncp k (x + h) * sncp k (x + h) - sncp k x * sncp k x - 2 * sncp k x * h <= h * h.
Proof.
  intros Hk. assert (Hf : k <> KFree) by (intros ->; exact Hk).
  assert (E1 := sproj_ncp k x Hf). assert (E2 := sproj_ncp k (x + h) Hf).
  assert (In1 : forall y, dom k (sproj k y)) by (intros y; destruct k; simpl in *; try easy; rcases; lra).
  assert (N1 := sncp_normal k x Hk (sproj k (x + h)) (In1 _)).
  assert (N2 := sncp_normal k (x + h) Hk (sproj k x) (In1 _)).
  set (n := sncp k x) in *. set (n' := sncp k (x + h)) in *.
  set (p := sproj k x) in *. set (p' := sproj k (x + h)) in *.
  assert (p' - p = h - (n' - n)) by lra.
  assert (p - p' = (n' - n) - h) by lra. rewrite H in N1. rewrite H0 in N2.
  assert (S1 := Rle_0_sqr (n' - n)). assert (S2 := Rle_0_sqr (h - (n' - n))). unfold Rsqr in *.
  split; nra.
Qed.

Lemma sncp_sq_deriv k x : is_set k ->
  derivable_pt_lim (fun y => sncp k y * sncp k y) x (2 * sncp k x).
Proof.
  intros Hk e He. exists (mkposreal e He). intros h h0 hd. simpl in hd.
  assert (B := sncp_sq_bound k x h Hk).
  set (n := sncp k x) in *. set (n' := sncp k (x + h)) in *.
  replace ((n' * n' - n * n) / h - 2 * n) with ((n' * n' - n * n - 2 * n * h) / h) by (field; assumption).
  unfold Rdiv. rewrite Rabs_mult. rewrite (Rabs_right (n' * n' - n * n - 2 * n * h)) by lra.
  apply Rle_lt_trans with (Rabs h); [|assumption].
  assert (Hh : 0 < Rabs h) by (apply Rabs_pos_lt; assumption).
  apply Rmult_le_reg_r with (Rabs h); [assumption|].
  rewrite Rmult_assoc, <- Rabs_mult, Rinv_l, Rabs_R1, Rmult_1_r by assumption.
  rewrite <- Rabs_mult, Rabs_right by (pose proof (Rle_0_sqr h); unfold Rsqr in *; lra). lra.
Qed.

Lemma vncp_sq_deriv : forall ks z dz, Forall is_set ks -> length ks = length dz -> vderiv z dz ->
  derivable_pt_lim (fun a => ssq (vncp ks (z a))) 0 (2 * vdot (vncp ks (z 0)) dz).
Proof.
  induction ks as [|k ks IH]; intros z dz Hs L [Hl Hd]; destruct dz as [|d dz]; try discriminate.
  - simpl. unfold vdot. simpl. replace (2 * 0) with 0 by ring.
    apply (dlim_ext (fun _ => 0)); [intros a; reflexivity|]. apply derivable_pt_lim_const.
  - inversion Hs as [|? ? Hk Hks]; subst.
    assert (Ez : forall a, z a = nth 0 (z a) 0 :: tl (z a)).
    { intros a. specialize (Hl a). destruct (z a); [discriminate|reflexivity]. }
    rewrite Ez. unfold vdot. simpl.
    apply (dlim_ext (fun a => (fun y => sncp k y * sncp k y) (nth 0 (z a) 0) + ssq (vncp ks (tl (z a))))).
    { intros a. specialize (Hl a). destruct (z a); [discriminate|reflexivity]. }
    rewrite Rmult_plus_distr_l. apply derivable_pt_lim_plus.
    + replace (2 * (sncp k (nth 0 (z 0) 0) * d)) with (2 * sncp k (nth 0 (z 0) 0) * d) by ring.
      apply (derivable_pt_lim_comp (fun a => nth 0 (z a) 0) (fun y => sncp k y * sncp k y)).
      * apply (Hd 0%nat). simpl; lia.
      * now apply sncp_sq_deriv.
    + apply (IH (fun a => tl (z a))); auto. split.
      * intros a. specialize (Hl a). destruct (z a); simpl in *; lia.
      * intros i Hi. apply (dlim_ext (fun a => nth (S i) (z a) 0)).
        { intros a. rewrite (Ez a). reflexivity. }
        apply (Hd (S i)). simpl; lia.
Qed.

Lemma vncp_eq z : forall n, length z = n -> vncp (repeat KEq n) z = z.
Proof. unfold vncp; induction z; intros [|n] H; simpl in *; try discriminate; auto. f_equal. apply IHz. lia. Qed.
Lemma ssq_deriv z dz : vderiv z dz ->
  derivable_pt_lim (fun a => ssq (z a)) 0 (2 * vdot (z 0) dz).
Proof.
  intros H. apply (dlim_ext (fun a => ssq (vncp (repeat KEq (length dz)) (z a)))).
  { intros a. f_equal. apply vncp_eq. apply H. }
  rewrite <- (vncp_eq (z 0) (length dz)) by apply H.
  apply vncp_sq_deriv; auto; [|apply repeat_length].
  apply Forall_forall. intros k Hk. apply repeat_spec in Hk. subst. exact I.
Qed.

Lemma shift_deriv mu c dc v dv : vderiv c dc -> vderiv v dv -> length dc = length dv ->
  vderiv (fun a => shift mu (c a) (v a)) (shift mu dc dv).
Proof.
  intros [Lc Dc] [Lv Dv] L. split.
  - intros a. rewrite !shift_length; auto. rewrite Lc, Lv; auto.
  - intros i Hi. rewrite shift_length in Hi by assumption.
    unfold shift at 2. rewrite (zip_nth _ _ _ _ 0 0) by lia.
    apply (dlim_ext (fun a => nth i (c a) 0 + mu * nth i (v a) 0)).
    { intros a. unfold shift. rewrite (zip_nth _ _ _ _ 0 0); auto; rewrite ?Lc, ?Lv; lia. }
    apply derivable_pt_lim_plus; [apply Dc; lia|]. apply derivable_pt_lim_scal. apply Dv; lia.
Qed.
Lemma const_deriv v : vderiv (fun _ => v) (repeat 0 (length v)).
Proof.
  split; [intros; now rewrite repeat_length|]. intros i _. rewrite nth_repeat. apply derivable_pt_lim_const.
Qed.
Lemma shift_const mu c dc v : vderiv c dc -> length dc = length v ->
  vderiv (fun a => shift mu (c a) v) dc.
Proof.
  intros H L. assert (D := shift_deriv mu c dc (fun _ => v) _ H (const_deriv v)).
  rewrite repeat_length in D. specialize (D L).
  replace (shift mu dc (repeat 0 (length v))) with dc in D; [exact D|].
  clear - L. unfold shift. revert v L; induction dc; intros [|b v] L; simpl in *; try discriminate; auto.
  f_equal; [ring|]. apply IHdc. lia.
Qed.

(** ** Vector algebra on lists *)
Lemma vdot_plus a b d : length a = length d -> length b = length d ->
  vdot (vplus' a b) d = vdot a d + vdot b d.
Proof.
  unfold vdot, vplus'. revert a b; induction d as [|e d IHd]; intros [|x a] [|y b]; simpl; intros; try discriminate; try ring.
  rewrite IHd by lia. ring.
Qed.
Lemma vdot_plus_r a b d : length a = length d -> length b = length d ->
  vdot d (vplus' a b) = vdot d a + vdot d b.
Proof.
  unfold vdot, vplus'. revert a b; induction d as [|e d IHd]; intros [|x a] [|y b]; simpl; intros; try discriminate; try ring.
  rewrite IHd by lia. ring.
Qed.
Lemma vdot_minus_r a b d : length a = length d -> length b = length d ->
  vdot d (vminus a b) = vdot d a - vdot d b.
Proof.
  unfold vdot, vminus. revert a b; induction d as [|e d IHd]; intros [|x a] [|y b]; simpl; intros; try discriminate; try ring.
  rewrite IHd by lia. ring.
Qed.
Lemma vdot_scale k a d : vdot (vscale k a) d = k * vdot a d.
Proof.
  unfold vdot, vscale. revert d; induction a; intros [|y d]; simpl; try ring. rewrite IHa. ring.
Qed.
Lemma vdot_opp a d : vdot (map Ropp a) d = - vdot a d.
Proof. unfold vdot. revert d; induction a; intros [|y d]; simpl; try ring. rewrite IHa. ring. Qed.
Lemma vdot_zero n d : vdot (repeat 0 n) d = 0.
Proof. unfold vdot. revert d; induction n; intros [|y d]; simpl; try ring. rewrite IHn. ring. Qed.
Definition mat (r c : nat) (J : list (list R)) := length J = r /\ Forall (fun row => length row = c) J.
Lemma tmulv_length n J v : Forall (fun row => length row = n) J -> length (tmulv n J v) = n.
Proof.
  unfold tmulv. intros H; revert v; induction H; intros [|y v]; simpl; try apply repeat_length.
  unfold vplus'. rewrite zip_with_length; unfold vscale; rewrite map_length; auto.
  fold (vscale y x). rewrite IHForall. assumption.
Qed.
Lemma tmulv_dot n J v d : Forall (fun row => length row = n) J -> length J = length v -> length d = n ->
  vdot (tmulv n J v) d = vdot v (mulv J d).
Proof.
  intros H Hv Hd. revert v Hv; induction H as [|row J Hr H IH]; intros [|y v] Hv; try discriminate.
  - unfold tmulv; simpl. rewrite vdot_zero. reflexivity.
  - change (tmulv n (row :: J) (y :: v)) with (vplus' (vscale y row) (tmulv n J v)).
    rewrite vdot_plus, IH by
      (rewrite ?tmulv_length by assumption; unfold vscale; rewrite ?map_length; simpl in *; lia).
    rewrite vdot_scale. reflexivity.
Qed.
Lemma mulv_length J d : length (mulv J d) = length J.
Proof. apply map_length. Qed.

(** ** The slope as a sum *)

(** sizes of the derivatives, directions and multipliers, state dimension [n] *)
Fixpoint dims (n : nat) (st : list sdata) (tm : sdata) (dxs dus lams vs : list (list R)) : Prop :=
  match st, dxs, dus, lams, vs with
  | s :: st', dx :: dxs', du :: dus', l :: lams', v :: vs' =>
      length dx = n /\ length (s_lx s) = n /\ length (s_lu s) = length du /\
      mat (length l) n (s_A s) /\ mat (length l) (length du) (s_B s) /\
      mat (length v) n (s_Jx s) /\ mat (length v) (length du) (s_Ju s) /\
      dims (length l) st' tm dxs' dus' lams' vs'
  | [], [dx], [], [], [v] => length dx = n /\ length (s_lx tm) = n /\ mat (length v) n (s_Jx tm)
  | _, _, _, _, _ => False
  end.

(** Directional derivatives of the stage functions: dynamics error
    f(x,u) - x', constraints, cost. *)
Definition dgap (s : sdata) (dx du dx' : list R) : list R :=
  vminus (vplus' (mulv (s_A s) dx) (mulv (s_B s) du)) dx'.
Definition dcstr (s : sdata) (dx du : list R) : list R :=
  vplus' (mulv (s_Jx s) dx) (mulv (s_Ju s) du).
Fixpoint dcost (st : list sdata) (tm : sdata) (dxs dus : list (list R)) : R :=
  match st, dxs, dus with
  | s :: st', dx :: dxs', du :: dus' => vdot (s_lx s) dx + vdot (s_lu s) du + dcost st' tm dxs' dus'
  | [], dx :: _, _ => vdot (s_lx tm) dx
  | _, _, _ => 0
  end.
Fixpoint dcons (st : list sdata) (tm : sdata) (dxs dus lams vs : list (list R)) : R :=
  match st, dxs, dus, lams, vs with
  | s :: st', dx :: dxs', du :: dus', l :: lams', v :: vs' =>
      vdot l (dgap s dx du (hd [] dxs')) + vdot v (dcstr s dx du) + dcons st' tm dxs' dus' lams' vs'
  | [], dx :: _, _, _, v :: _ => vdot v (mulv (s_Jx tm) dx)
  | _, _, _, _, _ => 0
  end.

Lemma dims_hd n st tm dxs dus lams vs : dims n st tm dxs dus lams vs ->
  exists dx dxs', dxs = dx :: dxs' /\ length dx = n.
Proof.
  intros H; destruct dxs as [|dx dxs]; [exfalso; destruct st; exact H|].
  exists dx, dxs. split; [reflexivity|].
  destruct st, dxs, dus, lams, vs as [|? [|]]; simpl in H; tauto.
Qed.

Lemma slope_sum : forall st tm n Lx dxs dus lams vs d, dims n st tm dxs dus lams vs -> length Lx = n ->
  exists lx0 Lxs Lus, lagr_loop Lx st tm lams vs = (lx0 :: Lxs, Lus) /\
    slope_loop Lxs Lus (tl dxs) dus (d + vdot lx0 (hd [] dxs)) =
    d + vdot Lx (hd [] dxs) + dcost st tm dxs dus + dcons st tm dxs dus lams vs.
Proof.
  induction st as [|s st IH]; intros tm n Lx dxs dus lams vs d Hd HL.
  - destruct dxs as [|dx [|]], dus, lams, vs as [|v [|]]; simpl in Hd; try tauto.
    destruct Hd as (h1 & h2 & h3 & h4).
    eexists _, _, _; split; [reflexivity|]. simpl.
    rewrite !vdot_plus, tmulv_dot; try rewrite tmulv_length; unfold vplus'; rewrite ?zip_with_length;
      try congruence; try (rewrite h2; assumption).
    ring.
  - destruct dxs as [|dx dxs], dus as [|du dus], lams as [|l lams], vs as [|v vs]; simpl in Hd; try tauto.
    destruct Hd as (h1 & h2 & h3 & (hA & hA') & (hB & hB') & (hX & hX') & (hU & hU') & Hd).
    destruct (dims_hd _ _ _ _ _ _ _ Hd) as (dx' & dxs' & E & Hdx'). subst dxs.
    cbn [lagr_loop hd tl dcost dcons].
    set (Lx1 := vplus' (vplus' (vplus' Lx (s_lx s)) _) _). set (Lu1 := vplus' (vplus' (s_lu s) _) _).
    destruct (IH tm (length l) (map Ropp l) (dx' :: dxs') dus lams vs
                (d + vdot Lx1 dx + vdot Lu1 du) Hd (map_length _ _)) as (lx0 & Lxs & Lus & E & E').
    rewrite E. exists Lx1, (lx0 :: Lxs), (Lu1 :: Lus). split; [reflexivity|].
    cbn [slope_loop hd tl] in *.
    replace (d + vdot Lx1 dx + vdot lx0 dx' + vdot Lu1 du) with
      (d + vdot Lx1 dx + vdot Lu1 du + vdot lx0 dx') by ring.
    rewrite E'. rewrite vdot_opp. unfold dgap, dcstr.
    rewrite vdot_minus_r, !vdot_plus_r; unfold vplus'; rewrite ?zip_with_length; rewrite ?mulv_length;
      try congruence.
    assert (ELx : vdot Lx1 dx = vdot Lx dx + vdot (s_lx s) dx + vdot l (mulv (s_A s) dx) +
                               vdot v (mulv (s_Jx s) dx)).
    { unfold Lx1. rewrite h2.
      rewrite !vdot_plus, !tmulv_dot; try rewrite !tmulv_length; unfold vplus'; rewrite ?zip_with_length;
        rewrite ?tmulv_length; rewrite ?zip_with_length; rewrite ?tmulv_length; try congruence. }
    assert (ELu : vdot Lu1 du = vdot (s_lu s) du + vdot l (mulv (s_B s) du) + vdot v (mulv (s_Ju s) du)).
    { unfold Lu1. rewrite h3.
      rewrite !vdot_plus, !tmulv_dot; try rewrite !tmulv_length; unfold vplus'; rewrite ?zip_with_length;
        rewrite ?tmulv_length; rewrite ?zip_with_length; rewrite ?tmulv_length; try congruence. }
    rewrite ELx, ELu. ring.
Qed.

(** ** The slope as a derivative *)

Definition at_ {A} (a : R) (l : list (R -> A)) : list A := map (fun f => f a) l.

(** The data of the problem along the step: the derivatives at 0 of the dynamics
    errors [gaps] and of the constraint values are given by the Jacobians, those
    of the co-states [lams] by [dlams]; the multipliers of the previous outer
    iteration do not move. *)
Fixpoint along (st : list sdata) (tm : sdata) (dxs dus : list (list R))
  (gaps lams : list (R -> list R)) (dlams : list (list R)) (cs : list (R -> stage_in)) : Prop :=
  match st, dxs, dus, gaps, lams, dlams, cs with
  | s :: st', dx :: dxs', du :: dus', g :: gaps', l :: lams', dl :: dlams', c :: cs' =>
      vderiv g (dgap s dx du (hd [] dxs')) /\ vderiv l dl /\ length dl = length (s_A s) /\
      vderiv (fun a => concat (i_values (c a))) (dcstr s dx du) /\
      (forall a, i_vprev (c a) = i_vprev (c 0)) /\
      along st' tm dxs' dus' gaps' lams' dlams' cs'
  | [], [dx], [], [], [], [], [c] =>
      vderiv (fun a => concat (i_values (c a))) (mulv (s_Jx tm) dx) /\
      (forall a, i_vprev (c a) = i_vprev (c 0))
  | _, _, _, _, _, _, _ => False
  end.
(** sum of the products of the co-state estimates with their directions *)
Fixpoint ddual (lams dlams : list (list R)) : R :=
  match lams, dlams with l :: ls, d :: ds => vdot l d + ddual ls ds | _, _ => 0 end.

Lemma vdot_lam mu l g d : 0 < mu -> length l = length g ->
  vdot (vplus' l (map (fun x => x / mu) g)) d = / mu * vdot (shift mu g l) d.
Proof.
  intros Hmu. unfold vdot, vplus', shift. revert g d; induction l as [|a l IH]; intros [|b g] [|e d] H;
    simpl in *; try discriminate; try (field; lra); try ring.
  rewrite IH by lia. field. lra.
Qed.
Lemma vdot_shift_r mu d a b : length a = length d -> length b = length d ->
  vdot d (shift mu a b) = vdot d a + mu * vdot d b.
Proof.
  unfold vdot, shift. revert a b; induction d as [|e d IHd]; intros [|x a] [|y b]; simpl; intros; try discriminate; try ring.
  rewrite IHd by lia. ring.
Qed.
Lemma gap_deriv mu g dg l dl : 0 < mu -> vderiv g dg -> vderiv l dl -> length dg = length dl ->
  derivable_pt_lim (fun a => ssq (shift mu (g a) (l a)) / (2 * mu)) 0
    (vdot (vplus' (l 0) (map (fun x => x / mu) (g 0))) dg +
     mu * vdot (vplus' (l 0) (map (fun x => x / mu) (g 0))) dl).
Proof.
  intros Hmu Hg Hl E.
  assert (Lg := proj1 Hg 0). assert (Ll := proj1 Hl 0).
  rewrite !vdot_lam by (auto; congruence).
  assert (D := ssq_deriv _ _ (shift_deriv mu g dg l dl Hg Hl E)).
  rewrite vdot_shift_r in D by (rewrite shift_length; congruence).
  apply (dlim_ext (fun a => / (2 * mu) * ssq (shift mu (g a) (l a)))).
  { intros a. unfold Rdiv. ring. }
  replace (_ + _) with (/ (2 * mu) * (2 * (vdot (shift mu (g 0) (l 0)) dg + mu * vdot (shift mu (g 0) (l 0)) dl)))
    by (field; lra).
  now apply derivable_pt_lim_scal.
Qed.
Lemma cstr_deriv mu ks c dc : 0 < mu -> (forall a, well_formed (c a) ks) ->
  (forall a, i_vprev (c a) = i_vprev (c 0)) -> vderiv (fun a => concat (i_values (c a))) dc ->
  derivable_pt_lim (fun a => ssq (vncp ks (shifted mu (c a))) / (2 * mu)) 0 (vdot (vplus_of mu ks (c 0)) dc).
Proof.
  intros Hmu Hw Hv Hd. destruct (Hw 0) as (Hk & Hs & L1 & _).
  assert (L := proj1 Hd 0). cbn beta in L.
  assert (D := vncp_sq_deriv ks (fun a => shift mu (concat (i_values (c a))) (i_vprev (c 0))) dc Hs).
  cbn beta in D. unfold vplus_of. rewrite vdot_scale.
  apply (dlim_ext (fun a => / (2 * mu) * ssq (vncp ks (shift mu (concat (i_values (c a))) (i_vprev (c 0)))))).
  { intros a. unfold shifted. rewrite (Hv a). unfold Rdiv. ring. }
  replace (1 / mu * vdot (vncp ks (shifted mu (c 0))) dc) with
    (/ (2 * mu) * (2 * vdot (vncp ks (shift mu (concat (i_values (c 0))) (i_vprev (c 0)))) dc))
    by (unfold shifted; field; lra).
  apply derivable_pt_lim_scal. apply D.
  - rewrite (layout_length _ _ _ Hk). exact L.
  - apply shift_const; [assumption|congruence].
Qed.

Lemma penalty_deriv mu md : forall st tm n dxs dus gaps lams dlams cs kss,
  0 < mu -> 0 < md -> along st tm dxs dus gaps lams dlams cs ->
  (forall a, Forall2 well_formed (at_ a cs) kss) ->
  dims n st tm dxs dus (lams_plus md (at_ 0 lams) (at_ 0 gaps)) (vplus_all mu kss (at_ 0 cs)) ->
  derivable_pt_lim
    (fun a => sumR (zip_with (fun g l => ssq (shift md g l) / (2 * md)) (at_ a gaps) (at_ a lams)) +
              sumR (map (fun D => D / (2 * mu)) (dists_of mu kss (at_ a cs)))) 0
    (dcons st tm dxs dus (lams_plus md (at_ 0 lams) (at_ 0 gaps)) (vplus_all mu kss (at_ 0 cs)) +
     md * ddual (lams_plus md (at_ 0 lams) (at_ 0 gaps)) dlams).
Proof.
  induction st as [|s st IH]; intros tm n dxs dus gaps lams dlams cs kss Hmu Hmd Ha Hw Hd.
  - destruct dxs as [|dx [|]], dus, gaps, lams, dlams, cs as [|c [|]]; simpl in Ha; try tauto.
    destruct Ha as [D V].
    assert (Hw' : exists ks, kss = [ks] /\ forall a, well_formed (c a) ks).
    { assert (W := Hw 0). inversion W as [|? ks ? ? W1 W2]; subst. inversion W2; subst.
      exists ks. split; [reflexivity|]. intros a. specialize (Hw a). now inversion Hw; subst. }
    destruct Hw' as (ks & -> & Hk).
    apply (dlim_ext (fun a => ssq (vncp ks (shifted mu (c a))) / (2 * mu))).
    { intros a. simpl. ring. }
    match goal with |- derivable_pt_lim _ _ ?der => replace der with (vdot (vplus_of mu ks (c 0)) (mulv (s_Jx tm) dx))
      by (simpl; ring) end.
    now apply cstr_deriv.
  - destruct dxs as [|dx dxs], dus as [|du dus], gaps as [|g gaps], lams as [|l lams], dlams as [|dl dlams],
      cs as [|c cs]; simpl in Ha; try tauto.
    destruct Ha as (Dg & Dl & El & Dc & V & Ha).
    assert (Hw' : exists ks kss', kss = ks :: kss' /\ (forall a, well_formed (c a) ks) /\
                    forall a, Forall2 well_formed (at_ a cs) kss').
    { assert (W := Hw 0). inversion W as [|? ks ? kss' W1 W2]; subst. exists ks, kss'.
      split; [reflexivity|]. split; intros a; specialize (Hw a); now inversion Hw; subst. }
    destruct Hw' as (ks & kss' & -> & Hk & Hks).
    change (at_ 0 (l :: lams)) with (l 0 :: at_ 0 lams) in *.
    change (at_ 0 (g :: gaps)) with (g 0 :: at_ 0 gaps) in *.
    change (at_ 0 (c :: cs)) with (c 0 :: at_ 0 cs) in *.
    change (lams_plus md (l 0 :: at_ 0 lams) (g 0 :: at_ 0 gaps)) with
      (vplus' (l 0) (map (fun x => x / md) (g 0)) :: lams_plus md (at_ 0 lams) (at_ 0 gaps)) in *.
    change (vplus_all mu (ks :: kss') (c 0 :: at_ 0 cs)) with
      (vplus_of mu ks (c 0) :: vplus_all mu kss' (at_ 0 cs)) in *.
    cbn [dims] in Hd.
    destruct Hd as (h1 & h2 & h3 & (hA & hA') & (hB & hB') & (hX & hX') & (hU & hU') & Hd).
    destruct (dims_hd _ _ _ _ _ _ _ Hd) as (dx' & dxs' & E & Hdx').
    cbn [dcons ddual].
    assert (Eg : length (dgap s dx du (hd [] dxs)) = length (s_A s)).
    { subst dxs. unfold dgap, vminus. rewrite zip_with_length; unfold vplus'; rewrite zip_with_length;
        rewrite !mulv_length; simpl; congruence. }
    assert (T1 := gap_deriv md g _ l dl Hmd Dg Dl (eq_trans Eg (eq_sym El))).
    assert (T2 := cstr_deriv mu ks c _ Hmu Hk V Dc).
    assert (T3 := IH tm _ dxs dus gaps lams dlams cs kss' Hmu Hmd Ha Hks Hd).
    assert (T := derivable_pt_lim_plus _ _ _ _ _ (derivable_pt_lim_plus _ _ _ _ _ T1 T2) T3).
    eapply dlim_ext; [|match goal with |- derivable_pt_lim _ _ ?der => replace der with
      (vdot (vplus' (l 0) (map (fun x => x / md) (g 0))) (dgap s dx du (hd [] dxs)) +
       md * vdot (vplus' (l 0) (map (fun x => x / md) (g 0))) dl + vdot (vplus_of mu ks (c 0)) (dcstr s dx du) +
       (dcons st tm dxs dus (lams_plus md (at_ 0 lams) (at_ 0 gaps)) (vplus_all mu kss' (at_ 0 cs)) +
        md * ddual (lams_plus md (at_ 0 lams) (at_ 0 gaps)) dlams)) by ring end; exact T].
    intros a. unfold plus_fct. simpl. unfold dists_of. ring.
Qed.

(** The general statement: co-states moving along [dlam0], [dlams]. *)
Theorem C51_slope_moving : forall mu st tm n J0 dxs dus (cost : R -> R) gap0 lam0 dlam0 gaps lams dlams cs kss has_term out,
  0 < mu ->
  (* sizes *)
  (forall a, sizes (lam0 a) (gap0 a) (at_ a lams) (at_ a gaps) (at_ a cs) kss has_term) ->
  mat (length dlam0) n J0 ->
  computeMultipliers mu (lam0 0) (gap0 0) (at_ 0 lams) (at_ 0 gaps) (at_ 0 cs) = Some out ->
  dims n st tm dxs dus (tl (m_lams out)) (map o_vplus (m_stages out)) ->
  (* derivatives along the step *)
  derivable_pt_lim cost 0 (dcost st tm dxs dus) ->
  vderiv gap0 (mulv J0 (hd [] dxs)) -> vderiv lam0 dlam0 ->
  along st tm dxs dus gaps lams dlams cs ->
  exists phi, (forall a, merit mu (cost a) (lam0 a) (gap0 a) (at_ a lams) (at_ a gaps) (at_ a cs) has_term = Some (phi a)) /\
    derivable_pt_lim phi 0
      (directionalDerivative n J0 st tm (m_lams out) (map o_vplus (m_stages out)) dxs dus
       + (mu * vdot (hd [] (m_lams out)) dlam0 + mu / 10 * ddual (tl (m_lams out)) dlams)).
Proof.
  intros mu st tm n J0 dxs dus cost gap0 lam0 dlam0 gaps lams dlams cs kss has_term out
    Hmu Hs HJ Eo Hd Dc D0 Dl0 Ha.
  exists (fun a => augmented mu (cost a) (lam0 a) (gap0 a) (at_ a lams) (at_ a gaps) (dists_of mu kss (at_ a cs))).
  split; [intros a; now apply merit_value|].
  unfold computeMultipliers in Eo. destruct (Hs 0) as (S1 & S2 & S3 & S4 & S5).
  destruct (stages_vplus mu (at_ 0 cs) kss Hmu S3) as (os & E1 & E2). rewrite E1 in Eo.
  injection Eo as <-. cbn [m_lams m_stages tl hd] in *. rewrite E2 in *.
  assert (Hmd : 0 < mu / 10) by lra.
  assert (Emd : mu_dyn mu = mu / 10) by (unfold mu_dyn; lra). rewrite Emd in *.
  assert (P := penalty_deriv mu (mu / 10) st tm n dxs dus gaps lams dlams cs kss Hmu Hmd Ha
                 (fun a => proj1 (proj2 (proj2 (Hs a)))) Hd).
  destruct HJ as [HJ1 HJ2].
  assert (G := gap_deriv mu gap0 _ lam0 _ Hmu D0 Dl0 (eq_trans (mulv_length _ _) HJ1)).
  assert (T := derivable_pt_lim_plus _ _ _ _ _ (derivable_pt_lim_plus _ _ _ _ _ Dc G) P).
  unfold directionalDerivative. cbn [hd].
  set (l0 := vplus' (lam0 0) (map (fun x => x / mu) (gap0 0))) in *.
  assert (Ll0 : length J0 = length l0).
  { unfold l0, vplus'. rewrite zip_with_length; rewrite ?map_length; [|exact S1].
    rewrite (proj1 Dl0). congruence. }
  destruct (dims_hd _ _ _ _ _ _ _ Hd) as (dx & dxs' & E & Hdx).
  destruct (slope_sum st tm n (tmulv n J0 l0) dxs dus _ _ 0 Hd (tmulv_length _ _ _ HJ2))
    as (lx0 & Lxs & Lus & E3 & E4).
  rewrite E3. rewrite E in *. cbn [hd tl] in *. rewrite E4.
  rewrite tmulv_dot by auto.
  eapply dlim_ext; [|match goal with |- derivable_pt_lim _ _ ?der => replace der with
     (dcost st tm (dx :: dxs') dus + (vdot l0 (mulv J0 dx) + mu * vdot l0 dlam0) +
      (dcons st tm (dx :: dxs') dus (lams_plus (mu / 10) (at_ 0 lams) (at_ 0 gaps)) (vplus_all mu kss (at_ 0 cs)) +
       mu / 10 * ddual (lams_plus (mu / 10) (at_ 0 lams) (at_ 0 gaps)) dlams)) by ring end; exact T].
  intros a. unfold plus_fct, augmented. ring.
Qed.

Lemma vdot_zero_r n d : vdot d (repeat 0 n) = 0.
Proof. unfold vdot. revert d; induction n; intros [|y d]; simpl; try ring. rewrite IHn. ring. Qed.
Definition zero_vec (v : list R) := v = repeat 0 (length v).
Lemma ddual_zero lams dlams : Forall zero_vec dlams -> ddual lams dlams = 0.
Proof.
  intros H; revert lams; induction H as [|d ds Hd H IH]; intros [|l lams]; simpl; auto.
  rewrite Hd, vdot_zero_r, IH. ring.
Qed.

(** C51, slope: if the co-states stay fixed along the step, the slope given to the
    line search is the derivative at 0 of the merit function along the step, for
    every horizon, differentiable data, multipliers and (product of) equality,
    inequality and box constraints -- active, inactive or at a kink. *)
Theorem C51_slope : forall mu st tm n J0 dxs dus (cost : R -> R) gap0 lam0 dlam0 gaps lams dlams cs kss has_term out,
  0 < mu ->
  (forall a, sizes (lam0 a) (gap0 a) (at_ a lams) (at_ a gaps) (at_ a cs) kss has_term) ->
  mat (length dlam0) n J0 ->
  computeMultipliers mu (lam0 0) (gap0 0) (at_ 0 lams) (at_ 0 gaps) (at_ 0 cs) = Some out ->
  dims n st tm dxs dus (tl (m_lams out)) (map o_vplus (m_stages out)) ->
  derivable_pt_lim cost 0 (dcost st tm dxs dus) ->
  vderiv gap0 (mulv J0 (hd [] dxs)) -> vderiv lam0 dlam0 ->
  along st tm dxs dus gaps lams dlams cs ->
  zero_vec dlam0 -> Forall zero_vec dlams ->
  exists phi, (forall a, merit mu (cost a) (lam0 a) (gap0 a) (at_ a lams) (at_ a gaps) (at_ a cs) has_term = Some (phi a)) /\
    derivable_pt_lim phi 0
      (directionalDerivative n J0 st tm (m_lams out) (map o_vplus (m_stages out)) dxs dus).
Proof.
  intros mu st tm n J0 dxs dus cost gap0 lam0 dlam0 gaps lams dlams cs kss has_term out
    Hmu Hs HJ Eo Hd Dc D0 Dl0 Ha Z0 Zl.
  destruct (C51_slope_moving mu st tm n J0 dxs dus cost gap0 lam0 dlam0 gaps lams dlams cs kss has_term out
    Hmu Hs HJ Eo Hd Dc D0 Dl0 Ha) as (phi & H1 & H2).
  exists phi. split; [assumption|].
  rewrite ddual_zero in H2 by assumption. rewrite Z0, vdot_zero_r in H2.
  replace (_ + (mu * 0 + mu / 10 * 0)) with
    (directionalDerivative n J0 st tm (m_lams out) (map o_vplus (m_stages out)) dxs dus) in H2 by ring.
  exact H2.
Qed.

(** ** Instances *)
Lemma dlim_eq f x l l' : l = l' -> derivable_pt_lim f x l -> derivable_pt_lim f x l'.
Proof. intros <-; auto. Qed.
Lemma lin_deriv p q : derivable_pt_lim (fun a => p + a * q) 0 q.
Proof.
  apply (dlim_ext (fun a => p + q * a)); [intros a; ring|].
  apply (dlim_eq _ _ (0 + q * 1)); [ring|].
  apply derivable_pt_lim_plus; [apply derivable_pt_lim_const|].
  apply derivable_pt_lim_scal. apply derivable_pt_lim_id.
Qed.
Lemma lin_vderiv p q : vderiv (fun a => [p + a * q]) [q].
Proof. split; [reflexivity|]. intros [|[|i]] Hi; simpl in *; try lia. apply lin_deriv. Qed.
Lemma nil_vderiv : vderiv (fun _ => []) [].
Proof. split; [reflexivity|]. intros i Hi; simpl in Hi; lia. Qed.

Definition cset1 (c : R) (v : R) : stage_in :=
  {| i_set := SNeg pp_default; i_values := [[c]]; i_vprev := [v]; i_v := [v]; i_vbuf := [0]; i_abuf := [false] |}.
Definition cset0 : stage_in :=
  {| i_set := SNeg pp_default; i_values := []; i_vprev := []; i_v := []; i_vbuf := []; i_abuf := [] |}.
Lemma wf1 c v : well_formed (cset1 c v) [KNeg].
Proof. unfold well_formed; simpl. repeat split; auto. repeat constructor. Qed.
Lemma wf0 : well_formed cset0 [].
Proof. unfold well_formed; simpl. repeat split; auto. Qed.

(** x' = x + u, cost u^2/2 + x'^2/2, from x = 1, u = 0, x' = 1, lam = (0, 1), with
    the Newton step dx = 0, du = -1/2, dx' = -1/2, dlam = (-1/2, -1/2); the
    inequality constraint has value c + u with multiplier v. *)
Definition ex_st (c : bool) : list sdata :=
  [SData [0] [0] [[1]] [[1]] (if c then [[0]] else []) (if c then [[1]] else [])].
Definition ex_tm : sdata := SData [1] [] [] [] [] [].
Definition ex_cost (a : R) := 1 / 2 * (a * -(1/2)) ^ 2 + 1 / 2 * (1 + a * -(1/2)) ^ 2.
Lemma ex_cost_deriv : derivable_pt_lim ex_cost 0 (- (1/2)).
Proof.
  apply (dlim_ext (fun a => (1 / 4 * Rsqr a + (1/2 + a * -(1/2))))).
  { intros a. unfold ex_cost, Rsqr. field. }
  apply (dlim_eq _ _ (1/4 * (2 * 0) + - (1/2))); [field|].
  apply derivable_pt_lim_plus; [|apply lin_deriv].
  apply derivable_pt_lim_scal. apply derivable_pt_lim_Rsqr.
Qed.

(** The hypotheses of C51_slope hold with an inequality constraint u + c <= 0, for
    every c, in particular at the kink c + mu v = 0. *)
Lemma const1 x : vderiv (fun _ => [x]) [0].
Proof. exact (const_deriv [x]). Qed.
Lemma ex_along c v (dl : R) : along (ex_st true) ex_tm [[0]; [-(1/2)]] [[-(1/2)]] [fun _ => [0]]
  [fun a => [1 + a * dl]] [[dl]] [fun a => cset1 (c + a * -(1/2)) v; fun _ => cset0].
Proof.
  cbn [along ex_st hd]. split; [|split; [|split; [|split; [|split; [|split]]]]].
  - unfold dgap, mulv, vdot, vminus, vplus'. simpl.
    replace (1 * 0 + 0 + (1 * - (1 / 2) + 0) - - (1 / 2)) with 0 by ring. apply const1.
  - apply lin_vderiv.
  - reflexivity.
  - simpl. unfold dcstr, mulv, vdot, vplus'. simpl.
    replace (0 * 0 + 0 + (1 * - (1 / 2) + 0)) with (-(1/2)) by ring. apply lin_vderiv.
  - reflexivity.
  - simpl. apply nil_vderiv.
  - reflexivity.
Qed.
Example C51_example : forall mu c v, 0 < mu ->
  exists phi d, (forall a, merit mu (ex_cost a) [0] [0] [[1 + a * 0]] [[0]] [cset1 (c + a * -(1/2)) v; cset0] false = Some (phi a)) /\
    derivable_pt_lim phi 0 d /\ d = - (1 / 2) + Rmax (c + mu * v) 0 / mu * -(1/2).
Proof.
  intros mu c v Hmu.
  edestruct (C51_slope mu (ex_st true) ex_tm 1 [[1]] [[0]; [-(1/2)]] [[-(1/2)]] ex_cost
    (fun _ => [0]) (fun _ => [0]) [0] [fun _ => [0]] [fun a => [1 + a * 0]] [[0]]
    [fun a => cset1 (c + a * -(1/2)) v; fun _ => cset0] [[KNeg]; []] false) as (phi & H1 & H2).
  - assumption.
  - intros a. split; [reflexivity|]. split; [repeat constructor|].
    split; [apply Forall2_cons; [apply wf1|apply Forall2_cons; [apply wf0|constructor]]|]. split; reflexivity.
  - repeat constructor.
  - reflexivity.
  - repeat constructor.
  - replace (dcost _ _ _ _) with (-(1/2)); [apply ex_cost_deriv|].
    unfold dcost, vdot; simpl; ring.
  - unfold mulv, vdot; simpl. replace (1 * 0 + 0) with 0 by ring. apply const1.
  - apply const1.
  - apply ex_along.
  - reflexivity.
  - repeat constructor.
  - eexists phi, _. split; [exact H1|]. split; [exact H2|].
    unfold directionalDerivative, tmulv, vdot, vplus', vscale, mu_dyn. simpl.
    unfold vdot. simpl.
    replace (c + 0 * - (1 / 2) + mu * v) with (c + mu * v) by ring. field. lra.
Qed.

(** The solver evaluates the merit function at trial co-states lam + alpha dlam
    (solver-proxddp.hxx 546, tryLinearStep), while the slope has no dual term
    ("TODO: add missing dual terms", merit-function.hxx 31): on the LQ problem
    above, with its exact Newton step, the slope is -1/2 and the derivative along
    the step is -1/2 - mu/20. *)
Theorem C51_slope_refuted : forall mu, 0 < mu ->
  exists phi out d,
    (forall a, merit mu (ex_cost a) [0 + a * -(1/2)] [0] [[1 + a * -(1/2)]] [[0]] [cset0; cset0] false = Some (phi a)) /\
    computeMultipliers mu [0] [0] [[1]] [[0]] [cset0; cset0] = Some out /\
    derivable_pt_lim phi 0 d /\ d = - (1/2) - mu / 20 /\
    directionalDerivative 1 [[1]] (ex_st false) ex_tm (m_lams out) (map o_vplus (m_stages out))
      [[0]; [-(1/2)]] [[-(1/2)]] = - (1/2).
Proof.
  intros mu Hmu.
  edestruct (C51_slope_moving mu (ex_st false) ex_tm 1 [[1]] [[0]; [-(1/2)]] [[-(1/2)]] ex_cost
    (fun _ => [0]) (fun a => [0 + a * -(1/2)]) [-(1/2)] [fun _ => [0]] [fun a => [1 + a * -(1/2)]] [[-(1/2)]]
    [fun a => cset0; fun _ => cset0] [[]; []] false) as (phi & H1 & H2).
  - assumption.
  - intros a. split; [reflexivity|]. split; [repeat constructor|].
    split; [apply Forall2_cons; [apply wf0|apply Forall2_cons; [apply wf0|constructor]]|]. split; reflexivity.
  - repeat constructor.
  - reflexivity.
  - repeat constructor.
  - replace (dcost _ _ _ _) with (-(1/2)); [apply ex_cost_deriv|].
    unfold dcost, vdot; simpl; ring.
  - unfold mulv, vdot; simpl. replace (1 * 0 + 0) with 0 by ring. apply const1.
  - apply lin_vderiv.
  - cbn [along ex_st hd]. split; [|split; [|split; [|split; [|split; [|split]]]]].
    + unfold dgap, mulv, vdot, vminus, vplus'. simpl.
      replace (1 * 0 + 0 + (1 * - (1 / 2) + 0) - - (1 / 2)) with 0 by ring. apply const1.
    + apply lin_vderiv.
    + reflexivity.
    + simpl. apply nil_vderiv.
    + reflexivity.
    + simpl. apply nil_vderiv.
    + reflexivity.
  - eexists phi, _, _. split; [exact H1|]. split; [reflexivity|]. split; [exact H2|]. split.
    + unfold directionalDerivative, tmulv, vdot, vplus', vscale, mu_dyn. simpl. unfold vdot. simpl. field. lra.
    + unfold directionalDerivative, tmulv, vdot, vplus', vscale, mu_dyn. simpl. unfold vdot. simpl. field. lra.
Qed.

(** value of an instance: mu = 1, c + mu v = 2 violates the inequality by 2 *)
Example C51_value_example :
  exists dists, merit 1 3 [1] [1] [[1]] [[0]] [cset1 1 1; cset0] false =
    Some (augmented 1 3 [1] [1] [[1]] [[0]] dists) /\ nth 0 dists 0 = 4.
Proof.
  exists (dists_of 1 [[KNeg]; []] [cset1 1 1; cset0]). split.
  - apply merit_value; [lra|]. split; [reflexivity|]. split; [repeat constructor|].
    split; [apply Forall2_cons; [apply wf1|apply Forall2_cons; [apply wf0|constructor]]|]. split; reflexivity.
  - simpl. rewrite Rmax_left by lra. ring.
Qed.

Print Assumptions C51_value.
Print Assumptions C51_slope.
Print Assumptions C51_slope_moving.
Print Assumptions C51_slope_refuted.
