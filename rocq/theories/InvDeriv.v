(** The inverse of a matrix which is a derivable function of time is derivable. *)
From Coq Require Import Reals List Lra Lia Arith Bool.
From Verif Require Import CentroidalModel P_centroidal MbModel P_mb.
Local Open Scope R_scope.

(** two-sided inverse of an n x n matrix *)
Definition is_inverse (n : nat) (A B : mtx) : Prop := forall i j, (i < n)%nat -> (j < n)%nat ->
  mmul n A B i j = ident i j /\ mmul n B A i j = ident i j.

Definition tends (f : R -> R) (l : R) : Prop :=
  forall e, 0 < e -> exists d, 0 < d /\ forall t, Rabs t < d -> Rabs (f t - l) < e.
Lemma tends_ext f g l : (forall t, f t = g t) -> tends f l -> tends g l.
Proof. intros E H e He. destruct (H e He) as (d & Hd & K). exists d. split; auto. intros t Ht. rewrite <- E. auto. Qed.
Lemma tends_const a : tends (fun _ => a) a.
Proof. intros e He. exists 1. split; [lra|]. intros. replace (a - a) with 0 by ring. now rewrite Rabs_R0. Qed.
Lemma tends_plus f g a b : tends f a -> tends g b -> tends (fun t => f t + g t) (a + b).
Proof.
  intros F G e He. destruct (F (e / 2)) as (d1 & H1 & F1); [lra|]. destruct (G (e / 2)) as (d2 & H2 & G1); [lra|].
  exists (Rmin d1 d2). split; [now apply Rmin_pos|]. intros t Ht.
  specialize (F1 t (Rlt_le_trans _ _ _ Ht (Rmin_l _ _))). specialize (G1 t (Rlt_le_trans _ _ _ Ht (Rmin_r _ _))).
  replace (f t + g t - (a + b)) with ((f t - a) + (g t - b)) by ring.
  eapply Rle_lt_trans; [apply Rabs_triang|]. lra.
Qed.
Lemma tends_scal k f a : tends f a -> tends (fun t => k * f t) (k * a).
Proof.
  intros F e He. pose proof (Rabs_pos k) as K.
  destruct (F (e / (Rabs k + 1))) as (d & Hd & G); [apply Rdiv_lt_0_compat; lra|].
  exists d. split; auto. intros t Ht. specialize (G t Ht).
  replace (k * f t - k * a) with (k * (f t - a)) by ring. rewrite Rabs_mult.
  apply Rle_lt_trans with ((Rabs k + 1) * Rabs (f t - a)).
  - apply Rmult_le_compat_r; [apply Rabs_pos|lra].
  - replace e with ((Rabs k + 1) * (e / (Rabs k + 1))) by (field; lra). apply Rmult_lt_compat_l; lra.
Qed.
Lemma tends_rsum n (f : nat -> R -> R) a : (forall k, (k < n)%nat -> tends (f k) (a k)) ->
  tends (fun t => rsum n (fun k => f k t)) (rsum n a).
Proof. induction n; intros H; simpl; [apply tends_const|]. apply tends_plus; auto. Qed.
(** bounded near 0 *)
Definition bounded (g : R -> R) : Prop := exists M d, 0 < d /\ forall t, Rabs t < d -> Rabs (g t) <= M.
Lemma tends_bounded g f : bounded g -> tends f 0 -> tends (fun t => g t * f t) 0.
Proof.
  intros (M & d & Hd & G) F e He.
  assert (HM : 0 <= M) by (eapply Rle_trans; [apply Rabs_pos|apply (G 0); now rewrite Rabs_R0]).
  destruct (F (e / (M + 1))) as (d' & Hd' & F1); [apply Rdiv_lt_0_compat; lra|].
  exists (Rmin d d'). split; [now apply Rmin_pos|]. intros t Ht.
  specialize (G t (Rlt_le_trans _ _ _ Ht (Rmin_l _ _))). specialize (F1 t (Rlt_le_trans _ _ _ Ht (Rmin_r _ _))).
  rewrite Rminus_0_r in *. rewrite Rabs_mult.
  apply Rle_lt_trans with ((M + 1) * Rabs (f t)).
  - apply Rmult_le_compat_r; [apply Rabs_pos|lra].
  - replace e with ((M + 1) * (e / (M + 1))) by (field; lra). apply Rmult_lt_compat_l; lra.
Qed.
Lemma dl_tends f a : derivable_pt_lim f 0 a -> tends f (f 0).
Proof.
  intros H. assert (D : derivable_pt f 0) by (exists a; exact H).
  intros e He. destruct (derivable_continuous_pt f 0 D e He) as (d & Hd & K).
  exists d. split; auto. intros t Ht. destruct (Req_dec t 0) as [-> | N].
  - replace (f 0 - f 0) with 0 by ring. now rewrite Rabs_R0.
  - apply K. split; [split; [exact I|now apply not_eq_sym]|]. simpl. unfold R_dist. now rewrite Rminus_0_r.
Qed.
(** g only continuous, f vanishing *)
Lemma dl_vanishing g f a : tends g (g 0) -> derivable_pt_lim f 0 a -> f 0 = 0 ->
  derivable_pt_lim (fun t => g t * f t) 0 (g 0 * a).
Proof.
  intros G F F0 e He.
  destruct (G (Rmin 1 (e / (2 * (Rabs a + 1))))) as (d1 & H1 & G1).
  { apply Rmin_pos; [lra|]. apply Rdiv_lt_0_compat; [lra|]. pose proof (Rabs_pos a). lra. }
  pose proof (Rabs_pos (g 0)) as P0. pose proof (Rabs_pos a) as Pa.
  destruct (F (e / (2 * (Rabs (g 0) + 1)))) as (d2 & F2); [apply Rdiv_lt_0_compat; lra|].
  exists (mkposreal (Rmin d1 d2) (Rmin_pos _ _ H1 (cond_pos d2))). intros h h0 Hh. simpl in Hh.
  specialize (G1 h (Rlt_le_trans _ _ _ Hh (Rmin_l _ _))). specialize (F2 h h0 (Rlt_le_trans _ _ _ Hh (Rmin_r _ _))).
  rewrite Rplus_0_l in *. rewrite F0 in *. rewrite Rminus_0_r in F2.
  replace ((g h * f h - g 0 * 0) / h - g 0 * a) with (g h * (f h / h - a) + (g h - g 0) * a) by (field; auto).
  eapply Rle_lt_trans; [apply Rabs_triang|]. rewrite !Rabs_mult.
  pose proof (Rlt_le_trans _ _ _ G1 (Rmin_l _ _)) as Ga. pose proof (Rlt_le_trans _ _ _ G1 (Rmin_r _ _)) as Gb.
  assert (GB : Rabs (g h) <= Rabs (g 0) + 1).
  { replace (g h) with (g 0 + (g h - g 0)) by ring. eapply Rle_trans; [apply Rabs_triang|]. lra. }
  assert (A1 : Rabs (g h) * Rabs (f h / h - a) <= e / 2).
  { apply Rle_trans with ((Rabs (g 0) + 1) * (e / (2 * (Rabs (g 0) + 1)))).
    - apply Rmult_le_compat; try apply Rabs_pos; lra.
    - right. field. lra. }
  assert (A2 : Rabs (g h - g 0) * Rabs a < e / 2).
  { apply Rle_lt_trans with (Rabs (g h - g 0) * (Rabs a + 1)).
    - apply Rmult_le_compat_l; [apply Rabs_pos|lra].
    - replace (e / 2) with (e / (2 * (Rabs a + 1)) * (Rabs a + 1)) by (field; lra). apply Rmult_lt_compat_r; lra. }
  lra.
Qed.
Lemma rsum_abs n f : Rabs (rsum n f) <= rsum n (fun k => Rabs (f k)).
Proof.
  induction n; simpl; [rewrite Rabs_R0; lra|]. eapply Rle_trans; [apply Rabs_triang|]. lra.
Qed.
Lemma rsum_le_compat n f g : (forall k, (k < n)%nat -> f k <= g k) -> rsum n f <= rsum n g.
Proof. induction n; intros H; simpl; [lra|]. pose proof (IHn ltac:(intros; apply H; lia)). pose proof (H n ltac:(lia)). lra. Qed.
Lemma rsum_ge0 n f : (forall k, (k < n)%nat -> 0 <= f k) -> 0 <= rsum n f.
Proof. intros H. rewrite <- (rsum_zero n (fun _ => 0)) by auto. now apply rsum_le_compat. Qed.
Lemma rsum_const n a : rsum n (fun _ => a) = INR n * a.
Proof. induction n; [simpl; ring|]. rewrite S_INR. cbn [rsum]. rewrite IHn. ring. Qed.
Lemma rsum_ge_one n f i : (i < n)%nat -> (forall k, (k < n)%nat -> 0 <= f k) -> f i <= rsum n f.
Proof.
  intros Hi H. induction n; [lia|]. simpl. destruct (Nat.eq_dec i n) as [-> | N].
  - pose proof (rsum_ge0 n f ltac:(intros; apply H; lia)). lra.
  - pose proof (IHn ltac:(lia) ltac:(intros; apply H; lia)). pose proof (H n ltac:(lia)). lra.
Qed.
Lemma ident_sum n i f : (i < n)%nat -> rsum n (fun j => ident i j * f j) = f i.
Proof. intros. unfold ident. now apply rsum_delta. Qed.
Lemma ident_sum_r n i f : (i < n)%nat -> rsum n (fun j => f j * ident j i) = f i.
Proof.
  intros. rewrite <- (ident_sum n i f) by auto. apply rsum_ext. intros j _. unfold ident. rewrite Nat.eqb_sym. ring.
Qed.
Lemma mmul_assoc n m A B C i j : mmul n (mmul m A B) C i j = mmul m A (mmul n B C) i j.
Proof.
  unfold mmul. transitivity (rsum n (fun k => rsum m (fun l => A i l * B l k * C k j))).
  - apply rsum_ext. intros k _. rewrite Rmult_comm, <- rsum_scale. apply rsum_ext. intros; ring.
  - rewrite rsum_swap. apply rsum_ext. intros l _. rewrite <- rsum_scale. apply rsum_ext. intros; ring.
Qed.
(** z C = w with C near the identity: z is at most twice w *)
Lemma row_bound n (C : mtx) z w :
  (forall k j, (k < n)%nat -> (j < n)%nat -> Rabs (C k j - ident k j) <= / (2 * INR (S n))) ->
  (forall j, (j < n)%nat -> rsum n (fun k => z k * C k j) = w j) ->
  rsum n (fun j => Rabs (z j)) <= 2 * rsum n (fun j => Rabs (w j)).
Proof.
  intros HC Hz. set (d := / (2 * INR (S n))) in *. set (Z := rsum n (fun j => Rabs (z j))).
  assert (HN : 0 < INR (S n)) by (apply lt_0_INR; lia).
  assert (Hd : 0 < d) by (apply Rinv_0_lt_compat; lra).
  assert (Z0 : 0 <= Z) by (apply rsum_ge0; intros; apply Rabs_pos).
  assert (E : forall j, (j < n)%nat -> Rabs (z j) <= Rabs (w j) + d * Z).
  { intros j Hj. replace (z j) with (w j - rsum n (fun k => z k * (C k j - ident k j))).
    - unfold Rminus at 1. eapply Rle_trans; [apply Rabs_triang|]. rewrite Rabs_Ropp. apply Rplus_le_compat_l.
      eapply Rle_trans; [apply rsum_abs|]. unfold Z. rewrite <- rsum_scale. apply rsum_le_compat. intros k Hk.
      rewrite Rabs_mult, Rmult_comm. apply Rmult_le_compat_r; [apply Rabs_pos|auto].
    - rewrite <- Hz by auto. rewrite <- (ident_sum_r n j z Hj).
      replace (rsum n (fun k => z k * (C k j - ident k j))) with (rsum n (fun k => z k * C k j) + (-1) * rsum n (fun k => z k * ident k j)); [ring|].
      rewrite <- rsum_scale, <- rsum_plus. apply rsum_ext. intros; ring. }
  pose proof (rsum_le_compat n _ _ E) as Q. rewrite rsum_plus, rsum_const in Q. fold Z in Q.
  assert (D : INR n * (d * Z) <= Z / 2).
  { replace (Z / 2) with (INR (S n) * (d * Z)) by (unfold d; field; lra).
    apply Rmult_le_compat_r; [apply Rmult_le_pos; lra|]. rewrite S_INR. lra. }
  lra.
Qed.
Section Inv.
Variables (n : nat) (A B : R -> mtx) (A' : mtx).
Hypothesis HB : forall t, is_inverse n (A t) (B t).
Hypothesis HA : forall i j, (i < n)%nat -> (j < n)%nat -> derivable_pt_lim (fun t => A t i j) 0 (A' i j).
Lemma all_near m (p : nat -> R -> Prop) :
  (forall k, (k < m)%nat -> exists d, 0 < d /\ forall t, Rabs t < d -> p k t) ->
  exists d, 0 < d /\ forall t, Rabs t < d -> forall k, (k < m)%nat -> p k t.
Proof.
  induction m; intros H.
  - exists 1. split; [lra|]. intros; lia.
  - destruct IHm as (d1 & H1 & K1); [intros; apply H; lia|]. destruct (H m ltac:(lia)) as (d2 & H2 & K2).
    exists (Rmin d1 d2). split; [now apply Rmin_pos|]. intros t Ht k Hk.
    destruct (Nat.eq_dec k m) as [-> | N].
    + apply K2. eapply Rlt_le_trans; [exact Ht|apply Rmin_r].
    + apply K1; [|lia]. eapply Rlt_le_trans; [exact Ht|apply Rmin_l].
Qed.
Lemma inv_bounded i j : (i < n)%nat -> (j < n)%nat -> bounded (fun t => B t i j).
Proof.
  intros Hi Hj.
  set (C t := mmul n (A t) (B 0)).
  assert (HN : 0 < INR (S n)) by (apply lt_0_INR; lia).
  destruct (all_near n (fun k t => forall l, (l < n)%nat -> Rabs (C t k l - ident k l) <= / (2 * INR (S n)))) as (d & Hd & K).
  { intros k Hk. destruct (all_near n (fun l t => Rabs (C t k l - ident k l) <= / (2 * INR (S n)))) as (d & Hd & K).
    - intros l Hl.
      assert (T : tends (fun t => C t k l) (ident k l)).
      { rewrite <- (proj1 (HB 0 k l Hk Hl)).
        assert (D : derivable_pt_lim (fun t => C t k l) 0 (rsum n (fun m => A' k m * B 0 m l))).
        { unfold C, mmul. apply (dl_rsum n (fun m t => A t k m * B 0 m l)). intros m Hm.
          eapply dl_ext; [intros t; apply Rmult_comm|]. rewrite Rmult_comm. apply dl_scal. auto. }
        exact (dl_tends _ _ D). }
      destruct (T (/ (2 * INR (S n)))) as (d & Hd & K); [apply Rinv_0_lt_compat; lra|].
      exists d. split; auto. intros t Ht. left. auto.
    - exists d. split; auto. }
  exists (2 * rsum n (fun j => Rabs (B 0 i j))), d. split; auto. intros t Ht.
  eapply Rle_trans; [|apply (row_bound n (C t) (B t i) (B 0 i) (fun k l Hk Hl => K t Ht k Hk l Hl))].
  - apply (rsum_ge_one n (fun j => Rabs (B t i j))); auto. intros; apply Rabs_pos.
  - intros l Hl. change (mmul n (B t) (C t) i l = B 0 i l). unfold C. rewrite <- mmul_assoc.
    unfold mmul at 1. rewrite (rsum_ext n _ (fun k => ident i k * B 0 k l)); [now apply (ident_sum n i (fun k => B 0 k l))|].
    intros k Hk. now rewrite (proj2 (HB t i k Hi Hk)).
Qed.
(** B(t) - B(0) = - B(t) (A(t) - A(0)) B(0) *)
Lemma inv_diff t i j : (i < n)%nat -> (j < n)%nat ->
  B t i j = B 0 i j - rsum n (fun k => rsum n (fun l => B t i k * ((A t k l - A 0 k l) * B 0 l j))).
Proof.
  intros Hi Hj.
  replace (rsum n (fun k => rsum n (fun l => B t i k * ((A t k l - A 0 k l) * B 0 l j))))
    with (mmul n (mmul n (B t) (A t)) (B 0) i j - mmul n (B t) (mmul n (A 0) (B 0)) i j).
  - unfold mmul at 1 3. rewrite (rsum_ext n (fun k => mmul n (B t) (A t) i k * B 0 k j) (fun k => ident i k * B 0 k j))
      by (intros k Hk; now rewrite (proj2 (HB t i k Hi Hk))).
    rewrite (rsum_ext n (fun k => B t i k * mmul n (A 0) (B 0) k j) (fun k => B t i k * ident k j))
      by (intros k Hk; now rewrite (proj1 (HB 0 k j Hk Hj))).
    rewrite (ident_sum n i (fun k => B 0 k j)), (ident_sum_r n j (fun k => B t i k)) by auto. ring.
  - rewrite mmul_assoc. unfold mmul.
    replace (rsum n (fun k => B t i k * rsum n (fun l => A t k l * B 0 l j)) - rsum n (fun k => B t i k * rsum n (fun l => A 0 k l * B 0 l j)))
      with (rsum n (fun k => B t i k * rsum n (fun l => A t k l * B 0 l j)) + (-1) * rsum n (fun k => B t i k * rsum n (fun l => A 0 k l * B 0 l j))) by ring.
    rewrite <- rsum_scale, <- rsum_plus. apply rsum_ext. intros k _.
    rewrite <- !rsum_scale, <- rsum_plus. apply rsum_ext. intros; ring.
Qed.
Lemma dA k l j : (k < n)%nat -> (l < n)%nat ->
  derivable_pt_lim (fun t => (A t k l - A 0 k l) * B 0 l j) 0 (A' k l * B 0 l j).
Proof.
  intros Hk Hl. eapply dl_ext; [intros t; apply Rmult_comm|]. rewrite Rmult_comm. apply dl_scal, dl_sub. auto.
Qed.
Lemma inv_continuous i j : (i < n)%nat -> (j < n)%nat -> tends (fun t => B t i j) (B 0 i j).
Proof.
  intros Hi Hj.
  eapply tends_ext; [intros t; symmetry; now apply inv_diff|].
  assert (Z : tends (fun t => rsum n (fun k => rsum n (fun l => B t i k * ((A t k l - A 0 k l) * B 0 l j)))) 0).
  { replace 0 with (rsum n (fun _ => 0)) at 1 by now apply rsum_zero.
    apply (tends_rsum n (fun k t => rsum n (fun l => B t i k * ((A t k l - A 0 k l) * B 0 l j))) (fun _ => 0)). intros k Hk.
    replace 0 with (rsum n (fun _ => 0)) at 1 by now apply rsum_zero.
    apply (tends_rsum n (fun l t => B t i k * ((A t k l - A 0 k l) * B 0 l j)) (fun _ => 0)). intros l Hl.
    apply tends_bounded; [now apply inv_bounded|].
    replace 0 with ((A 0 k l - A 0 k l) * B 0 l j) at 1 by ring.
    apply (dl_tends _ _ (dA k l j Hk Hl)). }
  replace (B 0 i j) with (B 0 i j + (-1) * 0) at 1 by ring.
  eapply tends_ext; [|apply tends_plus; [apply tends_const|apply (tends_scal (-1) _ _ Z)]].
  intros t. cbv beta. ring.
Qed.
(** the derivative of the inverse *)
Lemma dl_inverse i j : (i < n)%nat -> (j < n)%nat ->
  derivable_pt_lim (fun t => B t i j) 0 (- mmul n (B 0) (mmul n A' (B 0)) i j).
Proof.
  intros Hi Hj. eapply dl_ext; [intros t; symmetry; now apply inv_diff|].
  apply (dl_eq _ (0 - mmul n (B 0) (mmul n A' (B 0)) i j)); [ring|].
  apply dl_minus; [apply dl_const|]. unfold mmul.
  apply (dl_rsum n (fun k t => rsum n (fun l => B t i k * ((A t k l - A 0 k l) * B 0 l j)))). intros k Hk.
  rewrite <- rsum_scale.
  apply (dl_rsum n (fun l t => B t i k * ((A t k l - A 0 k l) * B 0 l j))). intros l Hl.
  apply (dl_vanishing (fun t => B t i k)).
  - now apply inv_continuous.
  - now apply dA.
  - ring.
Qed.
(** the solution y of A y = r moves with y' = A^-1 (r' - A' y) *)
Lemma dl_solve (r : R -> vec) r' i : (i < n)%nat ->
  (forall k, (k < n)%nat -> derivable_pt_lim (fun t => r t k) 0 (r' k)) ->
  derivable_pt_lim (fun t => mv n (B t) (r t) i) 0
    (mv n (B 0) (fun k => r' k - mv n A' (mv n (B 0) (r 0)) k) i).
Proof.
  intros Hi Hr. unfold mv at 1.
  eapply dl_eq; [|apply (dl_rsum n (fun k t => B t i k * r t k)
    (fun k => - mmul n (B 0) (mmul n A' (B 0)) i k * r 0 k + B 0 i k * r' k)); intros k Hk; apply dl_mult; [now apply dl_inverse|auto]].
  rewrite rsum_plus.
  replace (rsum n (fun k => - mmul n (B 0) (mmul n A' (B 0)) i k * r 0 k)) with (- mv n (B 0) (mv n A' (mv n (B 0) (r 0))) i).
  - assert (M : forall w, mv n (B 0) w i = rsum n (fun k => B 0 i k * w k)) by reflexivity.
    rewrite !M. rewrite (rsum_ext n (fun k => B 0 i k * (r' k - mv n A' (mv n (B 0) (r 0)) k))
      (fun k => (-1) * (B 0 i k * mv n A' (mv n (B 0) (r 0)) k) + B 0 i k * r' k)) by (intros; ring).
    rewrite rsum_plus, rsum_scale. ring.
  - assert (M : forall Q w, mv n Q w i = rsum n (fun k => Q i k * w k)) by reflexivity.
    transitivity ((-1) * mv n (mmul n (B 0) (mmul n A' (B 0))) (r 0) i).
    + rewrite !mv_mmul. rewrite (mv_ext n (B 0) (B 0) (mv n (mmul n A' (B 0)) (r 0)) (mv n A' (mv n (B 0) (r 0)))); [ring|auto|].
      intros k _. apply mv_mmul.
    + rewrite M, <- rsum_scale. apply rsum_ext. intros; ring.
Qed.
End Inv.
