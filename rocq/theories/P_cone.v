(** C46: the wrench cone residual describes the contact wrench cone. *)
From Coq Require Import Reals List Lra Lia Arith Psatz.
From Verif Require Import CSetModel CSetSpec CSetProofs MultModel P_mult MeritModel P_merit ConeModel.
Import ListNotations.
Local Open Scope R_scope.

(** ** Specification *)
Record wrench := W { w_fx : R; w_fy : R; w_fz : R; w_tx : R; w_ty : R; w_tz : R }.
(** six consecutive entries of the control *)
Definition wrench_of (k : nat) (u : list R) : wrench :=
  W (nth (k * 6) u 0) (nth (k * 6 + 1) u 0) (nth (k * 6 + 2) u 0)
    (nth (k * 6 + 3) u 0) (nth (k * 6 + 4) u 0) (nth (k * 6 + 5) u 0).
(** friction pyramid, centre of pressure (-ty/fz, tx/fz) in the rectangle of half
    length X and half width Y, and yaw torque bounds (Caron, Pham, Nakamura 2015) *)
Definition in_wrench_cone (mu X Y : R) (w : wrench) : Prop :=
  0 <= w_fz w /\ Rabs (w_fx w) <= mu * w_fz w /\ Rabs (w_fy w) <= mu * w_fz w /\
  Rabs (w_tx w) <= Y * w_fz w /\ Rabs (w_ty w) <= X * w_fz w /\
  - mu * (X + Y) * w_fz w + Rabs (Y * w_fx w - mu * w_tx w) + Rabs (X * w_fy w - mu * w_ty w) <= w_tz w
  <= mu * (X + Y) * w_fz w - Rabs (Y * w_fx w + mu * w_tx w) - Rabs (X * w_fy w + mu * w_ty w).

(** a contact force (fx, fy, fz) applied at the point (px, py) of the foot *)
Record contact := C { c_px : R; c_py : R; c_fx : R; c_fy : R; c_fz : R }.
(** the point is on the rectangle, the force in the friction pyramid *)
Definition admissible (mu X Y : R) (c : contact) : Prop :=
  Rabs (c_px c) <= X /\ Rabs (c_py c) <= Y /\
  Rabs (c_fx c) <= mu * c_fz c /\ Rabs (c_fy c) <= mu * c_fz c /\ 0 <= c_fz c.
(** resulting wrench: sum of the forces and of the moments p x f *)
Fixpoint total (cs : list contact) : wrench :=
  match cs with
  | [] => W 0 0 0 0 0 0
  | c :: cs => let w := total cs in
      W (c_fx c + w_fx w) (c_fy c + w_fy w) (c_fz c + w_fz w)
        (c_py c * c_fz c + w_tx w) (- c_px c * c_fz c + w_ty w)
        (c_px c * c_fy c - c_py c * c_fx c + w_tz w)
  end.

Definition nonpos (v : list R) : Prop := Forall (fun a => a <= 0) v.
(** data after any sequence of calls *)
Inductive wreach k mu hL hW nu : cone_data -> Prop :=
| WR0 : wreach k mu hL hW nu (cone_new 17 nu)
| WR1 u d : wreach k mu hL hW nu d -> wreach k mu hL hW nu (wrench_evaluate k mu hL hW u d)
| WR2 d : wreach k mu hL hW nu d -> wreach k mu hL hW nu (wrench_jacobians k mu hL hW d).
Inductive freach k mu eps nu : cone_data -> Prop :=
| FR0 : freach k mu eps nu (cone_new 2 nu)
| FR1 u d : freach k mu eps nu d -> freach k mu eps nu (friction_evaluate k mu eps u d)
| FR2 u d : freach k mu eps nu d -> freach k mu eps nu (friction_jacobians k mu u d).

(** ** Proofs *)
Lemma nonpos_cons a v : nonpos (a :: v) <-> a <= 0 /\ nonpos v.
Proof. unfold nonpos. split; [intros H; inversion H; auto|intros []; constructor; auto]. Qed.
Lemma abs_le a b : Rabs a <= b <-> - b <= a <= b.
Proof. split; [unfold Rabs; destruct (Rcase_abs a); lra|apply Rabs_le]. Qed.
(** a + |b| + |c| <= d as four inequalities *)
Lemma abs2_le b c e : Rabs b + Rabs c <= e <-> b + c <= e /\ b - c <= e /\ - b + c <= e /\ - b - c <= e.
Proof.
  split.
  - intros H. pose proof (Rle_abs b). pose proof (Rle_abs c). pose proof (Rle_abs (- b)). pose proof (Rle_abs (- c)).
    rewrite Rabs_Ropp in *. lra.
  - intros (H1 & H2 & H3 & H4). unfold Rabs. destruct (Rcase_abs b); destruct (Rcase_abs c); lra.
Qed.

(** The 17 residuals are nonpositive exactly on the wrench cone. *)
Theorem C46_residual : forall k mu hL hW u d,
  nonpos (cd_value (wrench_evaluate k mu hL hW u d)) <-> in_wrench_cone mu hL hW (wrench_of k u).
Proof.
  intros k mu hL hW u d. unfold wrench_evaluate, in_wrench_cone, wrench_of. cbn [cd_value w_fx w_fy w_fz w_tx w_ty w_tz].
  rewrite Nat.add_0_r.
  set (fx := nth (k * 6) u 0). set (fy := nth (k * 6 + 1) u 0). set (fz := nth (k * 6 + 2) u 0).
  set (tx := nth (k * 6 + 3) u 0). set (ty := nth (k * 6 + 4) u 0). set (tz := nth (k * 6 + 5) u 0).
  rewrite !nonpos_cons, !abs_le.
  set (e1 := tz + mu * (hL + hW) * fz). set (e2 := mu * (hL + hW) * fz - tz).
  assert (A1 := abs2_le (hW * fx - mu * tx) (hL * fy - mu * ty) e1).
  assert (A2 := abs2_le (hW * fx + mu * tx) (hL * fy + mu * ty) e2).
  unfold e1, e2 in *. split.
  - intros (?&?&?&?&?&?&?&?&?&?&?&?&?&?&?&?&?&_).
    assert (L : Rabs (hW * fx - mu * tx) + Rabs (hL * fy - mu * ty) <= tz + mu * (hL + hW) * fz) by (apply A1; lra).
    assert (U : Rabs (hW * fx + mu * tx) + Rabs (hL * fy + mu * ty) <= mu * (hL + hW) * fz - tz) by (apply A2; lra).
    lra.
  - intros (?&?&?&?&?&Lo&Up).
    assert (L : Rabs (hW * fx - mu * tx) + Rabs (hL * fy - mu * ty) <= tz + mu * (hL + hW) * fz) by lra.
    assert (U : Rabs (hW * fx + mu * tx) + Rabs (hL * fy + mu * ty) <= mu * (hL + hW) * fz - tz) by lra.
    apply A1 in L. apply A2 in U. repeat split; first [lra | constructor].
Qed.

(** *** contact forces on the foot give wrenches of the cone *)
Lemma cone_add mu X Y a b : in_wrench_cone mu X Y a -> in_wrench_cone mu X Y b ->
  in_wrench_cone mu X Y (W (w_fx a + w_fx b) (w_fy a + w_fy b) (w_fz a + w_fz b)
    (w_tx a + w_tx b) (w_ty a + w_ty b) (w_tz a + w_tz b)).
Proof.
  unfold in_wrench_cone. destruct a as [a1 a2 a3 a4 a5 a6], b as [b1 b2 b3 b4 b5 b6]. cbn.
  intros (?&?&?&?&?&?&?) (?&?&?&?&?&?&?).
  pose proof (Rabs_triang a1 b1). pose proof (Rabs_triang a2 b2). pose proof (Rabs_triang a4 b4). pose proof (Rabs_triang a5 b5).
  pose proof (Rabs_triang (Y * a1 - mu * a4) (Y * b1 - mu * b4)) as T1.
  pose proof (Rabs_triang (X * a2 - mu * a5) (X * b2 - mu * b5)) as T2.
  pose proof (Rabs_triang (Y * a1 + mu * a4) (Y * b1 + mu * b4)) as T3.
  pose proof (Rabs_triang (X * a2 + mu * a5) (X * b2 + mu * b5)) as T4.
  replace (Y * a1 - mu * a4 + (Y * b1 - mu * b4)) with (Y * (a1 + b1) - mu * (a4 + b4)) in T1 by ring.
  replace (X * a2 - mu * a5 + (X * b2 - mu * b5)) with (X * (a2 + b2) - mu * (a5 + b5)) in T2 by ring.
  replace (Y * a1 + mu * a4 + (Y * b1 + mu * b4)) with (Y * (a1 + b1) + mu * (a4 + b4)) in T3 by ring.
  replace (X * a2 + mu * a5 + (X * b2 + mu * b5)) with (X * (a2 + b2) + mu * (a5 + b5)) in T4 by ring.
  repeat split; lra.
Qed.
Lemma prod_le a b m : - m <= a <= m -> 0 <= b -> - (m * b) <= a * b <= m * b.
Proof. intros; nra. Qed.
Lemma contact_in mu X Y c : admissible mu X Y c ->
  in_wrench_cone mu X Y (W (c_fx c) (c_fy c) (c_fz c) (c_py c * c_fz c) (- c_px c * c_fz c)
    (c_px c * c_fy c - c_py c * c_fx c)).
Proof.
  destruct c as [px py fx fy fz]. unfold admissible, in_wrench_cone. cbn. rewrite !abs_le.
  intros (Hx & Hy & Fx & Fy & Fz).
  pose proof (prod_le fx (Y - py) (mu * fz) Fx ltac:(lra)).
  pose proof (prod_le fx (Y + py) (mu * fz) Fx ltac:(lra)).
  pose proof (prod_le fy (X - px) (mu * fz) Fy ltac:(lra)).
  pose proof (prod_le fy (X + px) (mu * fz) Fy ltac:(lra)).
  pose proof (prod_le py fz Y Hy Fz). pose proof (prod_le px fz X Hx Fz).
  assert (L : Rabs (Y * fx - mu * (py * fz)) + Rabs (X * fy - mu * (- px * fz)) <= px * fy - py * fx + mu * (X + Y) * fz)
    by (apply abs2_le; lra).
  assert (U : Rabs (Y * fx + mu * (py * fz)) + Rabs (X * fy + mu * (- px * fz)) <= mu * (X + Y) * fz - (px * fy - py * fx))
    by (apply abs2_le; lra).
  repeat split; lra.
Qed.
Lemma total_in mu X Y cs : Forall (admissible mu X Y) cs -> in_wrench_cone mu X Y (total cs).
Proof.
  induction 1 as [|c cs Hc H IH].
  - unfold in_wrench_cone; cbn. replace (Y * 0 - mu * 0) with 0 by ring. replace (X * 0 - mu * 0) with 0 by ring.
    replace (Y * 0 + mu * 0) with 0 by ring. replace (X * 0 + mu * 0) with 0 by ring. rewrite Rabs_R0. repeat split; lra.
  - exact (cone_add _ _ _ _ _ (contact_in _ _ _ _ Hc) IH).
Qed.

(** *** every wrench of the cone is produced by forces at the four corners *)
Lemma ratio X fz t : 0 <= X -> 0 <= fz -> - (X * fz) <= t <= X * fz -> exists s, -1 <= s <= 1 /\ X * fz * s = t.
Proof.
  intros HX Hf Ht. destruct (Req_dec (X * fz) 0) as [E|N].
  - exists 0. lra.
  - assert (P : 0 < X * fz) by (pose proof (Rmult_le_pos X fz HX Hf); lra).
    exists (t / (X * fz)). split; [|field; split; intros E; apply N; rewrite E; ring].
    split; [apply Rmult_le_reg_r with (X * fz)|apply Rmult_le_reg_r with (X * fz)]; try assumption;
      unfold Rdiv; rewrite Rmult_assoc, Rinv_l by lra; lra.
Qed.
Lemma split_force mu Y fz fx t r T : 0 <= mu -> 0 <= Y -> 0 <= fz -> -1 <= r <= 1 -> Y * fz * r = t ->
  - (mu * fz) <= fx <= mu * fz ->
  - mu * Y * fz + Rabs (Y * fx - mu * t) <= T <= mu * Y * fz - Rabs (Y * fx + mu * t) ->
  exists Fp Fm, Fp + Fm = fx /\ - Y * (Fp - Fm) = T /\
    Rabs Fp <= mu * fz * ((1 + r) / 2) /\ Rabs Fm <= mu * fz * ((1 - r) / 2).
Proof.
  intros Hm HY Hf Hr Ht Hx [Lo Up].
  assert (M : 0 <= mu * fz) by (apply Rmult_le_pos; assumption).
  destruct (Req_dec Y 0) as [E|N].
  - subst Y. assert (Z : t = 0) by lra. replace (0 * fx - mu * t) with 0 in Lo by (rewrite Z; ring).
    replace (0 * fx + mu * t) with 0 in Up by (rewrite Z; ring). rewrite Rabs_R0 in Lo, Up.
    exists (fx * ((1 + r) / 2)), (fx * ((1 - r) / 2)).
    pose proof (prod_le fx ((1 + r) / 2) (mu * fz) Hx ltac:(lra)).
    pose proof (prod_le fx ((1 - r) / 2) (mu * fz) Hx ltac:(lra)).
    rewrite !abs_le. repeat split; lra.
  - assert (P : 0 < Y) by lra.
    exists ((fx - T / Y) / 2), ((fx + T / Y) / 2).
    pose proof (Rle_abs (Y * fx - mu * t)). pose proof (Rle_abs (- (Y * fx - mu * t))) as A1. rewrite Rabs_Ropp in A1.
    pose proof (Rle_abs (Y * fx + mu * t)). pose proof (Rle_abs (- (Y * fx + mu * t))) as A2. rewrite Rabs_Ropp in A2.
    assert (B : forall a b, - (Y * b) <= Y * a <= Y * b -> - b <= a <= b).
    { intros a b [Hl Hu]. split; apply Rmult_le_reg_l with Y; try assumption; lra. }
    split; [field; lra|]. split; [field; lra|].
    rewrite !abs_le. split; apply B.
    + replace (Y * ((fx - T / Y) / 2)) with ((Y * fx - T) / 2) by (field; lra).
      replace (Y * (mu * fz * ((1 + r) / 2))) with ((mu * Y * fz + mu * (Y * fz * r)) / 2) by field. rewrite Ht. lra.
    + replace (Y * ((fx + T / Y) / 2)) with ((Y * fx + T) / 2) by (field; lra).
      replace (Y * (mu * fz * ((1 - r) / 2))) with ((mu * Y * fz - mu * (Y * fz * r)) / 2) by field. rewrite Ht. lra.
Qed.
Lemma interval mu Y fz fx t : 0 <= mu -> 0 <= Y -> 0 <= fz -> - (mu * fz) <= fx <= mu * fz -> - (Y * fz) <= t <= Y * fz ->
  - mu * Y * fz + Rabs (Y * fx - mu * t) <= mu * Y * fz - Rabs (Y * fx + mu * t).
Proof.
  intros Hm HY Hf Hx Ht.
  pose proof (prod_le fx Y (mu * fz) Hx HY). pose proof (prod_le t mu (Y * fz) Ht Hm).
  assert (Rabs (Y * fx - mu * t) + Rabs (Y * fx + mu * t) <= 2 * (mu * Y * fz)); [|lra].
  apply abs2_le. repeat split; lra.
Qed.

(** The four corners of the rectangle *)
Definition corner X Y (px py : R) : Prop := (px = X \/ px = - X) /\ (py = Y \/ py = - Y).

Lemma cone_corners mu X Y w : 0 <= mu -> 0 <= X -> 0 <= Y -> in_wrench_cone mu X Y w ->
  exists cs, Forall (fun c => corner X Y (c_px c) (c_py c)) cs /\ Forall (admissible mu X Y) cs /\ total cs = w.
Proof.
  destruct w as [fx fy fz tx ty tz]. intros Hm HX HY. unfold in_wrench_cone. cbn.
  rewrite !abs_le. intros (Hz & Hfx & Hfy & Htx & Hty & Lo & Up).
  destruct (ratio Y fz tx HY Hz Htx) as (r & Hr & Er).
  destruct (ratio X fz (- ty) HX Hz ltac:(lra)) as (s & Hs & Es).
  assert (I1 := interval mu Y fz fx tx Hm HY Hz Hfx Htx).
  assert (I2 := interval mu X fz fy ty Hm HX Hz Hfy Hty).
  set (l1 := - mu * Y * fz + Rabs (Y * fx - mu * tx)) in *. set (u1 := mu * Y * fz - Rabs (Y * fx + mu * tx)) in *.
  set (l2 := - mu * X * fz + Rabs (X * fy - mu * ty)) in *. set (u2 := mu * X * fz - Rabs (X * fy + mu * ty)) in *.
  assert (HT : exists T1 T2, l1 <= T1 <= u1 /\ l2 <= T2 <= u2 /\ T1 + T2 = tz).
  { exists (Rmax l1 (tz - u2)), (tz - Rmax l1 (tz - u2)). unfold l1, l2, u1, u2 in *.
    unfold Rmax. destruct (Rle_dec _ _); lra. }
  destruct HT as (T1 & T2 & H1 & H2 & ET).
  destruct (split_force mu Y fz fx tx r T1 Hm HY Hz Hr Er Hfx H1) as (Fp & Fm & EF & ETF & BFp & BFm).
  destruct (split_force mu X fz fy (- ty) s (- T2) Hm HX Hz Hs Es Hfy) as (Gp & Gm & EG & ETG & BGp & BGm).
  { replace (X * fy - mu * - ty) with (X * fy + mu * ty) by ring.
    replace (X * fy + mu * - ty) with (X * fy - mu * ty) by ring. unfold l2, u2 in H2. lra. }
  exists [C X Y (Fp * ((1 + s) / 2)) (Gp * ((1 + r) / 2)) (fz * ((1 + s) / 2) * ((1 + r) / 2));
          C X (- Y) (Fm * ((1 + s) / 2)) (Gp * ((1 - r) / 2)) (fz * ((1 + s) / 2) * ((1 - r) / 2));
          C (- X) Y (Fp * ((1 - s) / 2)) (Gm * ((1 + r) / 2)) (fz * ((1 - s) / 2) * ((1 + r) / 2));
          C (- X) (- Y) (Fm * ((1 - s) / 2)) (Gm * ((1 - r) / 2)) (fz * ((1 - s) / 2) * ((1 - r) / 2))].
  split; [apply Forall_forall; intros c Hc; cbn in Hc; unfold corner;
          destruct Hc as [<-|[<-|[<-|[<-|[]]]]]; cbn; auto|].
  split.
  - rewrite abs_le in BFp, BFm, BGp, BGm.
    assert (P1 : 0 <= (1 + s) / 2) by lra. assert (P2 : 0 <= (1 - s) / 2) by lra.
    assert (P3 : 0 <= (1 + r) / 2) by lra. assert (P4 : 0 <= (1 - r) / 2) by lra.
    pose proof (prod_le _ _ _ BFp P1). pose proof (prod_le _ _ _ BFp P2).
    pose proof (prod_le _ _ _ BFm P1). pose proof (prod_le _ _ _ BFm P2).
    pose proof (prod_le _ _ _ BGp P3). pose proof (prod_le _ _ _ BGp P4).
    pose proof (prod_le _ _ _ BGm P3). pose proof (prod_le _ _ _ BGm P4).
    apply Forall_forall. intros c Hc. cbn in Hc. unfold admissible.
    destruct Hc as [<-|[<-|[<-|[<-|[]]]]]; cbn; rewrite !abs_le; repeat split;
      first [lra | apply Rmult_le_pos; [apply Rmult_le_pos|]; lra].
  - cbn. f_equal.
    + transitivity (Fp + Fm); [field|assumption].
    + transitivity (Gp + Gm); [field|assumption].
    + field.
    + rewrite <- Er. field.
    + replace ty with (- (X * fz * s)) by lra. field.
    + rewrite <- ET, <- ETF. replace T2 with (X * (Gp - Gm)) by lra. field.
Qed.

(** Physical meaning, both ways: the residuals are nonpositive exactly when the wrench
    comes from contact forces in the friction pyramid at points of the foot. *)
Theorem C46_contacts : forall k mu hL hW u d, 0 <= mu -> 0 <= hL -> 0 <= hW ->
  (nonpos (cd_value (wrench_evaluate k mu hL hW u d)) <->
   exists cs, Forall (admissible mu hL hW) cs /\ total cs = wrench_of k u).
Proof.
  intros k mu hL hW u d Hm HL HW. rewrite C46_residual. split.
  - intros H. destruct (cone_corners _ _ _ _ Hm HL HW H) as (cs & _ & A & E). eauto.
  - intros (cs & A & <-). now apply total_in.
Qed.

(** *** Jacobians *)
Lemma set_cols_length j b row : (j + length b <= length row)%nat -> length (set_cols j b row) = length row.
Proof. intros H. unfold set_cols. rewrite !app_length, firstn_length, skipn_length. lia. Qed.
Lemma vdot_app a1 a2 b1 b2 : length a1 = length b1 -> vdot (a1 ++ a2) (b1 ++ b2) = vdot a1 b1 + vdot a2 b2.
Proof.
  unfold vdot. revert b1; induction a1; intros [|x b1] H; simpl in *; try discriminate; [ring|].
  rewrite IHa1 by lia. ring.
Qed.
Lemma set_cols_idem j b b' row : length b = length b' -> (j + length b <= length row)%nat ->
  set_cols j b' (set_cols j b row) = set_cols j b' row.
Proof.
  intros L H. unfold set_cols. f_equal.
  - rewrite firstn_app, firstn_firstn, firstn_length, Nat.min_id, Nat.min_l by lia.
    rewrite Nat.sub_diag. simpl. apply app_nil_r.
  - f_equal. rewrite app_assoc, skipn_app. rewrite skipn_all2 by (rewrite app_length, firstn_length; lia).
    rewrite app_length, firstn_length, Nat.min_l, L by lia.
    replace (j + length b' - (j + length b'))%nat with 0%nat by lia. reflexivity.
Qed.
Lemma zero_firstn n j : firstn j (repeat 0 n) = repeat 0 (Nat.min j n).
Proof. revert n; induction j; intros [|n]; simpl; auto. now rewrite IHj. Qed.
Lemma zero_skipn n j : skipn j (repeat 0 n) = repeat 0 (n - j).
Proof. revert n; induction j; intros [|n]; simpl; auto. Qed.
Lemma set_cols_dot j b n u : (j + length b <= n)%nat -> length u = n ->
  vdot (set_cols j b (repeat 0 n)) u = vdot b (firstn (length b) (skipn j u)).
Proof.
  intros H Hu. unfold set_cols. rewrite zero_firstn, zero_skipn, Nat.min_l by lia.
  rewrite <- (firstn_skipn j u) at 1. rewrite vdot_app by (rewrite repeat_length, firstn_length; lia).
  rewrite vdot_zero, Rplus_0_l. rewrite <- (firstn_skipn (length b) (skipn j u)) at 1.
  rewrite vdot_app by (rewrite firstn_length, skipn_length; lia). rewrite vdot_zero. ring.
Qed.
(** the six entries *)
Lemma segment_eq n : forall j u, (j + n <= length u)%nat ->
  firstn n (skipn j u) = map (fun i => nth (j + i) u 0) (seq 0 n).
Proof.
  intros j u H. apply nth_ext with 0 0.
  - rewrite firstn_length, skipn_length, map_length, seq_length. lia.
  - intros i Hi. rewrite firstn_length, skipn_length in Hi.
    assert (E : nth i (map (fun i => nth (j + i) u 0) (seq 0 n)) 0 = nth (j + i) u 0).
    { rewrite (nth_indep _ 0 (nth (j + 0) u 0)) by (rewrite map_length, seq_length; lia).
      rewrite (map_nth (fun i => nth (j + i) u 0)), seq_nth by lia. reflexivity. }
    rewrite E.
    rewrite <- (firstn_skipn j u) at 2. rewrite app_nth2 by (rewrite firstn_length; lia).
    rewrite firstn_length, Nat.min_l by lia. replace (j + i - j)%nat with i by lia.
    rewrite <- (firstn_skipn n (skipn j u)) at 2. rewrite app_nth1; [reflexivity|].
    rewrite firstn_length, skipn_length. lia.
Qed.

Definition block_rows nu j (B : list (list R)) := map (fun b => set_cols j b (repeat 0 nu)) B.
Lemma zip_repeat nu j B : zip_with (set_cols j) B (repeat (repeat 0 nu) (length B)) = block_rows nu j B.
Proof. unfold block_rows. induction B as [|b B IH]; simpl; auto. now rewrite IH. Qed.
Lemma zip_block nu j c B B' : (j + c <= nu)%nat -> Forall (fun b => length b = c) B -> Forall (fun b => length b = c) B' ->
  length B = length B' -> zip_with (set_cols j) B' (block_rows nu j B) = block_rows nu j B'.
Proof.
  intros H F F' L. unfold block_rows. revert B' F' L. induction F as [|b B Hb F IH]; intros [|b' B'] F' L; try discriminate; auto.
  inversion F'; subst. simpl. f_equal; [|apply IH; auto].
  apply set_cols_idem; rewrite ?repeat_length; lia.
Qed.
Lemma wrench_matrix_rows mu hL hW : Forall (fun b => length b = 6%nat) (wrench_matrix mu hL hW).
Proof. repeat constructor. Qed.
Lemma wreach_J k mu hL hW nu d : (k * 6 + 6 <= nu)%nat -> wreach k mu hL hW nu d ->
  cd_Ju (wrench_jacobians k mu hL hW d) = block_rows nu (k * 6) (wrench_matrix mu hL hW).
Proof.
  intros H Hd. assert (I : cd_Ju d = repeat (repeat 0 nu) 17 \/ cd_Ju d = block_rows nu (k * 6) (wrench_matrix mu hL hW)).
  { induction Hd; [left; reflexivity|exact IHHd|right]. cbn [wrench_jacobians cd_Ju].
    destruct IHHd as [-> | ->]; [apply (zip_repeat nu (k * 6) (wrench_matrix mu hL hW))|].
    eapply zip_block; eauto using wrench_matrix_rows. }
  cbn [wrench_jacobians cd_Ju]. destruct I as [-> | ->]; [apply (zip_repeat nu (k * 6) (wrench_matrix mu hL hW))|].
  eapply zip_block; eauto using wrench_matrix_rows.
Qed.

(** The Jacobian, from any reachable data, maps every control of the right size to
    its 17 residuals (which are linear: it is their derivative), and the multibody
    residual uses the same cone on the contact forces. *)
Theorem C46_jacobian : forall k mu hL hW nu d d' u,
  wreach k mu hL hW nu d -> (k * 6 + 6 <= nu)%nat -> length u = nu ->
  let J := cd_Ju (wrench_jacobians k mu hL hW d) in
  mat 17 nu J /\ mulv J u = cd_value (wrench_evaluate k mu hL hW u d') /\
  mb_wrench_value mu hL hW u k = cd_value (wrench_evaluate k mu hL hW u d').
Proof.
  intros k mu hL hW nu d d' u Hd H Hu J. unfold J. rewrite (wreach_J _ _ _ _ nu) by assumption.
  assert (E : mb_wrench_value mu hL hW u k = cd_value (wrench_evaluate k mu hL hW u d')).
  { unfold mb_wrench_value. rewrite segment_eq by lia. cbn. unfold vdot; simpl.
    repeat match goal with |- ?a :: _ = ?b :: _ => f_equal end; ring. }
  split; [|split; [|exact E]].
  - split; [reflexivity|]. unfold block_rows. apply Forall_forall. intros r Hr. apply in_map_iff in Hr.
    destruct Hr as (b & <- & Hb). rewrite set_cols_length; rewrite repeat_length; auto.
    assert (F := wrench_matrix_rows mu hL hW). rewrite Forall_forall in F. rewrite (F b Hb). lia.
  - rewrite <- E. unfold mulv, mb_wrench_value, block_rows, mulv. rewrite map_map. apply map_ext_in. intros b Hb.
    assert (F := wrench_matrix_rows mu hL hW). rewrite Forall_forall in F.
    rewrite set_cols_dot; rewrite ?(F b Hb); auto.
Qed.

(** Friction cone: nonpositive exactly when the normal force is at least [eps] and the
    tangential one at most |mu| times it, for eps >= 0. *)
Theorem C46_friction : forall k mu eps u d, 0 <= eps ->
  let fx := nth (k * 3) u 0 in let fy := nth (k * 3 + 1) u 0 in let fz := nth (k * 3 + 2) u 0 in
  (nonpos (cd_value (friction_evaluate k mu eps u d)) <->
   eps <= fz /\ sqrt (fx * fx + fy * fy) <= Rabs mu * fz).
Proof.
  intros k mu eps u d He fx fy fz. unfold friction_evaluate. cbn [cd_value]. rewrite Nat.add_0_r. fold fx fy fz.
  rewrite !nonpos_cons.
  assert (S0 : 0 <= fx * fx + fy * fy) by (pose proof (Rle_0_sqr fx); pose proof (Rle_0_sqr fy); unfold Rsqr in *; lra).
  assert (M : (Rabs mu * fz) * (Rabs mu * fz) = mu * mu * (fz * fz)).
  { replace (Rabs mu * fz * (Rabs mu * fz)) with (Rabs mu * Rabs mu * (fz * fz)) by ring.
    f_equal. rewrite <- Rabs_mult. apply Rabs_right. pose proof (Rle_0_sqr mu). unfold Rsqr in *. lra. }
  split.
  - intros (H1 & H2 & _). split; [lra|]. assert (Hp : 0 <= Rabs mu * fz) by (apply Rmult_le_pos; [apply Rabs_pos|lra]).
    rewrite <- (sqrt_square (Rabs mu * fz)) by assumption. apply sqrt_le_1_alt. rewrite M. lra.
  - intros (H1 & H2). repeat split; [lra| |constructor].
    assert (Hs := sqrt_pos (fx * fx + fy * fy)). assert (Q := sqrt_sqrt _ S0).
    assert (sqrt (fx * fx + fy * fy) * sqrt (fx * fx + fy * fy) <= (Rabs mu * fz) * (Rabs mu * fz)) by (apply Rmult_le_compat; assumption).
    rewrite M, Q in H. lra.
Qed.
(** Its Jacobian is the derivative: exact expansion with the second-order term. *)
Lemma freach_J k mu eps nu d : (k * 3 + 3 <= nu)%nat -> freach k mu eps nu d ->
  exists B, length B = 2%nat /\ Forall (fun b => length b = 3%nat) B /\
  (cd_Ju d = repeat (repeat 0 nu) 2 \/ cd_Ju d = block_rows nu (k * 3) B).
Proof.
  intros H Hd. induction Hd.
  - exists [[0;0;0];[0;0;0]]. repeat split; auto.
  - exact IHHd.
  - destruct IHHd as (B & LB & FB & I). eexists [[0; 0; -1]; [_; _; _]]. repeat split; [repeat constructor|].
    right. cbn [friction_jacobians cd_Ju].
    destruct I as [-> | ->]; [apply (zip_repeat nu (k * 3) [_; _])|].
    eapply zip_block; eauto.
Qed.
Theorem C46_friction_jacobian : forall k mu eps nu d d' u v,
  freach k mu eps nu d -> (k * 3 + 3 <= nu)%nat -> length u = nu -> length v = nu ->
  let J := cd_Ju (friction_jacobians k mu u d) in
  let s := nth (k * 3) v 0 in let t := nth (k * 3 + 1) v 0 in let r := nth (k * 3 + 2) v 0 in
  cd_value (friction_evaluate k mu eps (vplus' u v) d') =
  vplus' (vplus' (cd_value (friction_evaluate k mu eps u d')) (mulv J v)) [0; s * s + t * t - mu * mu * (r * r)].
Proof.
  intros k mu eps nu d d' u v Hd H Hu Hv J s t r.
  destruct (freach_J k mu eps nu d H Hd) as (B & LB & FB & I).
  assert (EJ : J = block_rows nu (k * 3) [[0; 0; -1]; [2 * nth (k * 3) u 0; 2 * nth (k * 3 + 1) u 0; -2 * (mu * mu) * nth (k * 3 + 2) u 0]]).
  { unfold J. cbn [friction_jacobians cd_Ju]. rewrite Nat.add_0_r.
    destruct I as [-> | ->]; [apply (zip_repeat nu (k * 3) [_; _])|].
    eapply zip_block; eauto. }
  rewrite EJ. unfold block_rows, mulv. cbn [map]. rewrite !set_cols_dot by (auto; simpl; lia).
  cbn [length]. rewrite segment_eq by lia. cbn [seq map]. rewrite !Nat.add_0_r.
  unfold friction_evaluate. cbn [cd_value]. rewrite !Nat.add_0_r.
  assert (Z : forall i, (i < nu)%nat -> nth i (vplus' u v) 0 = nth i u 0 + nth i v 0).
  { intros i Hi. unfold vplus'. apply (zip_nth _ _ _ _ 0 0); lia. }
  rewrite !Z by lia. fold s t r. unfold vdot; simpl. f_equal; [ring|f_equal; ring].
Qed.

(** MultibodyFrictionCone: dcone_df_ is the gradient of the cone residual away from
    zero tangential force; at zero the code divides by zero. *)
Theorem C46_mb_friction : forall mu fx fy,
  (mb_friction_row mu fx fy = None <-> fx = 0 /\ fy = 0) /\
  forall g fz dx dy dz, mb_friction_row mu fx fy = Some g ->
    derivable_pt_lim (fun t => nth 1 (mb_friction_value mu (fx + t * dx) (fy + t * dy) (fz + t * dz)) 0) 0
      (vdot g [dx; dy; dz]).
Proof.
  intros mu fx fy.
  assert (S0 : 0 <= fx * fx + fy * fy) by (pose proof (Rle_0_sqr fx); pose proof (Rle_0_sqr fy); unfold Rsqr in *; lra).
  assert (Z : sqrt (fx * fx + fy * fy) = 0 <-> fx = 0 /\ fy = 0).
  { split; [intros E; apply sqrt_eq_0 in E; auto|intros [-> ->]].
    - pose proof (Rle_0_sqr fx); pose proof (Rle_0_sqr fy); unfold Rsqr in *. split; apply Rsqr_0_uniq; unfold Rsqr; lra.
    - replace (0 * 0 + 0 * 0) with 0 by ring. apply sqrt_0. }
  unfold mb_friction_row. split.
  - destruct (Req_EM_T _ _); [tauto|]. split; [discriminate|tauto].
  - intros g fz dx dy dz. destruct (Req_EM_T _ _) as [|N]; [discriminate|]. intros E; injection E as <-.
    assert (Pos : 0 < fx * fx + fy * fy).
    { destruct (Rle_lt_or_eq_dec _ _ S0) as [|E]; [assumption|]. exfalso. apply N. rewrite <- E. apply sqrt_0. }
    cbn [mb_friction_value nth].
    apply (dlim_ext (fun t => - mu * (fz + t * dz) + sqrt ((fun t => (fx + t * dx) * (fx + t * dx) + (fy + t * dy) * (fy + t * dy)) t)));
      [reflexivity|].
    assert (LD : forall a b c, derivable_pt_lim (fun t => a + t * b + c * (t * t)) 0 b).
    { intros a b c e He. exists (mkposreal (e / (Rabs c + 1)) ltac:(apply Rdiv_lt_0_compat; [assumption|pose proof (Rabs_pos c); lra])).
      intros h h0 hd. simpl in hd.
      replace ((a + (0 + h) * b + c * ((0 + h) * (0 + h)) - (a + 0 * b + c * (0 * 0))) / h - b) with (c * h) by (field; assumption).
      rewrite Rabs_mult. pose proof (Rabs_pos c). pose proof (Rabs_pos h).
      apply (Rmult_lt_compat_r (Rabs c + 1)) in hd; [|lra]. unfold Rdiv in hd. rewrite Rmult_assoc, Rinv_l in hd by lra. nra. }
    replace (vdot [fx / sqrt (fx * fx + fy * fy); fy / sqrt (fx * fx + fy * fy); - mu] [dx; dy; dz])
      with (- mu * dz + / (2 * sqrt (fx * fx + fy * fy)) * (2 * (fx * dx + fy * dy)))
      by (unfold vdot; simpl; field; assumption).
    apply derivable_pt_lim_plus.
    + apply (dlim_ext (fun t => - mu * fz + t * (- mu * dz) + 0 * (t * t))); [intros; ring|]. apply LD.
    + apply (derivable_pt_lim_comp (fun t => (fx + t * dx) * (fx + t * dx) + (fy + t * dy) * (fy + t * dy)) sqrt).
      * apply (dlim_ext (fun t => (fx * fx + fy * fy) + t * (2 * (fx * dx + fy * dy)) + (dx * dx + dy * dy) * (t * t)));
          [intros; ring|]. apply LD.
      * replace ((fx + 0 * dx) * (fx + 0 * dx) + (fy + 0 * dy) * (fy + 0 * dy)) with (fx * fx + fy * fy) by ring.
        apply derivable_pt_lim_sqrt. assumption.
Qed.

(** ** Examples *)
(** a loaded foot: fz = 10, fx = 2, mu = 1/2, foot 2 x 1, and yaw torque 3; the second
    contact of a 12-dimensional control *)
Example C46_example :
  let u := [9; 9; 9; 9; 9; 9; 2; 1; 10; 1; -2; 3] in
  nonpos (cd_value (wrench_evaluate 1 (/ 2) 1 (/ 2) u (cone_new 17 12))) /\
  (exists cs, Forall (admissible (/ 2) 1 (/ 2)) cs /\ total cs = W 2 1 10 1 (-2) 3) /\
  ~ nonpos (cd_value (wrench_evaluate 1 (/ 2) 1 (/ 2) [9; 9; 9; 9; 9; 9; 2; 1; 10; 1; -2; 8] (cone_new 17 12))) /\
  mulv (cd_Ju (wrench_jacobians 1 (/ 2) 1 (/ 2) (cone_new 17 12))) u =
    cd_value (wrench_evaluate 1 (/ 2) 1 (/ 2) u (cone_new 17 12)).
Proof.
  intros u.
  assert (N : nonpos (cd_value (wrench_evaluate 1 (/ 2) 1 (/ 2) u (cone_new 17 12)))).
  { cbn. rewrite !nonpos_cons. repeat split; first [lra | constructor]. }
  split; [exact N|]. split.
  - apply (C46_contacts 1 (/ 2) 1 (/ 2) u (cone_new 17 12)); auto; lra.
  - split.
    + cbn. rewrite !nonpos_cons. intros (?&?&?&?&?&?&?&?&?&?&?&?&?&?&?&?&?&_). lra.
    + apply (C46_jacobian 1 (/ 2) 1 (/ 2) 12); auto. constructor.
Qed.

(** friction cone of the second contact, mu = 1/2, eps = 1: (3, 4, 12) inside, (3, 4, 9) outside *)
Example C46_friction_example :
  nonpos (cd_value (friction_evaluate 1 (/ 2) 1 [7; 7; 7; 3; 4; 12] (cone_new 2 6))) /\
  ~ nonpos (cd_value (friction_evaluate 1 (/ 2) 1 [7; 7; 7; 3; 4; 9] (cone_new 2 6))) /\
  cd_Ju (friction_jacobians 1 (/ 2) [7; 7; 7; 3; 4; 12] (cone_new 2 6)) =
    [[0; 0; 0; 0; 0; -1]; [0; 0; 0; 6; 8; -6]].
Proof.
  cbn. rewrite !nonpos_cons. split; [|split].
  - repeat split; first [lra | constructor].
  - intros (_ & H & _). lra.
  - repeat f_equal; field.
Qed.
Example C46_mb_friction_example :
  mb_friction_row (/ 2) 3 4 = Some [3 / 5; 4 / 5; - / 2] /\ mb_friction_row (/ 2) 0 0 = None.
Proof.
  unfold mb_friction_row. replace (3 * 3 + 4 * 4) with (5 * 5) by ring. rewrite sqrt_square by lra.
  replace (0 * 0 + 0 * 0) with 0 by ring. rewrite sqrt_0.
  destruct (Req_EM_T 5 0); [lra|]. destruct (Req_EM_T 0 0); [auto|lra].
Qed.

Print Assumptions C46_residual.
Print Assumptions C46_contacts.
Print Assumptions C46_jacobian.
Print Assumptions C46_friction.
Print Assumptions C46_friction_jacobian.
Print Assumptions C46_mb_friction.
