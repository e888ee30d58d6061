(** C39: gradients and Hessians of the log-barrier costs. *)
From Coq Require Import Reals List Lra Lia Bool Arith.
From Verif Require Import CSetModel CSetSpec CSetProofs MultModel P_mult MeritModel P_merit BarrierModel.
Import ListNotations.
Local Open Scope R_scope.

(** ** Specification *)
(** the point z + t d *)
Definition along (z d : list R) (t : R) : list R := zip_with (fun a b => a + t * b) z d.
(** the function computed by r_jac is the derivative of r_eval in every direction *)
Definition differentiable_at (f : rfun) (z : list R) : Prop :=
  length z = r_n f /\ mat (r_nr f) (r_n f) (r_jac f z) /\
  forall d, length d = r_n f -> vderiv (fun t => r_eval f (along z d t)) (mulv (r_jac f z) d).
(** affine residual r(z) = J z + c *)
Definition affine (f : rfun) (J : list (list R)) (c : list R) : Prop :=
  mat (r_nr f) (r_n f) J /\ length c = r_nr f /\
  forall z, length z = r_n f -> r_eval f z = vplus' (mulv J z) c /\ r_jac f z = J.
(** [G] is the derivative of the cost [c] in every direction at [z] *)
Definition gradient_of (c : list R -> R) (z G : list R) : Prop :=
  length G = length z /\
  forall d, length d = length z -> derivable_pt_lim (fun t => c (along z d t)) 0 (vdot G d).
(** [H] is the derivative of the gradient [g] in every direction at [z] *)
Definition hessian_of (g : list R -> list R) (z : list R) (H : list (list R)) : Prop :=
  mat (length z) (length z) H /\
  forall d e, length d = length z -> length e = length z ->
    derivable_pt_lim (fun t => vdot (g (along z d t)) e) 0 (vdot (mulv H d) e).

(** value, gradient and Hessian after evaluate, computeGradients, computeHessians *)
Definition log_all f w z d0 := log_hessians f w (log_gradients f w z (log_evaluate f w z d0)).
Definition rel_all f thr w z d0 := rel_hessians f thr w (rel_gradients f thr w z (rel_evaluate f thr w z d0)).

(** ** Derivatives of separable sums *)
Lemma along_0 z d : length z = length d -> along z d 0 = z.
Proof. unfold along. revert d; induction z; intros [|b d]; simpl; intros; try discriminate; auto. rewrite IHz by lia. f_equal. ring. Qed.
Lemma along_length z d t : length z = length d -> length (along z d t) = length z.
Proof. intros. unfold along. now apply zip_with_length. Qed.

Lemma sep_deriv phi phi' : forall w z dz, length w = length dz -> vderiv z dz ->
  Forall (fun x => derivable_pt_lim phi x (phi' x)) (z 0) ->
  derivable_pt_lim (fun a => vdot w (map phi (z a))) 0 (vdot (zip_with Rmult w (map phi' (z 0))) dz).
Proof.
  induction w as [|k w IH]; intros z dz L [Hl Hd] Hp; destruct dz as [|d dz]; try discriminate.
  - unfold vdot; simpl. apply (dlim_ext (fun _ => 0)); [intros a; reflexivity|]. apply derivable_pt_lim_const.
  - assert (Ez : forall a, z a = nth 0 (z a) 0 :: tl (z a)).
    { intros a. specialize (Hl a). destruct (z a); [discriminate|reflexivity]. }
    rewrite Ez in Hp |- *. inversion Hp as [|? ? Hk Hks]; subst. unfold vdot. simpl.
    apply (dlim_ext (fun a => k * phi (nth 0 (z a) 0) + vdot w (map phi (tl (z a))))).
    { intros a. specialize (Hl a). destruct (z a); [discriminate|reflexivity]. }
    apply derivable_pt_lim_plus.
    + replace (k * phi' (nth 0 (z 0) 0) * d) with (k * (phi' (nth 0 (z 0) 0) * d)) by ring.
      apply derivable_pt_lim_scal.
      apply (derivable_pt_lim_comp (fun a => nth 0 (z a) 0) phi); auto.
      apply (Hd 0%nat). simpl; lia.
    + apply (IH (fun a => tl (z a))); auto. split.
      * intros a. specialize (Hl a). destruct (z a); simpl in *; lia.
      * intros i Hi. apply (dlim_ext (fun a => nth (S i) (z a) 0)).
        { intros a. rewrite (Ez a). reflexivity. }
        apply (Hd (S i)). simpl; lia.
Qed.

(** the curve of an affine residual *)
Lemma affine_along f J c z d : affine f J c -> length z = r_n f -> length d = r_n f ->
  vderiv (fun t => r_eval f (along z d t)) (mulv J d).
Proof.
  intros ([HJ HJ'] & Hc & Hf) Hz Hd.
  assert (E : forall t, r_eval f (along z d t) = shift t (r_eval f z) (mulv J d)).
  { intros t. rewrite (proj1 (Hf (along z d t) ltac:(rewrite along_length; lia))), (proj1 (Hf z Hz)).
    clear Hf. revert c Hc. rewrite <- HJ. clear HJ.
    induction HJ' as [|g J Hg HJ IH]; intros [|b c] Hc; try discriminate; [reflexivity|].
    unfold shift, vplus', mulv in *. simpl in *. f_equal; [|apply IH; lia].
    assert (vdot g (along z d t) = vdot g z + t * vdot g d); [|lra].
    assert (Hgz : length g = length z) by congruence. assert (Hzd : length z = length d) by congruence.
    clear - Hgz Hzd. unfold vdot, along. revert z d Hgz Hzd.
    induction g as [|a g IHg]; intros [|x z] [|y d] H1 H2; simpl in *; try discriminate; [ring|].
    rewrite IHg by lia. ring. }
  assert (Ln : length (r_eval f z) = length (mulv J d)).
  { rewrite (proj1 (Hf z Hz)), mulv_length. unfold vplus'. rewrite zip_with_length; rewrite mulv_length; lia. }
  split.
  - intros t. rewrite E, shift_length; auto.
  - intros i Hi. apply (dlim_ext (fun t => nth i (r_eval f z) 0 + t * nth i (mulv J d) 0)).
    { intros t. rewrite E. unfold shift. rewrite (zip_nth _ _ _ _ 0 0); auto; lia. }
    intros e He. exists (mkposreal e He). intros h h0 _.
    replace ((nth i (r_eval f z) 0 + (0 + h) * nth i (mulv J d) 0 - (nth i (r_eval f z) 0 + 0 * nth i (mulv J d) 0)) / h
             - nth i (mulv J d) 0) with 0 by (field; assumption).
    now rewrite Rabs_R0.
Qed.
Lemma affine_differentiable f J c z : affine f J c -> length z = r_n f -> differentiable_at f z.
Proof.
  intros A Hz. assert (A' := A). destruct A' as (HJ & Hc & Hf). destruct (Hf z Hz) as [_ EJ].
  split; auto. rewrite EJ. split; auto. intros d Hd. eapply affine_along; eauto.
Qed.

(** the loops as sums *)
Lemma vplus_len x y : length x = length y -> length (vplus' x y) = length x.
Proof. intros. unfold vplus'. now apply zip_with_length. Qed.
Lemma vscale_len a x : length (vscale a x) = length x.
Proof. apply map_length. Qed.

Lemma vdot_cons a x b y : vdot (a :: x) (b :: y) = a * b + vdot x y.
Proof. reflexivity. Qed.
Lemma mulv_cons g J d : mulv (g :: J) d = vdot g d :: mulv J d.
Proof. reflexivity. Qed.

Lemma log_grad_dot d : forall w J v g, Forall (fun r => length r = length d) J ->
  length g = length d -> length w = length J -> length v = length J ->
  length (log_grad_loop w J v g) = length d /\
  vdot (log_grad_loop w J v g) d =
  vdot g d + vdot (zip_with Rmult w (map (fun x => - / x) v)) (mulv J d).
Proof.
  induction w as [|a w IH]; intros [|g1 J] [|x v] g HJ Hg Lw Lv; try discriminate.
  - simpl. unfold vdot at 3; simpl. split; [assumption|ring].
  - inversion HJ; subst. cbn [log_grad_loop].
    assert (Lp : length (vplus' g (vscale (- a / x) g1)) = length d)
      by (rewrite vplus_len; auto; rewrite vscale_len; congruence).
    destruct (IH J v _ H2 Lp ltac:(simpl in *; lia) ltac:(simpl in *; lia)) as [L E]. split; [assumption|].
    rewrite E, vdot_plus, vdot_scale by (rewrite ?vscale_len; congruence).
    cbn [map zip_with]. rewrite mulv_cons, vdot_cons. unfold Rdiv. ring.
Qed.

(** the relaxed barrier and its derivatives *)
Definition rphi thr x := if Rlt_dec x thr then / 2 * ((x - 2 * thr) / thr * ((x - 2 * thr) / thr) - 1) - ln thr else - ln x.
Definition rphi' thr x := if Rlt_dec x thr then (x - 2 * thr) / (thr * thr) else - / x.
Definition rphi'' thr x := if Rlt_dec x thr then / (thr * thr) else / (x * x).

Lemma rel_value_sum thr : forall w v c, length w = length v ->
  rel_value_loop thr w v c = c + vdot w (map (rphi thr) v).
Proof.
  induction w as [|a w IH]; intros [|x v] c L; try discriminate; cbn [rel_value_loop].
  - unfold vdot; simpl; ring.
  - rewrite IH by (simpl in *; lia). unfold vdot; simpl. unfold rphi at 2. destruct (Rlt_dec x thr); ring.
Qed.
Lemma rel_grad_dot thr d : 0 < thr -> forall w J v g, Forall (fun r => length r = length d) J ->
  length g = length d -> length w = length J -> length v = length J ->
  length (rel_grad_loop thr w J v g) = length d /\
  vdot (rel_grad_loop thr w J v g) d =
  vdot g d + vdot (zip_with Rmult w (map (rphi' thr) v)) (mulv J d).
Proof.
  intros Ht. induction w as [|a w IH]; intros [|g1 J] [|x v] g HJ Hg Lw Lv; try discriminate.
  - simpl. unfold vdot at 3; simpl. split; [assumption|ring].
  - inversion HJ; subst. cbn [rel_grad_loop].
    assert (Lp : forall b, length (vplus' g (vscale b g1)) = length d)
      by (intros b; rewrite vplus_len; auto; rewrite vscale_len; congruence).
    cbn [map zip_with]. rewrite mulv_cons, vdot_cons. unfold rphi' at 1. destruct (Rlt_dec x thr).
    + destruct (IH J v _ H2 (Lp (a * (x - 2 * thr) / (thr * thr))) ltac:(simpl in *; lia) ltac:(simpl in *; lia)) as [L E]. split; [exact L|].
      rewrite E, vdot_plus, vdot_scale by (rewrite ?vscale_len; congruence). field. lra.
    + destruct (IH J v _ H2 (Lp (- (a / x))) ltac:(simpl in *; lia) ltac:(simpl in *; lia)) as [L E]. split; [exact L|].
      rewrite E, vdot_plus, vdot_scale by (rewrite ?vscale_len; congruence). unfold Rdiv. ring.
Qed.

(** H d . e for sums of scaled outer products *)
Lemma madd_len A B : length A = length B -> length (madd A B) = length A.
Proof. intros. unfold madd. now apply zip_with_length. Qed.
Lemma madd_mat n A B : mat n n A -> mat n n B -> mat n n (madd A B).
Proof.
  intros [LA FA] [LB FB]. split; [rewrite madd_len; congruence|].
  clear LA LB. revert B FB; induction FA; intros [|b B] FB; try constructor; inversion FB; subst.
  - rewrite vplus_len; congruence.
  - apply IHFA; assumption.
Qed.
Lemma outer_mat n a g : length g = n -> mat n n (mscale a (outer g)).
Proof.
  intros H. split; [unfold mscale, outer; now rewrite !map_length|].
  apply Forall_forall. intros r Hr. unfold mscale, outer in Hr. rewrite map_map in Hr.
  apply in_map_iff in Hr. destruct Hr as (b & <- & _). rewrite !vscale_len. assumption.
Qed.
Lemma mulv_madd n A B d : length A = length B -> Forall (fun r => length r = n) A -> Forall (fun r => length r = n) B ->
  length d = n -> mulv (madd A B) d = vplus' (mulv A d) (mulv B d).
Proof.
  intros L FA FB Hd. revert B L FB. induction FA as [|a A Ha FA IH]; intros [|b B] L FB; try discriminate; [reflexivity|].
  inversion FB; subst. unfold madd, mulv, vplus' in *. simpl in *. f_equal; [|apply IH; auto; lia].
  apply vdot_plus; congruence.
Qed.
Lemma madd_dot n A B d e : mat n n A -> mat n n B -> length d = n -> length e = n ->
  vdot (mulv (madd A B) d) e = vdot (mulv A d) e + vdot (mulv B d) e.
Proof.
  intros [LA FA] [LB FB] Hd He. rewrite (mulv_madd n) by (auto; congruence).
  apply vdot_plus; rewrite mulv_length; congruence.
Qed.
Lemma outer_dot a g d e : length e = length g ->
  vdot (mulv (mscale a (outer g)) d) e = a * (vdot g d * vdot g e).
Proof.
  intros He. transitivity (vdot (vscale (a * vdot g d) g) e).
  - f_equal. unfold mulv, mscale, outer, vscale. rewrite !map_map. apply map_ext. intros x.
    change (map (Rmult a) (map (Rmult x) g)) with (vscale a (vscale x g)). rewrite !vdot_scale. ring.
  - rewrite vdot_scale. ring.
Qed.
(** sum of coefficients times (g.d)(g.e) *)
Fixpoint quad (cs : list R) (J : list (list R)) (d e : list R) : R :=
  match cs, J with c :: cs, g :: J => c * (vdot g d * vdot g e) + quad cs J d e | _, _ => 0 end.
Lemma quad_vdot w k J d e : length w = length J -> length k = length J ->
  quad (zip_with Rmult w k) J d e =
  vdot (zip_with Rmult (zip_with Rmult w (mulv J e)) k) (mulv J d).
Proof.
  revert w k; induction J as [|g J IH]; intros [|a w] [|b k] H1 H2; try discriminate; [reflexivity|].
  rewrite !mulv_cons. cbn [zip_with quad]. rewrite vdot_cons, IH by (simpl in *; lia). ring.
Qed.

Lemma log_hess_quad n d e : length d = n -> length e = n -> forall w J v H,
  Forall (fun r => length r = n) J -> mat n n H -> length w = length J -> length v = length J ->
  mat n n (log_hess_loop w J v H) /\
  vdot (mulv (log_hess_loop w J v H) d) e =
  vdot (mulv H d) e + quad (zip_with Rmult w (map (fun x => - / (x * x)) v)) J d e.
Proof.
  intros Hd He. induction w as [|a w IH]; intros [|g J] [|x v] H HJ HH Lw Lv; try discriminate.
  - simpl. split; [assumption|ring].
  - inversion HJ; subst. cbn [log_hess_loop].
    assert (M := outer_mat _ (- a / (x * x)) g H2).
    destruct (IH J v _ H3 (madd_mat _ _ _ HH M) ltac:(simpl in *; lia) ltac:(simpl in *; lia)) as [L E].
    split; [assumption|]. rewrite E, (madd_dot (length d)), outer_dot by (auto; congruence). simpl. unfold Rdiv. ring.
Qed.
(** the coefficients the relaxed Hessian uses *)
Definition rcode thr a x :=
  if Rlt_dec x thr then a * a * ((x - 2 * thr) / (thr * thr)) * ((x - 2 * thr) / (thr * thr)) else a * a / (x * x).
Lemma rel_hess_quad thr n d e : length d = n -> length e = n -> forall w J v H,
  Forall (fun r => length r = n) J -> mat n n H -> length w = length J -> length v = length J ->
  mat n n (rel_hess_loop thr w J v H) /\
  vdot (mulv (rel_hess_loop thr w J v H) d) e =
  vdot (mulv H d) e + quad (zip_with (rcode thr) w v) J d e.
Proof.
  intros Hd He. induction w as [|a w IH]; intros [|g J] [|x v] H HJ HH Lw Lv; try discriminate.
  - simpl. split; [assumption|ring].
  - inversion HJ; subst. cbn [rel_hess_loop zip_with quad]. unfold rcode at 1.
    destruct (Rlt_dec x thr).
    + assert (M := outer_mat _ (a * a * ((x - 2 * thr) / (thr * thr)) * ((x - 2 * thr) / (thr * thr))) g H2).
      destruct (IH J v _ H3 (madd_mat _ _ _ HH M) ltac:(simpl in *; lia) ltac:(simpl in *; lia)) as [L E].
      split; [assumption|]. rewrite E, (madd_dot (length d)), outer_dot by (auto; congruence). simpl. unfold Rdiv. ring.
    + assert (M := outer_mat _ (a * a / (x * x)) g H2).
      destruct (IH J v _ H3 (madd_mat _ _ _ HH M) ltac:(simpl in *; lia) ltac:(simpl in *; lia)) as [L E].
      split; [assumption|]. rewrite E, (madd_dot (length d)), outer_dot by (auto; congruence). simpl. unfold Rdiv. ring.
Qed.
Lemma zero_mat n : mat n n (repeat (repeat 0 n) n).
Proof.
  split; [apply repeat_length|]. apply Forall_forall. intros r Hr. apply repeat_spec in Hr. subst. apply repeat_length.
Qed.
Lemma zero_quad n d e : vdot (mulv (repeat (repeat 0 n) n) d) e = 0.
Proof.
  replace (mulv (repeat (repeat 0 n) n) d) with (repeat 0 n); [apply vdot_zero|].
  assert (G : forall m, repeat 0 m = mulv (repeat (repeat 0 n) m) d); [|apply G].
  induction m; simpl; auto. rewrite vdot_zero. now f_equal.
Qed.

(** ** Scalar derivatives *)
Lemma dlim_local f g x l r : 0 < r -> (forall y, Rabs (y - x) < r -> f y = g y) ->
  derivable_pt_lim f x l -> derivable_pt_lim g x l.
Proof.
  intros Hr E H e He. destruct (H e He) as [d Hd].
  assert (Hm : 0 < Rmin d r) by (apply Rmin_pos; [apply cond_pos|assumption]).
  exists (mkposreal _ Hm). intros h h0 hd. simpl in hd.
  assert (M1 := Rmin_l d r). assert (M2 := Rmin_r d r).
  rewrite <- (E (x + h)), <- (E x).
  - apply Hd; auto. lra.
  - unfold Rminus. rewrite Rplus_opp_r, Rabs_R0. assumption.
  - replace (x + h - x) with h by ring. lra.
Qed.
(** two functions glued at a threshold *)
Lemma dlim_glue f g thr l : f thr = g thr -> derivable_pt_lim f thr l -> derivable_pt_lim g thr l ->
  derivable_pt_lim (fun x => if Rlt_dec x thr then f x else g x) thr l.
Proof.
  intros E Hf Hg e He. destruct (Hf e He) as [d1 H1]. destruct (Hg e He) as [d2 H2].
  assert (Hm : 0 < Rmin d1 d2) by (apply Rmin_pos; apply cond_pos).
  exists (mkposreal _ Hm). intros h h0 hd. simpl in hd.
  assert (M1 := Rmin_l d1 d2). assert (M2 := Rmin_r d1 d2).
  destruct (Rlt_dec thr thr) as [F|_]; [lra|].
  destruct (Rlt_dec (thr + h) thr).
  - rewrite <- E. apply H1; auto; lra.
  - apply H2; auto; lra.
Qed.
Lemma dlim_split f g thr x l : (x < thr -> derivable_pt_lim f x l) -> (thr < x -> derivable_pt_lim g x l) ->
  (x = thr -> f x = g x /\ derivable_pt_lim f x l /\ derivable_pt_lim g x l) ->
  derivable_pt_lim (fun x => if Rlt_dec x thr then f x else g x) x l.
Proof.
  intros H1 H2 H3. destruct (Rtotal_order x thr) as [L|[E|G]].
  - apply (dlim_local f _ _ _ (thr - x)); [lra| |auto].
    intros y Hy. apply Rabs_def2 in Hy. destruct (Rlt_dec y thr); [reflexivity|lra].
  - subst x. destruct (H3 eq_refl) as (E & A & B). now apply dlim_glue.
  - apply (dlim_local g _ _ _ (x - thr)); [lra| |auto].
    intros y Hy. apply Rabs_def2 in Hy. destruct (Rlt_dec y thr); [lra|reflexivity].
Qed.
Lemma dlim_nln x : 0 < x -> derivable_pt_lim (fun y => - ln y) x (- / x).
Proof. intros H. apply derivable_pt_lim_opp. now apply derivable_pt_lim_ln. Qed.
Lemma dlim_ninv x : x <> 0 -> derivable_pt_lim (fun y => - / y) x (/ (x * x)).
Proof.
  intros H. replace (/ (x * x)) with (- - / (x * x)) by ring. apply derivable_pt_lim_opp.
  apply (dlim_ext (fun y => 1 / y)); [intros; unfold Rdiv; ring|].
  replace (- / (x * x)) with ((0 * x - 1 * 1) / (Rsqr x)) by (unfold Rsqr; field; auto).
  apply (derivable_pt_lim_div (fct_cte 1) id); auto.
  - apply derivable_pt_lim_const.
  - apply derivable_pt_lim_id.
Qed.
Lemma dlim_poly a b c x : derivable_pt_lim (fun y => a * (y * y) + b * y + c) x (2 * a * x + b).
Proof.
  intros e He.
  assert (Hd : 0 < e / (Rabs a + 1)) by (apply Rdiv_lt_0_compat; [assumption|]; pose proof (Rabs_pos a); lra).
  exists (mkposreal _ Hd). intros h h0 hd. simpl in hd.
  replace ((a * ((x + h) * (x + h)) + b * (x + h) + c - (a * (x * x) + b * x + c)) / h - (2 * a * x + b)) with (a * h)
    by (field; assumption).
  rewrite Rabs_mult. pose proof (Rabs_pos a). pose proof (Rabs_pos h).
  assert (Rabs h * (Rabs a + 1) < e); [|nra].
  apply (Rmult_lt_compat_r (Rabs a + 1)) in hd; [|lra]. unfold Rdiv in hd.
  rewrite Rmult_assoc, Rinv_l in hd by lra. lra.
Qed.
Lemma rphi_deriv thr x : 0 < thr -> derivable_pt_lim (rphi thr) x (rphi' thr x).
Proof.
  intros Ht. unfold rphi.
  assert (P : derivable_pt_lim (fun x => / 2 * ((x - 2 * thr) / thr * ((x - 2 * thr) / thr) - 1) - ln thr) x
                ((x - 2 * thr) / (thr * thr))).
  { apply (dlim_ext (fun y => (/ 2 / (thr * thr)) * (y * y) + (- 2 / thr) * y + (3 / 2 - ln thr))).
    { intros y. field. lra. }
    replace ((x - 2 * thr) / (thr * thr)) with (2 * (/ 2 / (thr * thr)) * x + - 2 / thr) by (field; lra).
    apply dlim_poly. }
  unfold rphi'. apply dlim_split.
  - intros H. destruct (Rlt_dec x thr); [assumption|lra].
  - intros H. destruct (Rlt_dec x thr); [lra|]. apply dlim_nln. lra.
  - intros ->. destruct (Rlt_dec thr thr); [lra|].
    replace ((thr - 2 * thr) / (thr * thr)) with (- / thr) in P by (field; lra).
    repeat split; auto; [field; lra|]. now apply dlim_nln.
Qed.
Lemma rphi'_deriv thr x : 0 < thr -> derivable_pt_lim (rphi' thr) x (rphi'' thr x).
Proof.
  intros Ht. unfold rphi'.
  assert (P : derivable_pt_lim (fun x => (x - 2 * thr) / (thr * thr)) x (/ (thr * thr))).
  { apply (dlim_ext (fun y => 0 * (y * y) + / (thr * thr) * y + (- 2 / thr))).
    { intros y. field. lra. }
    assert (P := dlim_poly 0 (/ (thr * thr)) (- 2 / thr) x).
    now rewrite Rmult_0_r, Rmult_0_l, Rplus_0_l in P. }
  unfold rphi''. apply dlim_split.
  - intros H. destruct (Rlt_dec x thr); [assumption|lra].
  - intros H. destruct (Rlt_dec x thr); [lra|]. apply dlim_ninv. lra.
  - intros ->. destruct (Rlt_dec thr thr); [lra|].
    repeat split; auto; [field; lra|]. apply dlim_ninv. lra.
Qed.

(** ** Theorems *)
Lemma make_weights_spec f w w' : make_weights f w = Some w' ->
  w' = w /\ length w = r_nr f /\ Forall (fun a => 0 < a) w.
Proof.
  unfold make_weights. destruct (Nat.eqb_spec (length w) (r_nr f)); [|discriminate].
  destruct (existsb _ w) eqn:X; [discriminate|]. intros H; injection H as <-. repeat split; auto.
  apply Forall_forall. intros a Ha. destruct (Rle_dec a 0) as [L|G]; [|lra].
  assert (existsb (fun a => if Rle_dec a 0 then true else false) w = true); [|congruence].
  apply existsb_exists. exists a. split; auto. destruct (Rle_dec a 0); [reflexivity|lra].
Qed.
Lemma value_length f z : differentiable_at f z -> length (r_eval f z) = r_nr f.
Proof.
  intros (Hz & [HJ _] & D). destruct (D (repeat 0 (r_n f)) (repeat_length _ _)) as [L _].
  specialize (L 0). rewrite along_0, mulv_length in L by (rewrite repeat_length; auto). congruence.
Qed.

(** The constructor accepts exactly the positive weights of the right size (and, for
    the relaxed barrier, a positive threshold). *)
Theorem C39_constructor : forall f w thr,
  (make_weights f w <> None <-> length w = r_nr f /\ Forall (fun a => 0 < a) w)
  /\ (make_relaxed f w thr <> None <-> length w = r_nr f /\ Forall (fun a => 0 < a) w /\ 0 < thr).
Proof.
  intros f w thr.
  assert (W : make_weights f w <> None <-> length w = r_nr f /\ Forall (fun a => 0 < a) w).
  { split.
    - destruct (make_weights f w) eqn:E; [|congruence]. apply make_weights_spec in E. tauto.
    - intros [H1 H2]. unfold make_weights. rewrite H1, Nat.eqb_refl.
      destruct (existsb _ w) eqn:X; [|discriminate]. exfalso.
      apply existsb_exists in X. destruct X as (a & Ha & X). rewrite Forall_forall in H2.
      specialize (H2 a Ha). destruct (Rle_dec a 0); [lra|discriminate]. }
  split; [exact W|]. unfold make_relaxed. destruct (make_weights f w).
  - destruct (Rle_dec thr 0).
    + split; [congruence|]. intros (_ & _ & ?). lra.
    + split; [|discriminate]. intros _. destruct (proj1 W) as [A B]; [discriminate|]. repeat split; auto. lra.
  - split; [congruence|]. intros (A & B & _). exfalso. apply (proj2 W); auto.
Qed.

(** Log barrier: on its domain (positive residuals), for every differentiable
    residual and every previous content of the data, the gradient is the derivative
    of the value. *)
Theorem C39_log_gradient : forall f w w' z d0,
  make_weights f w = Some w' -> differentiable_at f z -> Forall (fun x => 0 < x) (r_eval f z) ->
  gradient_of (fun y => b_val (log_evaluate f w' y d0)) z (b_grad (log_all f w' z d0)).
Proof.
  intros f w w' z d0 Hw Hf Hp. apply make_weights_spec in Hw. destruct Hw as (-> & Lw & _).
  assert (Lv := value_length f z Hf). destruct Hf as (Hz & [HJ HJ'] & D).
  assert (G : forall d, length d = length z ->
     length (b_grad (log_all f w z d0)) = length z /\
     derivable_pt_lim (fun t => b_val (log_evaluate f w (along z d t) d0)) 0 (vdot (b_grad (log_all f w z d0)) d)).
  { intros d Hd. cbn [log_all b_grad log_hessians log_gradients log_evaluate res_v b_val].
    destruct (log_grad_dot d w (r_jac f z) (r_eval f z) (repeat 0 (r_n f))) as [L E]; try congruence.
    { rewrite Hd, Hz. assumption. } { now rewrite repeat_length, Hd. }
    split; [congruence|]. rewrite E, vdot_zero, Rplus_0_l.
    apply (dlim_ext (fun t => vdot w (map (fun x => - ln x) (r_eval f (along z d t))))).
    { intros t. generalize (r_eval f (along z d t)). clear. unfold vdot.
      induction w as [|a w IH]; intros [|x v]; simpl; try ring. rewrite IH. ring. }
    assert (S := sep_deriv (fun x => - ln x) (fun x => - / x) w (fun t => r_eval f (along z d t)) (mulv (r_jac f z) d)).
    cbv beta in S. rewrite along_0 in S by congruence. apply S.
    - rewrite mulv_length. congruence.
    - apply D. congruence.
    - eapply Forall_impl; [|exact Hp]. intros x Hx. now apply dlim_nln. }
  split; [|intros d Hd; now apply G]. apply (G z). reflexivity.
Qed.

(** Relaxed barrier: for every differentiable residual, at every point (threshold
    included). *)
Theorem C39_relaxed_gradient : forall f w w' thr z d0,
  make_relaxed f w thr = Some w' -> differentiable_at f z ->
  gradient_of (fun y => b_val (rel_evaluate f thr w' y d0)) z (b_grad (rel_all f thr w' z d0)).
Proof.
  intros f w w' thr z d0 Hw Hf. unfold make_relaxed in Hw. destruct (make_weights f w) as [w1|] eqn:Hw1; [|discriminate].
  destruct (Rle_dec thr 0); [discriminate|]. injection Hw as ->. assert (Ht : 0 < thr) by lra.
  apply make_weights_spec in Hw1. destruct Hw1 as (-> & Lw & _).
  assert (Lv := value_length f z Hf). destruct Hf as (Hz & [HJ HJ'] & D).
  assert (G : forall d, length d = length z ->
     length (b_grad (rel_all f thr w z d0)) = length z /\
     derivable_pt_lim (fun t => b_val (rel_evaluate f thr w (along z d t) d0)) 0 (vdot (b_grad (rel_all f thr w z d0)) d)).
  { intros d Hd. cbn [rel_all b_grad rel_hessians rel_gradients rel_evaluate res_v b_val].
    destruct (rel_grad_dot thr d Ht w (r_jac f z) (r_eval f z) (repeat 0 (r_n f))) as [L E]; try congruence.
    { rewrite Hd, Hz. assumption. } { now rewrite repeat_length, Hd. }
    split; [congruence|]. rewrite E, vdot_zero, Rplus_0_l.
    destruct (D d ltac:(congruence)) as [Ld Dd]. rewrite mulv_length in Ld.
    apply (dlim_ext (fun t => vdot w (map (rphi thr) (r_eval f (along z d t))))).
    { intros t. rewrite rel_value_sum; [ring|]. rewrite Ld. congruence. }
    assert (S := sep_deriv (rphi thr) (rphi' thr) w (fun t => r_eval f (along z d t)) (mulv (r_jac f z) d)).
    cbv beta in S. rewrite along_0 in S by congruence. apply S.
    - rewrite mulv_length. congruence.
    - apply D. congruence.
    - apply Forall_forall. intros x _. now apply rphi_deriv. }
  split; [|intros d Hd; now apply G]. apply (G z). reflexivity.
Qed.

(** Above the threshold the relaxed barrier is the log barrier. *)
Theorem C39_relaxed_agrees : forall f w thr z d0,
  length w = length (r_eval f z) -> Forall (fun x => thr <= x) (r_eval f z) ->
  b_val (rel_evaluate f thr w z d0) = b_val (log_evaluate f w z d0).
Proof.
  intros f w thr z d0 L H. cbn. rewrite rel_value_sum by assumption.
  revert w L. induction H as [|x v Hx H IH]; intros [|a w] L; try discriminate; unfold vdot; simpl; [ring|].
  unfold rphi at 1. destruct (Rlt_dec x thr); [lra|].
  fold (vdot w (map (rphi thr) v)). fold (vdot w (map ln v)).
  assert (E := IH w ltac:(simpl in *; lia)). lra.
Qed.

(** Log barrier, affine residual: the computed Hessian is minus the derivative of the
    gradient. *)
Theorem C39_log_hessian_negated : forall f w w' J c z d0,
  make_weights f w = Some w' -> affine f J c -> length z = r_n f -> Forall (fun x => 0 < x) (r_eval f z) ->
  hessian_of (fun y => b_grad (log_all f w' y d0)) z (mscale (-1) (b_hess (log_all f w' z d0))).
Proof.
  intros f w w' J c z d0 Hw A Hz Hp. apply make_weights_spec in Hw. destruct Hw as (-> & Lw & _).
  assert (Df := affine_differentiable _ _ _ _ A Hz). assert (Lv := value_length f z Df).
  assert (A' := A). destruct A' as ([HJ HJ'] & Hc & Hf). destruct (Hf z Hz) as [_ EJ].
  assert (G : forall d e, length d = length z -> length e = length z ->
    mat (length z) (length z) (b_hess (log_all f w z d0)) /\
    derivable_pt_lim (fun t => vdot (b_grad (log_all f w (along z d t) d0)) e) 0
      (- vdot (mulv (b_hess (log_all f w z d0)) d) e)).
  { intros d e Hd He. cbn [log_all b_hess b_grad log_hessians log_gradients log_evaluate res_v res_J].
    rewrite EJ, <- Hz.
    destruct (log_hess_quad (length z) d e Hd He w J (r_eval f z) (repeat (repeat 0 (length z)) (length z))) as [M E];
      [rewrite Hz; assumption|apply zero_mat|congruence|congruence|].
    split; [exact M|]. rewrite E, zero_quad, Rplus_0_l.
    apply (dlim_ext (fun t => vdot (zip_with Rmult w (mulv J e)) (map (fun x => - / x) (r_eval f (along z d t))))).
    { intros t. destruct (Hf (along z d t)) as [Et EJt]; [rewrite along_length; congruence|].
      rewrite EJt.
      assert (Lt : length (r_eval f (along z d t)) = length J).
      { rewrite Et. unfold vplus'. rewrite zip_with_length; rewrite mulv_length; congruence. }
      destruct (log_grad_dot e w J (r_eval f (along z d t)) (repeat 0 (length z))) as [_ E'].
      - rewrite He, Hz; assumption.
      - rewrite repeat_length. congruence.
      - congruence.
      - assumption.
      - rewrite E', vdot_zero, Rplus_0_l. assert (Lw' : length w = length J) by congruence.
        revert Lt Lw'. generalize (r_eval f (along z d t)). clear. intros v.
        revert w v; induction J as [|g J IH]; intros [|a w] [|x v] H1 H2; try discriminate; [reflexivity|].
        unfold vdot in *. simpl in *. rewrite IH by lia. ring. }
    assert (S := sep_deriv (fun x => - / x) (fun x => / (x * x)) (zip_with Rmult w (mulv J e))
       (fun t => r_eval f (along z d t)) (mulv J d)).
    cbv beta in S. rewrite along_0 in S by congruence.
    replace (- quad (zip_with Rmult w (map (fun x => - / (x * x)) (r_eval f z))) J d e)
      with (quad (zip_with Rmult w (map (fun x => / (x * x)) (r_eval f z))) J d e).
    2:{ assert (Lw' : length w = length J) by congruence. assert (Lv' : length (r_eval f z) = length J) by congruence.
        revert Lw' Lv'. generalize (r_eval f z). clear. intros v. revert w v; induction J as [|g J IH];
        intros [|a w] [|x v] H1 H2; try discriminate; simpl in *; [ring|]. rewrite IH by lia. ring. }
    rewrite quad_vdot by (rewrite ?map_length; congruence). apply S.
    - rewrite mulv_length, zip_with_length; rewrite ?mulv_length; congruence.
    - eapply affine_along; eauto; congruence.
    - eapply Forall_impl; [|exact Hp]. intros x Hx. apply dlim_ninv. simpl in Hx. lra. }
  split.
  - destruct (G z z eq_refl eq_refl) as [[M1 M2] _]. split; [unfold mscale; now rewrite map_length|].
    unfold mscale. apply Forall_forall. intros r Hr. apply in_map_iff in Hr. destruct Hr as (b & <- & Hb).
    rewrite vscale_len. rewrite Forall_forall in M2. now apply M2.
  - intros d e Hd He. destruct (G d e Hd He) as [_ D].
    replace (vdot (mulv (mscale (-1) (b_hess (log_all f w z d0))) d) e) with (- vdot (mulv (b_hess (log_all f w z d0)) d) e); [exact D|].
    transitivity (vdot (vscale (-1) (mulv (b_hess (log_all f w z d0)) d)) e); [rewrite vdot_scale; ring|].
    f_equal. unfold mulv, mscale. unfold vscale at 1. rewrite !map_map. apply map_ext. intros r. now rewrite vdot_scale.
Qed.

(** Relaxed barrier, affine residual. *)
Lemma relaxed_hessian : forall f w w' thr J c z d0,
  make_relaxed f w thr = Some w' -> affine f J c -> length z = r_n f ->
  zip_with (rcode thr) w' (r_eval f z) = zip_with Rmult w' (map (rphi'' thr) (r_eval f z)) ->
  hessian_of (fun y => b_grad (rel_all f thr w' y d0)) z (b_hess (rel_all f thr w' z d0)).
Proof.
  intros f w w' thr J c z d0 Hw A Hz Hcode. unfold make_relaxed in Hw. destruct (make_weights f w) as [w1|] eqn:Hw1; [|discriminate].
  destruct (Rle_dec thr 0); [discriminate|]. injection Hw as ->. assert (Ht : 0 < thr) by lra.
  apply make_weights_spec in Hw1. destruct Hw1 as (-> & Lw & _).
  assert (Df := affine_differentiable _ _ _ _ A Hz). assert (Lv := value_length f z Df).
  assert (A' := A). destruct A' as ([HJ HJ'] & Hc & Hf). destruct (Hf z Hz) as [_ EJ].
  assert (G : forall d e, length d = length z -> length e = length z ->
    mat (length z) (length z) (b_hess (rel_all f thr w z d0)) /\
    derivable_pt_lim (fun t => vdot (b_grad (rel_all f thr w (along z d t) d0)) e) 0
      (vdot (mulv (b_hess (rel_all f thr w z d0)) d) e)).
  { intros d e Hd He. cbn [rel_all b_hess b_grad rel_hessians rel_gradients rel_evaluate res_v res_J].
    rewrite EJ, <- Hz.
    destruct (rel_hess_quad thr (length z) d e Hd He w J (r_eval f z) (repeat (repeat 0 (length z)) (length z))) as [M E];
      [rewrite Hz; assumption|apply zero_mat|congruence|congruence|].
    split; [exact M|]. rewrite E, zero_quad, Rplus_0_l, Hcode.
    apply (dlim_ext (fun t => vdot (zip_with Rmult w (mulv J e)) (map (rphi' thr) (r_eval f (along z d t))))).
    { intros t. destruct (Hf (along z d t)) as [Et EJt]; [rewrite along_length; congruence|].
      rewrite EJt.
      assert (Lt : length (r_eval f (along z d t)) = length J).
      { rewrite Et. unfold vplus'. rewrite zip_with_length; rewrite mulv_length; congruence. }
      destruct (rel_grad_dot thr e Ht w J (r_eval f (along z d t)) (repeat 0 (length z))) as [_ E'].
      - rewrite He, Hz; assumption.
      - rewrite repeat_length. congruence.
      - congruence.
      - assumption.
      - rewrite E', vdot_zero, Rplus_0_l. assert (Lw' : length w = length J) by congruence.
        revert Lt Lw'. generalize (r_eval f (along z d t)). clear. intros v.
        revert w v; induction J as [|g J IH]; intros [|a w] [|x v] H1 H2; try discriminate; [reflexivity|].
        unfold vdot in *. simpl in *. rewrite IH by lia. ring. }
    assert (S := sep_deriv (rphi' thr) (rphi'' thr) (zip_with Rmult w (mulv J e))
       (fun t => r_eval f (along z d t)) (mulv J d)).
    cbv beta in S. rewrite along_0 in S by congruence.
    rewrite quad_vdot by (rewrite ?map_length; congruence). apply S.
    - rewrite mulv_length, zip_with_length; rewrite ?mulv_length; congruence.
    - eapply affine_along; eauto; congruence.
    - apply Forall_forall. intros x _. now apply rphi'_deriv. }
  split; [apply (G z z eq_refl eq_refl)|]. intros d e Hd He. now apply G.
Qed.
(** The derivative of the gradient has coefficient w_i/thr^2 below the threshold and
    w_i/v_i^2 above; the code uses w_i^2 (v_i - 2 thr)^2/thr^4 and w_i^2/v_i^2.  It is
    the Hessian where these agree: unit weights above the threshold, and
    w_i (v_i - 2 thr)^2 = thr^2 below.  Missing: all other weights and points, where
    the claim is false (C39_relaxed_hessian_refuted). *)
Theorem C39_relaxed_hessian_partial : forall f w w' thr J c z d0,
  make_relaxed f w thr = Some w' -> affine f J c -> length z = r_n f ->
  Forall2 (fun a x => thr <= x /\ a = 1 \/ x < thr /\ a * ((x - 2 * thr) * (x - 2 * thr)) = thr * thr)
    w (r_eval f z) ->
  hessian_of (fun y => b_grad (rel_all f thr w' y d0)) z (b_hess (rel_all f thr w' z d0)).
Proof.
  intros f w w' thr J c z d0 Hw A Hz Hp. eapply relaxed_hessian; eauto.
  unfold make_relaxed in Hw. destruct (make_weights f _) as [w1|] eqn:Hw1; [|discriminate].
  destruct (Rle_dec thr 0) as [|Ht]; [discriminate|]. injection Hw as ->.
  apply make_weights_spec in Hw1. destruct Hw1 as (-> & _ & _).
  induction Hp as [|a x w v Hx Hp IH]; simpl; auto. f_equal; [|apply IH].
  unfold rcode, rphi''. destruct Hx as [[H1 ->]|[H1 H2]]; destruct (Rlt_dec x thr); try lra.
  replace (a * a * ((x - 2 * thr) / (thr * thr)) * ((x - 2 * thr) / (thr * thr)))
    with (a * (a * ((x - 2 * thr) * (x - 2 * thr))) / (thr * thr * (thr * thr))) by (field; lra).
  rewrite H2. field. lra.
Qed.

(** ** Examples and refutations *)
(** identity residual in one dimension *)
Definition id1 : rfun := RFun 1 1 (fun z => z) (fun _ => [[1]]).
Definition bd0 : bdata := BData [] [] 7 [5] [[3]].
Lemma id1_affine : affine id1 [[1]] [0].
Proof.
  split; [split; [reflexivity|repeat constructor]|]. split; [reflexivity|].
  intros [|x [|y z]] H; try discriminate. split; [|reflexivity]. unfold vplus', mulv, vdot. simpl. f_equal. ring.
Qed.
Lemma id1_weights w : 0 < w -> make_weights id1 [w] = Some [w].
Proof. intros H. unfold make_weights. simpl. destruct (Rle_dec w 0); [lra|reflexivity]. Qed.
Lemma id1_relaxed w thr : 0 < w -> 0 < thr -> make_relaxed id1 [w] thr = Some [w].
Proof. intros H Ht. unfold make_relaxed. rewrite id1_weights by assumption. destruct (Rle_dec thr 0); [lra|reflexivity]. Qed.

(** -log z at z = 1: the second derivative is 1, the code writes -1. *)
Theorem C39_log_hessian_refuted : exists f w J c z d0,
  make_weights f w = Some w /\ affine f J c /\ length z = r_n f /\ Forall (fun x => 0 < x) (r_eval f z) /\
  ~ hessian_of (fun y => b_grad (log_all f w y d0)) z (b_hess (log_all f w z d0)).
Proof.
  exists id1, [1], [[1]], [0], [1], bd0.
  assert (P : Forall (fun x => 0 < x) (r_eval id1 [1])) by (repeat constructor; lra).
  assert (W := id1_weights 1 Rlt_0_1).
  split; [exact W|]. split; [apply id1_affine|]. split; [reflexivity|]. split; [exact P|].
  intros [_ H]. destruct (C39_log_hessian_negated id1 [1] [1] _ _ [1] bd0 W id1_affine eq_refl P) as [_ N].
  assert (U := uniqueness_limite _ _ _ _ (H [1] [1] eq_refl eq_refl) (N [1] [1] eq_refl eq_refl)).
  revert U. cbn. unfold vdot; simpl. lra.
Qed.

(** Relaxed barrier with weight 2 above the threshold: coefficient 4 instead of 2. *)
Lemma rel_hess_1 w thr x : 0 < w -> 0 < thr ->
  hessian_of (fun y => b_grad (rel_all id1 thr [w] y bd0)) [x] (b_hess (rel_all id1 thr [w] [x] bd0)) ->
  rcode thr w x = w * rphi'' thr x.
Proof.
  intros Hw Ht [_ H]. specialize (H [1] [1] eq_refl eq_refl).
  assert (D : derivable_pt_lim (fun t => vdot (b_grad (rel_all id1 thr [w] (along [x] [1] t) bd0)) [1]) 0 (w * rphi'' thr x)).
  { apply (dlim_ext (fun t => w * rphi' thr (x + t))).
    { intros t. cbn. unfold vdot, rphi'. simpl. replace (x + t * 1) with (x + t) by ring.
      destruct (Rlt_dec (x + t) thr); simpl; field; lra. }
    apply derivable_pt_lim_scal. replace (rphi'' thr x) with (rphi'' thr x * 1) by ring.
    apply (derivable_pt_lim_comp (fun t => x + t) (rphi' thr)).
    - replace 1 with (0 + 1) by ring. apply derivable_pt_lim_plus; [apply derivable_pt_lim_const|apply derivable_pt_lim_id].
    - rewrite Rplus_0_r. now apply rphi'_deriv. }
  assert (U := uniqueness_limite _ _ _ _ H D). rewrite <- U. cbn. unfold vdot, rcode. simpl.
  destruct (Rlt_dec x thr); simpl; field; lra.
Qed.
Theorem C39_relaxed_hessian_refuted :
  (exists w thr z, make_relaxed id1 [w] thr = Some [w] /\ thr < z /\
     ~ hessian_of (fun y => b_grad (rel_all id1 thr [w] y bd0)) [z] (b_hess (rel_all id1 thr [w] [z] bd0))) /\
  (exists thr z, make_relaxed id1 [1] thr = Some [1] /\ 0 < z < thr /\
     ~ hessian_of (fun y => b_grad (rel_all id1 thr [1] y bd0)) [z] (b_hess (rel_all id1 thr [1] [z] bd0))).
Proof.
  split.
  - exists 2, (/ 2), 1. split; [apply id1_relaxed; lra|]. split; [lra|]. intros H.
    apply rel_hess_1 in H; [|lra|lra]. revert H. unfold rcode, rphi''. destruct (Rlt_dec 1 (/ 2)); lra.
  - exists 1, (/ 2). split; [apply id1_relaxed; lra|]. split; [lra|]. intros H.
    apply rel_hess_1 in H; [|lra|lra]. revert H. unfold rcode, rphi''. destruct (Rlt_dec (/ 2) 1); lra.
Qed.

(** the hypotheses of the theorems hold for -2 log(z) at z = 3, and at the threshold *)
Example C39_example :
  gradient_of (fun y => b_val (log_evaluate id1 [2] y bd0)) [3] (b_grad (log_all id1 [2] [3] bd0)) /\
  gradient_of (fun y => b_val (rel_evaluate id1 3 [2] y bd0)) [3] (b_grad (rel_all id1 3 [2] [3] bd0)) /\
  gradient_of (fun y => b_val (rel_evaluate id1 3 [2] y bd0)) [-1] (b_grad (rel_all id1 3 [2] [-1] bd0)) /\
  hessian_of (fun y => b_grad (rel_all id1 (/ 2) [1] y bd0)) [3] (b_hess (rel_all id1 (/ 2) [1] [3] bd0)).
Proof.
  split; [|split; [|split]].
  - eapply C39_log_gradient; [apply id1_weights; lra|eapply affine_differentiable; [apply id1_affine|reflexivity]|].
    repeat constructor; lra.
  - eapply C39_relaxed_gradient; [apply id1_relaxed; lra|eapply affine_differentiable; [apply id1_affine|reflexivity]].
  - eapply C39_relaxed_gradient; [apply id1_relaxed; lra|eapply affine_differentiable; [apply id1_affine|reflexivity]].
  - eapply C39_relaxed_hessian_partial; [apply id1_relaxed; lra|apply id1_affine|reflexivity|].
    repeat constructor; lra.
Qed.

Print Assumptions C39_constructor.
Print Assumptions C39_log_gradient.
Print Assumptions C39_relaxed_gradient.
Print Assumptions C39_relaxed_agrees.
Print Assumptions C39_log_hessian_negated.
Print Assumptions C39_relaxed_hessian_partial.
Print Assumptions C39_log_hessian_refuted.
Print Assumptions C39_relaxed_hessian_refuted.
