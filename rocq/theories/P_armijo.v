(** Properties C07, C08 (Armijo line search). *)
From Coq Require Import Reals List Bool Arith Lra.
From Verif Require Import ArmijoModel ArmijoProofs.
Import ListNotations.
Local Open Scope R_scope.

(** C07a: whatever the merit function does (it may raise on any step) and
    whatever the QR solver returns on singular systems, the step is in
    [alpha_min, 1]. *)
Theorem C07_step_range : forall qs o, sane o -> forall phi fuel phi0 dphi0 v a,
  run qs o phi fuel phi0 dphi0 = Some (v, a) -> alpha_min o <= a <= 1.
Proof. exact run_step_range. Qed.
Print Assumptions C07_step_range.

(** C07b: for a merit that never raises, the returned value is the merit at a
    step [b]; the returned step is [b] itself except with cubic interpolation,
    where it may be [b] clamped to [alpha_min]; and Armijo's condition holds at
    [b], or the step is minimal, or the slope is below the threshold, or the
    budget of steps is exhausted with all steps rejected. *)
Theorem C07_total_merit_partial : forall qs o, sane o -> forall phi, (forall a, phi a <> None) ->
  forall fuel phi0 dphi0 v a,
  alpha_min o < 1 -> 0 < dphi_thresh o ->
  run qs o phi fuel phi0 dphi0 = Some (v, a) ->
  exists b, phi b = Some v /\ a = Rmax b (alpha_min o) /\
    (interp_type o <> CUBIC -> a = b) /\
    ((Rabs dphi0 < dphi_thresh o /\ a = 1) \/
     armijo_ok o phi0 dphi0 v b \/ a = alpha_min o \/
     exists steps, length steps = max_num_steps o /\ last steps 1 = b /\
       Forall (fun b => exists w, phi b = Some w /\ ~ armijo_ok o phi0 dphi0 w b)
         (removelast (1 :: steps))).
Proof. exact run_total. Qed.
Print Assumptions C07_total_merit_partial.

Example C07_witness :
  sane (bis_opts 2) /\
  run qs0 (bis_opts 2) (fun a => Some (a * a - a)) 3 0 (-1) = Some (1 / 2 * (1 / 2) - 1 / 2, 1 / 2).
Proof.
  split; [repeat split; simpl; lra|].
  unfold run. cbn [first_loop].
  cbn [dphi_thresh max_num_steps main_loop s_phi mk_sample armijo_c1 bis_opts].
  rewrite Rabs_left by lra.
  destruct (Rlt_dec (- -1) (1 / 1000)); [lra|].
  destruct (Rle_dec (1 * 1 - 1 - 0) (1 / 10 * 1 * -1)); [lra|].
  unfold next_alpha. cbn [interp_type bis_opts alpha_min].
  rewrite (Rmax_left (1 * / 2)) by lra.
  destruct (Rle_dec (1 * / 2) (1 / 4)); [lra|]. simpl s_phi.
  destruct (Rle_dec (1 * / 2 * (1 * / 2) - 1 * / 2 - 0) (1 / 10 * (1 * / 2) * -1)); [|lra].
  rewrite (Rmax_left (1 * / 2)) by lra. unfold Rdiv. rewrite !Rmult_1_l. reflexivity.
Qed.

(** C07, finding: when every trial raises, the search returns the value 0,
    which nothing evaluated, at the minimum step (here with [phi0 = 5] this
    even looks like sufficient decrease). *)
Theorem C07_value_evaluated_refuted :
  run qs0 (bis_opts 3) (fun _ => None) 10 5 (-1) = Some (0, 1 / 4).
Proof. exact run_all_raise. Qed.
Print Assumptions C07_value_evaluated_refuted.

(** C07, finding: a raise in the main loop leaves the returned value and the
    returned step out of step. *)
Theorem C07_value_at_step_refuted :
  let phi := fun a => if Req_EM_T a 1 then Some 10 else None in
  exists v a, run qs0 (bis_opts 1) phi 10 5 (-1) = Some (v, a) /\
    a = 1 / 2 /\ v = 10 /\ phi a = None.
Proof. exact run_stale_value. Qed.
Print Assumptions C07_value_at_step_refuted.

(** C07c: the search terminates. *)
Theorem C07_terminates : forall qs o phi phi0 dphi0, 0 < alpha_min o ->
  exists N, forall fuel, (N <= fuel)%nat -> run qs o phi fuel phi0 dphi0 <> None.
Proof. exact run_terminates. Qed.
Print Assumptions C07_terminates.

(** C08a: the step proposed by any interpolation lies in the safeguard
    interval. *)
Theorem C08_interpolation_range : forall qs strat phi0 dphi0 l p lo hi x, lo <= hi ->
  minimize_interpolant qs strat phi0 dphi0 l p lo hi = Fin x -> lo <= x <= hi.
Proof. exact minimize_range. Qed.
Print Assumptions C08_interpolation_range.

(** C08, fall-back: the proposal is kept when it is inside the interval; otherwise the edge where
    the interpolating polynomial is not larger than at the other one is taken. *)
Theorem C08_fallback_edge : forall qs phi0 dphi0 l lo hi,
  (forall x, fst (quadratic_proposal phi0 dphi0 l lo hi) = Fin x -> lo <= x <= hi ->
     minimize_interpolant qs QUADRATIC phi0 dphi0 l None lo hi = Fin x) /\
  (forall x, s_alpha l <> 0 -> fst (quadratic_proposal phi0 dphi0 l lo hi) = Fin x -> x < lo \/ hi < x ->
     let a := (s_phi l - phi0 - s_alpha l * dphi0) / (s_alpha l * s_alpha l) in
     let q t := phi0 + dphi0 * t + a * t * t in
     exists e, minimize_interpolant qs QUADRATIC phi0 dphi0 l None lo hi = Fin e /\
       ((e = lo /\ q lo < q hi) \/ (e = hi /\ q hi <= q lo))).
Proof.
  intros qs phi0 dphi0 l lo hi. split.
  - intros x E Hx. unfold minimize_interpolant, safeguard. rewrite E.
    destruct (Rlt_dec hi x); [lra|]. destruct (Rlt_dec x lo); [lra|]. reflexivity.
  - intros x Hl E Hx a q. unfold minimize_interpolant, safeguard. rewrite E.
    assert (S2 : snd (quadratic_proposal phi0 dphi0 l lo hi) = if Rlt_dec (q lo) (q hi) then true else false).
    { unfold quadratic_proposal in *. unfold ediv in E |- * at 1.
      assert (N : s_alpha l * s_alpha l <> 0) by (apply Rmult_integral_contrapositive_currified; auto).
      destruct (Req_EM_T (s_alpha l * s_alpha l) 0); [contradiction|]. cbn [fst snd].
      assert (P : forall t, poly_eval [(s_phi l - phi0 - s_alpha l * dphi0) / (s_alpha l * s_alpha l); dphi0; phi0] t = q t).
      { intros t. unfold poly_eval, q, a. simpl. field. auto. }
      rewrite !P. reflexivity. }
    rewrite S2. destruct (Rlt_dec (q lo) (q hi)) as [Q1|Q1].
    + exists lo. destruct (Rlt_dec hi x); [|destruct (Rlt_dec x lo); [|lra]]; auto.
    + exists hi. apply Rnot_lt_le in Q1. destruct (Rlt_dec hi x); [|destruct (Rlt_dec x lo); [|lra]]; auto.
Qed.
Print Assumptions C08_fallback_edge.

(** C08b: the quadratic proposal is the stationary point of the quadratic
    matching [phi0], [dphi0] and the last sample. *)
Theorem C08_quadratic_interpolation : forall phi0 dphi0 l lo hi x,
  s_alpha l <> 0 ->
  fst (quadratic_proposal phi0 dphi0 l lo hi) = Fin x ->
  exists q, (forall t, q t = phi0 + dphi0 * t + (q 1 - phi0 - dphi0) * (t * t)) /\
    q 0 = phi0 /\ derivable_pt_lim q 0 dphi0 /\ q (s_alpha l) = s_phi l /\
    derivable_pt_lim q x 0.
Proof. exact quadratic_correct. Qed.
Print Assumptions C08_quadratic_interpolation.

Example C08_quadratic_witness :
  fst (quadratic_proposal 0 (-1) (mk_sample 1 0) (1/10) (9/10)) = Fin (1 / 2).
Proof.
  unfold quadratic_proposal, ediv. simpl.
  destruct (Req_EM_T (1 * 1) 0); [lra|]. simpl.
  destruct (Req_EM_T (2 * ((0 - 0 - 1 * -1) / (1 * 1))) 0); [lra|].
  simpl. f_equal. field.
Qed.

(** C08c: [derivative] of the polynomial helper is its derivative. *)
Theorem C08_polynomial_derivative : forall c x, c <> [] ->
  derivable_pt_lim (poly_eval c) x (poly_eval (poly_derivative c) x).
Proof. exact poly_derivative_correct. Qed.
Print Assumptions C08_polynomial_derivative.

(** C08, finding: the cubic does not match the two samples; the two right-hand
    sides are exchanged in the linear system. *)
Theorem C08_cubic_interpolation_refuted :
  let c0 := mk_sample (1 / 2) 3 in let c1 := mk_sample 1 7 in
  let '(c3, c2) := cubic_coeffs 0 (-1) c0 c1 in
  poly_eval [c3; c2; -1; 0] (1 / 2) <> 3 /\ poly_eval [c3; c2; -1; 0] 1 <> 7.
Proof. exact cubic_misses_samples. Qed.
Print Assumptions C08_cubic_interpolation_refuted.

(** ... and what it matches instead, in general. *)
Theorem C08_cubic_exchanged : forall phi0 dphi0 c0 c1,
  cubic_det (s_alpha c0) (s_alpha c1) <> 0 ->
  let '(c3, c2) := cubic_coeffs phi0 dphi0 c0 c1 in
  let p := poly_eval [c3; c2; dphi0; phi0] in
  p (s_alpha c0) - phi0 - dphi0 * s_alpha c0 = s_phi c1 - phi0 - dphi0 * s_alpha c1 /\
  p (s_alpha c1) - phi0 - dphi0 * s_alpha c1 = s_phi c0 - phi0 - dphi0 * s_alpha c0.
Proof. exact cubic_swapped. Qed.
Print Assumptions C08_cubic_exchanged.

(** C08d: the cubic proposal is the stationary point (local minimum) of the
    cubic built. *)
Theorem C08_cubic_stationary : forall qs phi0 dphi0 c0 c1 lo hi x,
  cubic_det (s_alpha c0) (s_alpha c1) <> 0 ->
  fst (cubic_proposal qs phi0 dphi0 c0 c1 lo hi) = Fin x ->
  let '(c3, c2) := cubic_coeffs phi0 dphi0 c0 c1 in
  derivable_pt_lim (poly_eval [c3; c2; dphi0; phi0]) x 0 /\ 0 <= 6 * c3 * x + 2 * c2.
Proof. exact cubic_stationary. Qed.
Print Assumptions C08_cubic_stationary.
