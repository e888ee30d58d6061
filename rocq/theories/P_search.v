(** Properties C09 (nonmonotone search), C10 (Goldstein search), C11
    (Newton-Raphson). *)
From Coq Require Import QArith Qminmax Qabs List Bool Arith Lia Lqa.
From Verif Require Import SearchModel SearchProofs.
Import ListNotations.
Local Open Scope Q_scope.

(** C09a: normal return of the nonmonotone search; the merit may raise on any
    step. *)
Theorem C09_nonmonotone_run : forall avg_eta beta c1 alpha_min f fuel s phi0 dphi0 a v a' s',
  0 < beta -> beta <= 1 -> a <= 1 -> alpha_min <= 1 ->
  nm_run avg_eta beta c1 alpha_min f fuel s phi0 dphi0 a = Returned v a' s' ->
  s' = nm_update avg_eta s phi0 /\
  f a' = Some v /\ alpha_min <= a' /\ a' <= 1 /\
  (v <= mov_avg s' + c1 * a' * dphi0 \/ a' == alpha_min).
Proof.
  intros. unfold nm_run in *. pose proof H3 as H4. apply nm_loop_spec in H4; auto.
  destruct H4 as (-> & ?). auto.
Qed.
Print Assumptions C09_nonmonotone_run.

Theorem C09_nonmonotone_terminates : forall avg_eta beta c1 alpha_min f s phi0 dphi0 a,
  0 < beta -> beta < 1 -> 0 < a -> 0 < alpha_min ->
  exists N, forall fuel, (N <= fuel)%nat ->
    nm_run avg_eta beta c1 alpha_min f fuel s phi0 dphi0 a <> NoFuel.
Proof. exact nm_terminates. Qed.
Print Assumptions C09_nonmonotone_terminates.

(** C09b: after any history of calls and resets, the reference value is the
    average, with geometric weights, of the merit values since the last reset;
    it is between any bounds of these values. *)
Theorem C09_reference : forall eta ops lo hi, 0 <= eta -> seen [] ops <> [] ->
  (forall x, In x (seen [] ops) -> lo <= x /\ x <= hi) ->
  let m := mov_avg (fold_left (nm_step eta) ops nm_init) in
  lo <= m /\ m <= hi /\ m * wtot eta (seen [] ops) == wsum eta (seen [] ops).
Proof. exact nm_reference_bounds. Qed.
Print Assumptions C09_reference.

(** raises at 1, rejected at 1/2, accepted at 1/4; reference after a reset *)
Example C09_witness :
  let f := fun a => if Qle_bool 1 a then None else Some (16 * a * a) in
  let ops := [NmCall 7; NmReset; NmCall 3; NmCall 1] in
  let s := fold_left (nm_step (17#20)) ops nm_init in
  seen [] ops = [1; 3] /\ mov_avg s == (71#37) /\
  exists v a s', nm_run (17#20) (1#2) (1#10) (1#100) f 10 s 2 (-1) 1 = Returned v a s' /\
    a == (1#4) /\ v == 1.
Proof.
  simpl. split; auto. split; [reflexivity|].
  do 3 eexists. split; [vm_compute; reflexivity|]. split; reflexivity.
Qed.

(** The Goldstein condition at a step with merit [v]: where the model predicts a decrease, a flat
    slope or a sufficient part of that decrease; elsewhere a bounded increase. *)
Definition goldstein_ok (th_grad th_accept th_neg : Q) (model : Q -> Q) (phi0 d1 v a : Q) : Prop :=
  (model a < phi0 /\ (Qabs d1 < th_grad \/ v - phi0 <= th_accept * (model a - phi0))) \/
  (phi0 <= model a /\ v - phi0 <= th_neg * (model a - phi0)).
Lemma gs_accept_iff th_grad th_accept th_neg model phi0 d1 v a :
  gs_accept th_grad th_accept th_neg model phi0 d1 v a = true <->
  goldstein_ok th_grad th_accept th_neg model phi0 d1 v a.
Proof.
  unfold gs_accept, goldstein_ok. cbv zeta.
  assert (A : (if Qle_bool 0 d1 then d1 else - d1) == Qabs d1).
  { destruct (Qle_bool 0 d1) eqn:E.
    - apply Qle_bool_iff in E. rewrite Qabs_pos; [reflexivity|exact E].
    - rewrite Qabs_neg; [reflexivity|]. destruct (Qlt_le_dec d1 0) as [L|L]; [lra|].
      apply Qle_bool_iff in L. congruence. }
  destruct (Qle_bool 0 (model a - phi0)) eqn:E; cbn [negb].
  - apply Qle_bool_iff in E. rewrite Qle_bool_iff. split; [right; split; [lra|assumption]|].
    intros [[L _]|[_ L]]; [lra|exact L].
  - assert (L : model a < phi0).
    { destruct (Qlt_le_dec (model a) phi0) as [L|L]; [exact L|]. exfalso.
      assert (X : 0 <= model a - phi0) by lra. apply Qle_bool_iff in X. congruence. }
    rewrite orb_true_iff, negb_true_iff, Qle_bool_iff. split.
    + intros [H|H]; left; (split; [exact L|]); [left|right; exact H].
      destruct (Qlt_le_dec (Qabs d1) th_grad) as [M|M]; [exact M|]. rewrite <- A in M.
      apply Qle_bool_iff in M. congruence.
    + intros [[_ [H|H]]|[H _]]; [left|right; exact H|lra].
      apply not_true_is_false. intros M. apply Qle_bool_iff in M. rewrite A in M. lra.
Qed.

(** C10 (part): for a merit that never raises the step is at least alpha_min;
    either the step was accepted, the returned value is the merit at it and the
    trial trajectory is the one of this step; or the step is below
    alpha_min+eps and the returned value (and trial trajectory) is that of the
    last step tried, which was rejected.  Missing from the full property: the
    second case does not return the value at the returned step (refuted below). *)
Theorem C10_goldstein_total_partial :
  forall beta alpha_min eps th_grad th_accept th_neg phi model phi0 d1,
  (forall a, phi a <> None) -> forall fuel v a t,
  0 < beta -> beta < 1 -> 0 <= alpha_min -> alpha_min <= 1 -> 0 < eps ->
  goldstein beta alpha_min eps th_grad th_accept th_neg phi model phi0 d1 fuel = Returned v a t ->
  alpha_min <= a /\ a <= 1 /\
  ((phi a = Some v /\ goldstein_ok th_grad th_accept th_neg model phi0 d1 v a /\
    t = Some (a, true)) \/
   (a < alpha_min + eps /\
    match t with
    | None => v = phi0
    | Some (b, c) => c = true /\ phi b = Some v /\ alpha_min + eps <= b /\
        ~ goldstein_ok th_grad th_accept th_neg model phi0 d1 v b
    end)).
Proof.
  intros. unfold goldstein in *.
  assert (H6 := H5). eapply gs_loop_spec in H6; eauto; try lra. destruct H6 as (_ & H6 & _).
  eapply gs_loop_total in H5; eauto; try lra.
  rewrite gs_accept_iff in H5. destruct H5 as [A B]. split; [exact A|]. split; [exact H6|].
  destruct B as [B|[B C]]; [left; exact B|right; split; [exact B|]]. destruct t as [[b c]|]; [|exact C].
  destruct C as (C1 & C2 & C3 & C4). repeat split; auto. rewrite <- gs_accept_iff, C4. discriminate.
Qed.
Print Assumptions C10_goldstein_total_partial.

(** C10: every merit (raising or not). *)
Theorem C10_goldstein_any_partial :
  forall beta alpha_min eps th_grad th_accept th_neg phi model phi0 d1 fuel v a t,
  0 < beta -> beta < 1 -> 0 <= alpha_min -> alpha_min <= 1 ->
  goldstein beta alpha_min eps th_grad th_accept th_neg phi model phi0 d1 fuel = Returned v a t ->
  0 < a /\ a <= 1 /\
  ((alpha_min + eps <= a /\ phi a = Some v /\
    goldstein_ok th_grad th_accept th_neg model phi0 d1 v a /\ t = Some (a, true)) \/
   (a < alpha_min + eps /\ (v = phi0 \/ exists b, alpha_min + eps <= b /\ phi b = Some v))).
Proof.
  intros. unfold goldstein in *. rewrite <- gs_accept_iff. eapply gs_loop_spec in H3; eauto; lra.
Qed.
Print Assumptions C10_goldstein_any_partial.

Theorem C10_goldstein_terminates :
  forall beta alpha_min eps th_grad th_accept th_neg phi model phi0 d1,
  0 < beta -> beta < 1 -> 0 < eps -> 0 <= alpha_min ->
  exists N, forall fuel, (N <= fuel)%nat ->
    goldstein beta alpha_min eps th_grad th_accept th_neg phi model phi0 d1 fuel <> NoFuel.
Proof. exact goldstein_terminates. Qed.
Print Assumptions C10_goldstein_terminates.

(** An accepted step after one rejection. *)
Example C10_witness :
  exists v, goldstein (1#2) (1#10) (1#1000) (1#1000) (1#10) 2
    (fun a => Some (4 * a * a - 3 * a)) (fun a => - a) 0 (-1) 10 = Returned v (1#2) (Some (1#2, true))
  /\ v == -(1#2).
Proof. eexists. split; vm_compute; reflexivity. Qed.

(** C10, finding: with no raise at all, the value returned is not the merit at
    the step returned, and the trial trajectory is that of another step. *)
Theorem C10_value_at_step_refuted : exists v a b,
  goldstein (1#2) (1#4) (1#1000) (1#1000) (1#10) 2
    (fun a => Some (10 * a)) (fun a => - a) 0 (-1) 10 = Returned v a (Some (b, true)) /\
  a == (1#4) /\ b == (1#2) /\ ~ v == 10 * a.
Proof.
  do 3 eexists. split; [vm_compute; reflexivity|]. repeat split; try reflexivity.
  intro H. discriminate H.
Qed.
Print Assumptions C10_value_at_step_refuted.

(** C10, finding: when evaluations raise, the step may fall below alpha_min and
    the value returned is the initial one. *)
Theorem C10_step_range_refuted : exists v a t,
  goldstein (1#2) (3#10) (1#1000) (1#1000) (1#10) 2
    (fun _ => None) (fun a => - a) 5 (-1) 10 = Returned v a t /\
  a < (3#10) /\ v == 5 /\ exists b, t = Some (b, false).
Proof.
  do 3 eexists. split; [vm_compute; reflexivity|]. split; [reflexivity|]. split; [reflexivity|].
  eexists; reflexivity.
Qed.
Print Assumptions C10_step_range_refuted.

(** C11: for any residual function, norm (with NaN), direction and
    retraction: [true] exactly when the residual norm at the returned point is
    finite and at most [eps]; at most [max_iters] Newton steps; successive
    iterates keep the point or decrease the residual by the factor 1-c1. *)
Theorem C11_newton_certificate :
  forall X V D func nrm dir move eps alpha_min ls_beta c1 fuel max_iters xinit b r tr,
  0 < ls_beta -> ls_beta <= 1 -> 0 <= alpha_min ->
  nr_run X V D func nrm dir move eps alpha_min ls_beta c1 fuel max_iters xinit = Some (b, r, tr) ->
  (b = true <-> exists e, nrm (func (xout r)) = Some e /\ e <= eps) /\
  (length tr <= S max_iters)%nat /\ (b = false -> length tr = S max_iters) /\
  chain X V D dir move alpha_min c1 tr /\
  (exists tl, tr = Nr xinit (func xinit) (nrm (func xinit)) :: tl) /\ (exists l, tr = l ++ [r]).
Proof.
  intros X V D func nrm dir move eps am lb c1 fuel mi xinit b r tr H1 H2 H3 H4.
  unfold nr_run in H4.
  apply nr_loop_spec in H4; auto; [|reflexivity].
  destruct H4 as (Hok & B & C & D' & E & F & G). split; auto.
  rewrite B. unfold nr_ok in Hok. rewrite <- Hok. unfold le_nan.
  destruct (err r) as [e|]; split; intros K; try discriminate.
  - exists e. split; auto. apply Qle_bool_iff; auto.
  - destruct K as (e' & K1 & K2). inversion K1; subst. apply Qle_bool_iff; auto.
  - destruct K as (e' & K1 & K2). discriminate.
Qed.
Print Assumptions C11_newton_certificate.

Theorem C11_newton_terminates :
  forall X V D func nrm dir move eps alpha_min ls_beta c1 max_iters xinit,
  0 < ls_beta -> ls_beta < 1 -> 0 < alpha_min ->
  exists N, forall fuel, (N <= fuel)%nat ->
    nr_run X V D func nrm dir move eps alpha_min ls_beta c1 fuel max_iters xinit <> None.
Proof. exact nr_terminates. Qed.
Print Assumptions C11_newton_terminates.

(** x^2 = 4 from x = 3; two Newton steps to 1/10. *)
Example C11_witness : exists r tr,
  nr_run Q Q Q (fun x => x * x - 4) (fun v => Some (Qabs v)) (fun x v => - v / (2 * x))
    (fun x a d => Qred (x + a * d)) (1#10) (1#10000) (7#10) (1#100) 50 10 3 = Some (true, r, tr) /\
  length tr = 3%nat.
Proof. do 2 eexists. split; vm_compute; reflexivity. Qed.

(** C11, finding: on failure the residual buffer handed back is that of a
    rejected candidate, not of the returned point; the next Newton direction is
    computed from it. *)
Theorem C11_residual_buffer_refuted : exists r tr,
  nr_run Q Q Q (fun x => x * x + 1) (fun v => Some (Qabs v)) (fun x v => - v)
    (fun x a d => x + a * d) (1#10) (1#10) (1#2) (1#100) 50 1 0 = Some (false, r, tr) /\
  xout r == 0 /\ ~ f0 r == xout r * xout r + 1.
Proof.
  do 2 eexists. split; [vm_compute; reflexivity|]. split; [reflexivity|].
  intro H; discriminate H.
Qed.
Print Assumptions C11_residual_buffer_refuted.
