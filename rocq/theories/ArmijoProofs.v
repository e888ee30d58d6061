From Coq Require Import Reals List Bool Arith Lra Lia Psatz.
From Verif Require Import ArmijoModel.
Import ListNotations.
Local Open Scope R_scope.

(** ** Specification *)
Definition sane (o : options) : Prop :=
  0 < alpha_min o <= 1 /\ 0 < contraction_min o /\
  contraction_min o <= contraction_max o /\ contraction_max o < 1.

Definition armijo_ok (o : options) (phi0 dphi0 v a : R) : Prop :=
  v <= phi0 + armijo_c1 o * a * dphi0.

(** ** Interpolation *)
Lemma safeguard_range p lo hi x : lo <= hi -> safeguard p lo hi = Fin x -> lo <= x <= hi.
Proof.
  intros H. unfold safeguard. destruct (fst p) as [y| |]; try discriminate.
  - destruct (Rlt_dec hi y); [|destruct (Rlt_dec y lo)]; intros E; inversion E; subst;
      try (destruct (snd p)); lra.
  - intros E; inversion E; destruct (snd p); lra.
Qed.

Lemma safeguard_not_inf p lo hi : safeguard p lo hi <> Inf.
Proof.
  unfold safeguard. destruct (fst p); try discriminate.
  destruct (Rlt_dec _ _); [|destruct (Rlt_dec _ _)]; discriminate.
Qed.

Lemma minimize_range qs strat phi0 dphi0 l p lo hi x : lo <= hi ->
  minimize_interpolant qs strat phi0 dphi0 l p lo hi = Fin x -> lo <= x <= hi.
Proof.
  intros H. unfold minimize_interpolant.
  destruct strat, p; apply safeguard_range; auto.
Qed.
Lemma minimize_not_inf qs strat phi0 dphi0 l p lo hi :
  minimize_interpolant qs strat phi0 dphi0 l p lo hi <> Inf.
Proof. unfold minimize_interpolant. destruct strat, p; apply safeguard_not_inf. Qed.

(** the quadratic proposal is never NaN on a sample with nonzero step *)
Lemma quadratic_not_nan phi0 dphi0 l lo hi :
  s_alpha l <> 0 -> dphi0 <> 0 ->
  safeguard (quadratic_proposal phi0 dphi0 l lo hi) lo hi <> NaN.
Proof.
  intros Ha Hd. unfold quadratic_proposal, ediv.
  destruct (Req_EM_T (s_alpha l * s_alpha l) 0) as [E|_].
  { apply Rmult_integral in E; lra. }
  set (a := _ / _). unfold safeguard. simpl.
  destruct (Req_EM_T (2 * a) 0); [destruct (Req_EM_T (- dphi0) 0); [lra|]|];
    try discriminate.
  destruct (Rlt_dec _ _); [|destruct (Rlt_dec _ _)]; discriminate.
Qed.

(** quadratic model: matches value/slope at 0 and the value at the sample; the
    unclamped proposal is its stationary point *)
Lemma quadratic_correct phi0 dphi0 l lo hi x :
  s_alpha l <> 0 ->
  fst (quadratic_proposal phi0 dphi0 l lo hi) = Fin x ->
  exists q, (forall t, q t = phi0 + dphi0 * t + (q 1 - phi0 - dphi0) * (t * t)) /\
    q 0 = phi0 /\ derivable_pt_lim q 0 dphi0 /\ q (s_alpha l) = s_phi l /\
    derivable_pt_lim q x 0.
Proof.
  intros Ha. unfold quadratic_proposal, ediv.
  destruct (Req_EM_T (s_alpha l * s_alpha l) 0) as [E|_].
  { apply Rmult_integral in E; lra. }
  set (a := _ / _). destruct (Req_EM_T (2 * a) 0) as [E|E]; simpl.
  { destruct (Req_EM_T _ _); discriminate. }
  intros Hx; inversion Hx; subst x.
  set (q := fun t => phi0 + dphi0 * t + a * (t * t)).
  assert (D : forall t, derivable_pt_lim q t (dphi0 + 2 * a * t)).
  { intros t. unfold q.
    replace (dphi0 + 2 * a * t) with ((0 + dphi0 * 1) + a * (1 * t + t * 1)) by ring.
    apply (derivable_pt_lim_plus (fun t => phi0 + dphi0 * t) (fun t => a * (t * t))).
    - apply (derivable_pt_lim_plus (fun _ => phi0) (fun t => dphi0 * t)).
      + apply derivable_pt_lim_const.
      + apply (derivable_pt_lim_scal id dphi0 t 1). apply derivable_pt_lim_id.
    - apply (derivable_pt_lim_scal (fun t => t * t) a t).
      apply (derivable_pt_lim_mult id id t 1 1); apply derivable_pt_lim_id. }
  exists q. split; [intros; unfold q; ring|]. split; [unfold q; ring|]. split.
  - replace dphi0 with (dphi0 + 2 * a * 0) at 1 by ring. apply D.
  - split.
    + unfold q, a. field. auto.
    + replace 0 with (dphi0 + 2 * a * (- dphi0 / (2 * a))) by (field; lra). apply D.
Qed.

(** ** Loops *)
Section RunProofs.
  Variable qs : R -> R -> ext * bool.
  Variable o : options.
  Hypothesis Hsane : sane o.
  Variable phi : R -> option R.

  Lemma first_loop_range fuel : forall a a' l,
    alpha_min o <= a <= 1 -> first_loop o phi fuel a = Some (a', l) ->
    alpha_min o <= a' <= 1 /\
    ((exists v, phi a' = Some v /\ l = mk_sample a' v) \/ (l = default_sample /\ a' = alpha_min o)).
  Proof.
    destruct Hsane as (Ha & _).
    induction fuel as [|n IH]; intros a a' l Hr H; simpl in H; [discriminate|].
    destruct (phi a) as [v|] eqn:E.
    - inversion H; subst. split; auto. left. exists v; auto.
    - destruct (Rle_dec _ _).
      + inversion H; subst. split; [lra|auto].
      + apply (IH (a * / 2)); auto. lra.
  Qed.

  Lemma next_alpha_upper phi0 dphi0 a l p :
    0 <= a <= 1 -> 0 <= s_alpha p <= 1 ->
    0 <= next_alpha qs o phi0 dphi0 a l p <= 1.
  Proof.
    destruct Hsane as (Ha & Hc1 & Hc2 & Hc3). intros Hr Hp. unfold next_alpha.
    set (e := match interp_type o with BISECTION => _ | _ => _ end).
    assert (He : forall x, e = Fin x -> x <= 1).
    { intros x. unfold e. destruct (interp_type o).
      - intros E; inversion E; lra.
      - intros E. apply minimize_range in E; nra.
      - intros E. apply minimize_range in E; nra. }
    destruct e as [x| |].
    - specialize (He x eq_refl). unfold Rmax; destruct (Rle_dec _ _); lra.
    - unfold Rmax; destruct (Rle_dec _ _); nra.
    - nra.
  Qed.

  Lemma main_loop_range n : forall phi0 dphi0 a l p a' l',
    0 <= s_alpha l <= 1 -> 0 <= s_alpha p <= 1 -> 0 <= a <= 1 ->
    main_loop qs o phi n phi0 dphi0 a l p = (a', l') -> 0 <= a' <= 1.
  Proof.
    destruct Hsane as (Ha & Hc1 & Hc2 & Hc3).
    induction n as [|n IH]; intros phi0 dphi0 a l p a' l' Hl Hp Hr H; simpl in H.
    - inversion H; subst; auto.
    - destruct (Rle_dec (s_phi l - phi0) _); [inversion H; subst; auto|].
      assert (Hn : 0 <= next_alpha qs o phi0 dphi0 a l p <= 1).
      { apply next_alpha_upper; auto. }
      destruct (phi (next_alpha qs o phi0 dphi0 a l p)) as [v|] eqn:E.
      + destruct (Rle_dec _ _); [inversion H; subst; auto|].
        eapply (IH phi0 dphi0 _ (mk_sample _ v) l); simpl; eauto.
      + eapply (IH phi0 dphi0 _ l l); eauto.
  Qed.

  (** For every merit function, even raising: the step is in range. *)
  Lemma run_step_range fuel phi0 dphi0 v a :
    run qs o phi fuel phi0 dphi0 = Some (v, a) -> alpha_min o <= a <= 1.
  Proof.
    intros H. unfold run in H. destruct (first_loop o phi fuel 1) as [[a1 l]|] eqn:E1;
      [|discriminate].
    pose proof Hsane as (Ha & _).
    destruct (first_loop_range fuel 1 a1 l) as [Hr Hl]; [lra|auto|].
    destruct (Rlt_dec _ _); [inversion H; subst; auto|].
    destruct (main_loop _ _ _ _ _ _ _ _ _) as [a' l'] eqn:E2.
    inversion H; subst.
    assert (0 <= s_alpha l <= 1).
    { destruct Hl as [(v & _ & ->)|[-> _]]; simpl; lra. }
    assert (0 <= a' <= 1).
    { eapply main_loop_range; try exact E2; simpl; try lra; auto. }
    unfold Rmax; destruct (Rle_dec _ _); lra.
  Qed.

  (** ** Merit functions that do not raise *)
  Hypothesis total : forall a, phi a <> None.

  (** Loop invariant: [latest] is the sample at the current step. *)
  Lemma main_loop_total n : forall phi0 dphi0 a l p a' l',
    dphi0 <> 0 ->
    (exists v, phi a = Some v /\ l = mk_sample a v) ->
    (s_valid p = true \/ p = default_sample) ->
    (s_valid p = true -> alpha_min o < s_alpha p) ->
    alpha_min o < a \/ (a = alpha_min o /\ p = default_sample) ->
    main_loop qs o phi n phi0 dphi0 a l p = (a', l') ->
    (exists v, phi a' = Some v /\ l' = mk_sample a' v) /\
    (armijo_ok o phi0 dphi0 (s_phi l') a' \/ a' <= alpha_min o \/
       (* every test of the budget failed *)
       exists steps, length steps = n /\ last steps a = a' /\
         Forall (fun b => exists w, phi b = Some w /\ ~ armijo_ok o phi0 dphi0 w b)
           (removelast (a :: steps))) /\
    (interp_type o <> CUBIC -> alpha_min o <= a').
  Proof.
    pose proof Hsane as (Ha & Hc1 & Hc2 & Hc3).
    induction n as [|n IH]; intros phi0 dphi0 a l p a' l' Hd Hl Hpv Hp Hr H; simpl in H.
    - inversion H; subst. split; auto. split.
      + right; right. exists []. simpl. auto.
      + intros _. destruct Hr as [|[-> _]]; lra.
    - destruct Hl as (v & Hv & ->). simpl in H.
      destruct (Rle_dec (v - phi0) (armijo_c1 o * a * dphi0)) as [Hok|Hnok].
      + inversion H; subst. split; [eauto|]. split.
        * left. unfold armijo_ok. simpl. lra.
        * intros _. destruct Hr as [|[-> _]]; lra.
      + set (b := next_alpha qs o phi0 dphi0 a (mk_sample a v) p) in *.
        destruct (phi b) as [w|] eqn:Eb; [|exfalso; exact (total b Eb)].
        assert (Hb : interp_type o <> CUBIC -> alpha_min o <= b).
        { clear H IH Hnok. intros Hc. unfold b, next_alpha. destruct (interp_type o) eqn:Ei; try congruence.
          - unfold Rmax; destruct (Rle_dec _ _); lra.
          - destruct (minimize_interpolant _ _ _ _ _ _ _ _) eqn:Em;
              try (unfold Rmax; destruct (Rle_dec _ _); lra).
            exfalso. unfold minimize_interpolant in Em.
            revert Em. destruct (if s_valid p then Some p else None);
              apply quadratic_not_nan; simpl; auto;
              destruct Hr as [|[-> _]]; lra. }
        destruct (Rle_dec b (alpha_min o)) as [Hle|Hgt].
        * inversion H; subst. split; [eauto|]. split; auto.
        * destruct (IH phi0 dphi0 b (mk_sample b w) (mk_sample a v) a' l') as (A & B & C); auto.
          -- eauto.
          -- (* previous step was above the minimum: otherwise it is the default *)
             simpl. intros _. destruct Hr as [|[-> Hdef]]; auto.
             exfalso. apply Hgt. subst p. clear H IH Hnok Hgt. unfold b, next_alpha.
             destruct (interp_type o).
             ++ unfold Rmax; destruct (Rle_dec _ _); lra.
             ++ destruct (minimize_interpolant _ _ _ _ _ _ _ _) eqn:Em.
                ** apply minimize_range in Em; [|nra].
                   unfold Rmax; destruct (Rle_dec _ _); nra.
                ** exfalso; eapply minimize_not_inf; eauto.
                ** simpl; lra.
             ++ destruct (minimize_interpolant _ _ _ _ _ _ _ _) eqn:Em.
                ** apply minimize_range in Em; [|nra].
                   unfold Rmax; destruct (Rle_dec _ _); nra.
                ** exfalso; eapply minimize_not_inf; eauto.
                ** simpl; lra.
          -- left; lra.
          -- split; auto. split; auto.
             destruct B as [B|[B|(steps & Hlen & Hlast & HF)]]; auto.
             right; right. exists (b :: steps). simpl length. split; [lia|]. split.
             ++ rewrite <- Hlast. clear. revert b; induction steps as [|x s IHs]; intros b; simpl; auto.
                destruct s; auto.
             ++ simpl removelast in *. constructor; [|exact HF].
                exists v. split; auto. intros Hc. unfold armijo_ok in Hc. lra.
  Qed.

  Lemma first_loop_total fuel a' l :
    first_loop o phi fuel 1 = Some (a', l) -> exists v, phi 1 = Some v /\ a' = 1 /\ l = mk_sample 1 v.
  Proof.
    destruct fuel; simpl; [discriminate|].
    destruct (phi 1) as [v|] eqn:E; [|exfalso; exact (total 1 E)].
    intros H; inversion H; subst; eauto.
  Qed.

  Lemma run_total fuel phi0 dphi0 v a :
    alpha_min o < 1 -> 0 < dphi_thresh o ->
    run qs o phi fuel phi0 dphi0 = Some (v, a) ->
    exists b, phi b = Some v /\ a = Rmax b (alpha_min o) /\
      (interp_type o <> CUBIC -> a = b) /\
      ((Rabs dphi0 < dphi_thresh o /\ a = 1) \/
       armijo_ok o phi0 dphi0 v b \/ a = alpha_min o \/
       exists steps, length steps = max_num_steps o /\ last steps 1 = b /\
         Forall (fun b => exists w, phi b = Some w /\ ~ armijo_ok o phi0 dphi0 w b)
           (removelast (1 :: steps))).
  Proof.
    intros Hlt Hth H. unfold run in H.
    destruct (first_loop o phi fuel 1) as [[a1 l]|] eqn:E1; [|discriminate].
    destruct (first_loop_total _ _ _ E1) as (v1 & Hv1 & -> & ->).
    destruct (Rlt_dec (Rabs dphi0) (dphi_thresh o)) as [Hs|Hs].
    - inversion H; subst. exists 1. split; auto.
      rewrite Rmax_left by lra. auto.
    - destruct (main_loop _ _ _ _ _ _ _ _ _) as [a' l'] eqn:E2.
      inversion H; subst.
      destruct (main_loop_total (max_num_steps o) phi0 dphi0 1 (mk_sample 1 v1)
                  default_sample a' l') as ((w & Hw & ->) & B & C); auto.
      + intros ->. rewrite Rabs_R0 in Hs. lra.
      + eauto.
      + discriminate.
      + exists a'. simpl. split; auto. split; auto. split.
        * intros Hc. apply Rmax_left. auto.
        * right. destruct B as [B|[B|B]]; auto.
          right; left. apply Rmax_right; auto.
  Qed.
End RunProofs.

(** ** Refutations *)
Definition bis_opts (n : nat) : options :=
  Options (1 / 10) (1 / 1000) (1 / 4) n BISECTION (1 / 2) (8 / 10).
Definition qs0 : R -> R -> ext * bool := fun _ _ => (NaN, false).

(** All trial steps raise: the search reports a merit value of 0 that no
    evaluation produced, and treats it as sufficient decrease. *)
Lemma run_all_raise :
  run qs0 (bis_opts 3) (fun _ => None) 10 5 (-1) = Some (0, 1 / 4).
Proof.
  unfold run. cbn [first_loop bis_opts alpha_min].
  destruct (Rle_dec (1 * / 2) (1 / 4)); [lra|].
  destruct (Rle_dec (1 * / 2 * / 2) (1 / 4)); [|lra].
  cbn [dphi_thresh max_num_steps main_loop s_phi default_sample armijo_c1 bis_opts].
  rewrite Rabs_left by lra.
  destruct (Rlt_dec (- -1) (1 / 1000)); [lra|].
  destruct (Rle_dec (0 - 5) (1 / 10 * (1 / 4) * -1)); [|lra].
  rewrite Rmax_left by lra. reflexivity.
Qed.

(** A raise in the main loop: the returned value is not the merit at the
    returned step. *)
Lemma run_stale_value :
  let phi := fun a => if Req_EM_T a 1 then Some 10 else None in
  exists v a, run qs0 (bis_opts 1) phi 10 5 (-1) = Some (v, a) /\
    a = 1 / 2 /\ v = 10 /\ phi a = None.
Proof.
  intros phi. exists 10, (1 / 2).
  assert (P1 : phi 1 = Some 10) by (unfold phi; destruct (Req_EM_T 1 1); congruence).
  assert (P2 : phi (1 / 2) = None) by (unfold phi; destruct (Req_EM_T (1/2) 1); [lra|auto]).
  split; [|auto].
  unfold run. cbn [first_loop]. rewrite P1.
  cbn [dphi_thresh max_num_steps main_loop s_phi mk_sample armijo_c1 bis_opts].
  rewrite Rabs_left by lra.
  destruct (Rlt_dec (- -1) (1 / 1000)); [lra|].
  destruct (Rle_dec (10 - 5) (1 / 10 * 1 * -1)); [lra|].
  unfold next_alpha. cbn [interp_type bis_opts alpha_min].
  rewrite (Rmax_left (1 * / 2)) by lra.
  replace (1 * / 2) with (1 / 2) by lra. rewrite P2.
  rewrite Rmax_left by lra. reflexivity.
Qed.

(** Cubic interpolation: the polynomial built by the code does not go through
    the two samples (right-hand sides are exchanged). *)
Lemma cubic_misses_samples :
  let c0 := mk_sample (1 / 2) 3 in let c1 := mk_sample 1 7 in
  let '(c3, c2) := cubic_coeffs 0 (-1) c0 c1 in
  poly_eval [c3; c2; -1; 0] (1 / 2) <> 3 /\ poly_eval [c3; c2; -1; 0] 1 <> 7.
Proof.
  unfold cubic_coeffs, poly_eval. simpl. split; intro H; field_simplify in H; lra.
Qed.

(** What the code does interpolate: the values exchanged. *)
Lemma cubic_swapped phi0 dphi0 c0 c1 :
  cubic_det (s_alpha c0) (s_alpha c1) <> 0 ->
  let '(c3, c2) := cubic_coeffs phi0 dphi0 c0 c1 in
  let p := poly_eval [c3; c2; dphi0; phi0] in
  p (s_alpha c0) - phi0 - dphi0 * s_alpha c0 = s_phi c1 - phi0 - dphi0 * s_alpha c1 /\
  p (s_alpha c1) - phi0 - dphi0 * s_alpha c1 = s_phi c0 - phi0 - dphi0 * s_alpha c0.
Proof.
  intros Hd. unfold cubic_coeffs, poly_eval. cbn [fold_left].
  unfold cubic_det in Hd. split; field; auto.
Qed.

(** Horner evaluation is the polynomial, and [derivative] its derivative. *)
Fixpoint poly_sum (c : list R) (a : R) : R :=
  match c with
  | [] => 0
  | x :: c' => x * a ^ (length c') + poly_sum c' a
  end.
Lemma horner_acc c a : forall r,
  fold_left (fun r ci => r * a + ci) c r = r * a ^ (length c) + poly_sum c a.
Proof.
  induction c as [|x c IH]; intros r; simpl; [ring|]. rewrite IH. ring.
Qed.
Lemma poly_eval_sum c a : poly_eval c a = poly_sum c a.
Proof. unfold poly_eval. rewrite horner_acc. ring. Qed.

Lemma scale_powers_derivative c x : c <> [] ->
  derivable_pt_lim (poly_sum c) x (poly_sum (scale_powers c) x).
Proof.
  intros _. revert x. induction c as [|y c IH]; intros x.
  - apply derivable_pt_lim_const.
  - destruct c as [|z c].
    + simpl. apply (derivable_pt_lim_ext (fun _ => y)); [intros; ring|].
      apply derivable_pt_lim_const.
    + change (scale_powers (y :: z :: c))
        with (y * INR (length (z :: c)) :: scale_powers (z :: c)).
      assert (L : length (scale_powers (z :: c)) = length c).
      { clear. revert z; induction c as [|w c IH]; intros z; auto.
        simpl length. f_equal. apply IH. }
      change (poly_sum (y * INR (length (z :: c)) :: scale_powers (z :: c)) x)
        with (y * INR (length (z :: c)) * x ^ length (scale_powers (z :: c))
              + poly_sum (scale_powers (z :: c)) x).
      rewrite L.
      apply (derivable_pt_lim_plus (fun a => y * a ^ length (z :: c)) (poly_sum (z :: c))).
      * replace (y * INR (length (z :: c)) * x ^ length c)
          with (y * (INR (length (z :: c)) * x ^ pred (length (z :: c)))) by (simpl; ring).
        apply (derivable_pt_lim_scal (fun a => a ^ length (z :: c)) y x).
        apply derivable_pt_lim_pow.
      * apply IH.
Qed.

Lemma poly_derivative_correct c x : c <> [] ->
  derivable_pt_lim (poly_eval c) x (poly_eval (poly_derivative c) x).
Proof.
  intros Hc. apply (derivable_pt_lim_ext (poly_sum c)).
  { intros; now rewrite poly_eval_sum. }
  rewrite poly_eval_sum. destruct c as [|y [|z c]]; [congruence| |].
  - simpl. replace (0 * 1 + 0) with 0 by ring.
    apply (derivable_pt_lim_ext (fun _ => y)); [intros; simpl; ring|].
    apply derivable_pt_lim_const.
  - apply (scale_powers_derivative (y :: z :: c)). discriminate.
Qed.

(** The cubic proposal is a stationary point of the cubic that was built. *)
Lemma cubic_stationary qs phi0 dphi0 c0 c1 lo hi x :
  cubic_det (s_alpha c0) (s_alpha c1) <> 0 ->
  fst (cubic_proposal qs phi0 dphi0 c0 c1 lo hi) = Fin x ->
  let '(c3, c2) := cubic_coeffs phi0 dphi0 c0 c1 in
  derivable_pt_lim (poly_eval [c3; c2; dphi0; phi0]) x 0 /\ 0 <= 6 * c3 * x + 2 * c2.
Proof.
  intros Hd H. unfold cubic_proposal in H.
  destruct (Req_EM_T _ 0); [contradiction|].
  destruct (cubic_coeffs phi0 dphi0 c0 c1) as [c3 c2]. simpl fst in H.
  set (disc := c2 * c2 - 3 * c3 * dphi0) in *.
  destruct (Rlt_dec disc 0); [discriminate|].
  unfold ediv in H. destruct (Req_EM_T (3 * c3) 0) as [E|E].
  { destruct (Req_EM_T _ 0); discriminate. }
  inversion H as [Hx]. clear H.
  assert (S : sqrt disc * sqrt disc = disc) by (apply sqrt_sqrt; lra).
  assert (Hx' : 3 * c3 * x = - c2 + sqrt disc).
  { rewrite <- Hx. field. intro; apply E; lra. }
  rewrite Hx. split.
  - pose proof (poly_derivative_correct [c3; c2; dphi0; phi0] x ltac:(discriminate)) as D.
    replace (poly_eval (poly_derivative [c3; c2; dphi0; phi0]) x) with 0 in D; auto.
    rewrite poly_eval_sum. simpl.
    apply Rmult_eq_reg_l with (3 * c3); auto. unfold disc in S.
    assert (K : (3 * c3 * x + c2) * (3 * c3 * x + c2) = c2 * c2 - 3 * c3 * dphi0)
      by (rewrite Hx'; replace (- c2 + sqrt disc + c2) with (sqrt disc) by ring; exact S).
    nra.
  - pose proof (sqrt_pos disc). lra.
Qed.

(** The first loop terminates. *)
Lemma first_loop_fuel o phi : 0 < alpha_min o ->
  forall n a, a <= alpha_min o * 2 ^ n -> first_loop o phi (S n) a <> None.
Proof.
  intros Hm. induction n as [|n IH]; intros a Ha; cbn [first_loop];
    destruct (phi a); try discriminate; destruct (Rle_dec _ _); try discriminate.
  - simpl in Ha. lra.
  - apply IH. simpl in Ha. lra.
Qed.
Lemma run_terminates qs o phi phi0 dphi0 : 0 < alpha_min o ->
  exists N, forall fuel, (N <= fuel)%nat -> run qs o phi fuel phi0 dphi0 <> None.
Proof.
  intros Hm. destruct (Pow_x_infinity 2 ltac:(rewrite Rabs_pos_eq; lra) (/ alpha_min o)) as [N HN].
  exists (S N). intros fuel Hf. unfold run.
  destruct fuel as [|n]; [lia|].
  assert (Hn : first_loop o phi (S n) 1 <> None).
  { apply first_loop_fuel; auto.
    specialize (HN n ltac:(lia)).
    rewrite Rabs_pos_eq in HN by (apply pow_le; lra).
    apply Rge_le in HN. apply (Rmult_le_compat_l (alpha_min o)) in HN; [|lra].
    rewrite Rinv_r in HN by lra. exact HN. }
  destruct (first_loop o phi (S n) 1) as [[a l]|]; [|congruence].
  destruct (Rlt_dec _ _); [discriminate|].
  destruct (main_loop _ _ _ _ _ _ _ _ _); discriminate.
Qed.
