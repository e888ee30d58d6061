(** Properties C19 and, for FDDP, C15. *)
From Coq Require Import QArith Qminmax List Bool Arith Lia Lqa.
From Verif Require Import FddpModel.
Import ListNotations.
Local Open Scope Q_scope.

Section Any.
  Variables X C : Type.
  Variable infeas : X -> option Q.
  Variable crit : X -> Q -> option Q.
  Variable ok : st X C -> bool.
  Variable cost0 : X -> option Q.
  Variable ls : st X C -> option Q * option Q * Q * X.
  Variable o : opts.
  Variable callbacks : list C.
  Notation loop := (loop X C infeas crit ok ls o callbacks).
  Notation run := (run X C infeas crit ok cost0 ls o callbacks).

  Definition final (r : outcome X C) : st X C := match r with Done s => s | Threw s => s end.
  Definition logged (i : nat) (iters : list X) : list (C * (nat * X)) :=
    concat (map (fun p => map (fun c => (c, p)) callbacks) (combine (seq i (length iters)) iters)).

  Lemma update_preg_fields s a : forall s' b, update_preg X C o s a = (s', b) ->
    it s' = it s /\ num_iters s' = num_iters s /\ conv s' = conv s /\ log s' = log s.
  Proof.
    unfold update_preg. intros s' b.
    destruct (qlt _ _); destruct (Qle_bool _ _); intros H; inversion H; repeat split.
  Qed.

  Lemma loop_post n : forall s, conv s = false ->
    match loop n s with
    | Done s' => conv s' = true ->
        (infeas (it s') = Some (prim s') /\ crit (it s') (preg s') = Some (dual s') /\
         prim s' < target_tol o /\ dual s' < target_tol o) \/
        qabs (d1 s') < th_grad o
    | Threw s' => conv s' = false
    end.
  Proof.
    induction n as [|n IH]; intros s Hc; cbn [FddpModel.loop]; cbv zeta; [congruence|].
    destruct (negb (ok s)); [exact Hc|].
    destruct (infeas (it s)) as [p|] eqn:Ep; [|exact Hc].
    destruct (crit (it s) (preg s)) as [d|] eqn:Ed; [|exact Hc].
    destruct (qlt _ _) eqn:Et.
    { intros _. left. simpl. split; auto. split; auto.
      assert (L : Qmax p d < target_tol o).
      { unfold qlt in Et. apply negb_true_iff in Et.
        destruct (Qlt_le_dec (Qmax p d) (target_tol o)) as [|K]; auto.
        apply Qle_bool_iff in K. congruence. }
      pose proof (Q.le_max_l p d). pose proof (Q.le_max_r p d). split; lra. }
    destruct (cost _); [|exact Hc].
    destruct (negb (ok _)); [exact Hc|].
    destruct (ls _) as [[[[al|] [phi|]] d'] x]; try exact Hc.
    destruct (qlt (qabs d') (th_grad o)) eqn:Eg.
    { intros _. right. simpl. unfold qlt in Eg. apply negb_true_iff in Eg.
      destruct (Qlt_le_dec (qabs d') (th_grad o)) as [|K]; auto.
      apply Qle_bool_iff in K. congruence. }
    destruct (update_preg _ _ _ _ _) as [s3 b] eqn:Eu. apply update_preg_fields in Eu.
    destruct Eu as (_ & _ & U & _). destruct b; [discriminate|].
    apply IH. simpl. rewrite U. exact Hc.
  Qed.

  (** C19, partial: a run that reports convergence either has both residuals
      of the returned iterate below the tolerance or stopped because the
      expected first-order improvement vanished.  Missing: the residual claim
      in the second case, refuted below. *)
  Theorem C19_success_partial : forall s,
    match run s with
    | Done s' => conv s' = true ->
        (infeas (it s') = Some (prim s') /\ crit (it s') (preg s') = Some (dual s') /\
         prim s' < target_tol o /\ dual s' < target_tol o) \/
        qabs (d1 s') < th_grad o
    | Threw s' => conv s' = false \/ s' = s
    end.
  Proof.
    intros s. unfold FddpModel.run. destruct (negb (ok s)); [auto|].
    pose proof (loop_post (max_iters o) (start X C cost0 o s) eq_refl) as H.
    destruct (loop _ _); auto.
  Qed.

  (** exits whose accepted iterate is not counted *)
  Definition broke (r : outcome X C) : Prop :=
    exists s', r = Done s' /\ (qabs (d1 s') < th_grad o \/ preg s' == reg_max o).

  Lemma last_cons {A} (l : list A) x d : last (x :: l) d = last l x.
  Proof.
    revert x d. induction l as [|y l IH]; intros x d; auto.
    change (last (x :: y :: l) d) with (last (y :: l) d). now rewrite !IH.
  Qed.

  Lemma loop_log n : forall s, exists iters,
    num_iters (final (loop n s)) = (num_iters s + length iters)%nat /\ (length iters <= n)%nat /\
    log (final (loop n s)) = log s ++ logged (num_iters s) iters /\
    (last iters (it s) = it (final (loop n s)) \/ broke (loop n s)).
  Proof.
    assert (K : forall m (s : st X C) r, num_iters (final r) = num_iters s -> log (final r) = log s ->
      (it (final r) = it s \/ broke r) -> exists iters,
      num_iters (final r) = (num_iters s + length iters)%nat /\ (length iters <= m)%nat /\
      log (final r) = log s ++ logged (num_iters s) iters /\
      (last iters (it s) = it (final r) \/ broke r)).
    { intros m s r A B D. exists []. unfold logged. simpl. rewrite app_nil_r.
      split; [lia|]. split; [lia|]. split; auto. destruct D; auto. }
    induction n as [|n IH]; intros s; cbn [FddpModel.loop]; cbv zeta; [apply K; auto|].
    destruct (negb (ok s)); [apply K; auto|].
    destruct (infeas (it s)) as [p|]; [|apply K; auto].
    destruct (crit (it s) (preg s)) as [d|]; [|apply K; auto].
    destruct (qlt _ _); [apply K; auto|].
    destruct (cost _); [|apply K; auto].
    destruct (negb (ok _)); [apply K; auto|].
    destruct (ls _) as [[[[al|] [phi|]] d'] x]; try (apply K; solve [auto]).
    destruct (qlt (qabs d') (th_grad o)) eqn:Eg.
    { apply K; auto. right. eexists. split; [reflexivity|left]. simpl.
      unfold qlt in Eg. apply negb_true_iff in Eg.
      destruct (Qlt_le_dec (qabs d') (th_grad o)) as [|L]; auto.
      apply Qle_bool_iff in L. congruence. }
    destruct (update_preg _ _ _ _ _) as [s3 b] eqn:Eu. pose proof Eu as Eu'.
    apply update_preg_fields in Eu. destruct Eu as (U1 & U2 & _ & U3). destruct b.
    { apply K; [exact U2|exact U3|]. right. eexists. split; [reflexivity|right]. simpl.
      unfold update_preg in Eu'. destruct (Qle_bool al (th_step_inc o)); [|inversion Eu'].
      injection Eu' as E1 E2. rewrite <- E1. apply Qeq_bool_iff. exact E2. }
    destruct (IH (counted X C callbacks s3)) as (iters & A & B & D & E).
    exists (it s3 :: iters). simpl length. rewrite A, D. simpl num_iters. simpl log. rewrite U2, U3. simpl.
    split; [lia|]. split; [lia|]. split; [unfold logged; simpl; rewrite <- app_assoc; reflexivity|].
    change (match iters with [] => it s3 | _ :: _ => last iters (it s) end)
      with (last (it s3 :: iters) (it s)). rewrite last_cons. exact E.
  Qed.

  (** C15 for FDDP: one invocation of each callback per counted iteration, with
      its iterate, and at most [max_iters] counted iterations.  The returned
      iterate is the last counted one unless the loop broke on a vanishing
      [d1] or a maximal regularisation. *)
  Theorem C15_fddp_callbacks : forall s, ok s = true -> exists iters,
    num_iters (final (run s)) = length iters /\ (length iters <= max_iters o)%nat /\
    log (final (run s)) = log s ++ concat (map (fun p => map (fun c => (c, p)) callbacks)
                                             (combine (seq 0 (length iters)) iters)) /\
    (last iters (it s) = it (final (run s)) \/
     exists s', run s = Done s' /\ (qabs (d1 s') < th_grad o \/ preg s' == reg_max o)).
  Proof.
    intros s Ho. unfold FddpModel.run. rewrite Ho. simpl negb.
    destruct (loop_log (max_iters o) (start X C cost0 o s)) as (iters & A & B & D & E).
    exists iters. split; [exact A|]. split; [exact B|]. split; [exact D|exact E].
  Qed.

  (** The primal regularisation stays in its range. *)
  Theorem C19_regularisation_range :
    reg_min o <= reg_init o -> reg_init o <= reg_max o -> 0 <= reg_min o ->
    0 <= reg_dec o -> reg_dec o <= 1 -> 1 <= reg_inc o ->
    forall s, ok s = true -> reg_min o <= preg (final (run s)) <= reg_max o.
  Proof.
    intros H1 H2 H0 D0 D1 I1 s Ho. unfold FddpModel.run. rewrite Ho. simpl negb.
    assert (K : forall n s, reg_min o <= preg s <= reg_max o ->
                reg_min o <= preg (final (loop n s)) <= reg_max o).
    { clear s Ho. induction n as [|n IH]; intros s Hs; cbn [FddpModel.loop]; cbv zeta; [exact Hs|].
      destruct (negb (ok s)); [exact Hs|].
      destruct (infeas (it s)) as [p|]; [|exact Hs].
      destruct (crit (it s) (preg s)) as [d|]; [|exact Hs].
      destruct (qlt _ _); [exact Hs|].
      destruct (cost _); [|exact Hs].
      destruct (negb (ok _)); [exact Hs|].
      destruct (ls _) as [[[[al|] [phi|]] d'] x]; try exact Hs.
      destruct (qlt (qabs d') (th_grad o)); [exact Hs|].
      destruct (update_preg _ _ _ _ _) as [s3 b] eqn:Eu.
      assert (P3 : reg_min o <= preg s3 <= reg_max o).
      { unfold update_preg in Eu. simpl in Eu.
        assert (Dk : forall r, reg_min o <= r <= reg_max o -> reg_min o <= decrease o r <= reg_max o).
        { intros r Hr. unfold decrease. split; [apply Q.le_max_r|]. apply Q.max_lub; [nra|lra]. }
        assert (Ik : forall r, reg_min o <= r <= reg_max o -> reg_min o <= increase o r <= reg_max o).
        { intros r Hr. unfold increase. split; [|apply Q.le_min_r]. apply Q.min_glb; [nra|lra]. }
        destruct (qlt (th_step_dec o) al); destruct (Qle_bool al (th_step_inc o)); inversion Eu; subst; simpl; auto. }
      destruct b; [exact P3|]. apply IH. exact P3. }
    apply K. simpl. auto.
  Qed.
End Any.
Print Assumptions C19_success_partial.
Print Assumptions C15_fddp_callbacks.
Print Assumptions C19_regularisation_range.

Definition o1 (tol : Q) : opts := Opts tol (1#10) (1#100) 10 (1#10) 10 (1#1000) (1#2) (1#100) 3.
Definition s1 : st Q nat := St 1 0 0 0 None 0 0 true [] 0.

(** Witness: a run with two counted iterations, callbacks 7 and 8, success. *)
Example C19_witness :
  match run Q nat (fun x => Some (qabs x)) (fun x _ => Some (qabs x)) (fun _ => true) (fun x => Some x)
    (fun s => (Some 1, Some 0, 1, Qred (it s * (1#2)))) (o1 (1#3)) [7;8]%nat s1 with
  | Done s => conv s = true /\ it s = (1#4) /\ num_iters s = 2%nat /\ prim s = (1#4) /\
      map (fun p => (fst p, fst (snd p))) (log s) = [(7,0);(8,0);(7,1);(8,1)]%nat
  | Threw _ => False
  end.
Proof. vm_compute. repeat split. Qed.

(** C19, finding: when the line search reports a vanishing [d1] the solver
    claims convergence although both residuals, those of the iterate before
    the returned one, are far above the tolerance. *)
Theorem C19_success_refuted : exists s',
  run Q nat (fun x => Some 5) (fun x _ => Some 5) (fun _ => true) (fun x => Some x)
    (fun s => (Some 1, Some 0, 0, 9)) (o1 (1#3)) [] s1 = Done s' /\
  conv s' = true /\ prim s' = 5 /\ dual s' = 5.
Proof. eexists. split; [vm_compute; reflexivity|]. repeat split. Qed.
Print Assumptions C19_success_refuted.
