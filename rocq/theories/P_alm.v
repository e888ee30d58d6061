(** Properties C12-C16: the outer and inner loops of SolverProxDDP, for every
    behaviour of the numerical routines. *)
From Coq Require Import QArith Qminmax List Bool Arith Lia Lqa.
From Coq Require Import Floats.SpecFloat.
From Verif Require Import AlmModel AlmProofs.
Import ListNotations.
Local Open Scope Q_scope.

Section Any.
  Variables X T Rest P C : Type.
  Variable init_state : X.
  Variable init_res : X -> Q.
  Variable rest_res : Q -> P -> iterate X Rest -> option Q.
  Variable dual_of : iterate X Rest -> option Q.
  Variable crit_of : st X Rest P C -> option Q.
  Variable ok : st X Rest P C -> bool.
  Variables slope merit_of : st X Rest P C -> Q.
  Variable dx0 : st X Rest P C -> T.
  Variable zero : T.
  Variable integ : X -> Q -> T -> X.
  Variable trial_rest : st X Rest P C -> Q -> Rest.
  Variable ls : st X Rest P C -> list Q * Q * Q.
  Variable new_pv : st X Rest P C -> P.
  Variables pow_pa pow_da pow_pb pow_db : Q -> Q.
  Variable o : opts.
  Variable callbacks : list C.
  Notation run := (run X T Rest P C init_state init_res rest_res dual_of crit_of ok slope merit_of
    dx0 zero integ trial_rest ls new_pv pow_pa pow_da pow_pb pow_db o callbacks).
  Notation inner_loop := (inner_loop X T Rest P C init_res rest_res dual_of crit_of ok slope merit_of
    dx0 zero integ trial_rest ls o callbacks).
  Notation target_dual := (target_dual o).

  (** C12: a run that returns true reports residuals within the tolerances;
      one that returns false or raises leaves [conv] false. *)
  Theorem C12_success : forall fuel s r l, run fuel s = (r, l) ->
    match r with
    | Done true s' => conv s' = true /\ prim s' <= target_tol o /\
        exists d, dual s' = Some d /\ d <= if sync_dual o then target_tol o else dual_tol o
    | Done false s' => conv s' = false
    | Threw s' => conv s' = false
    | Diverged => True
    end.
  Proof.
    intros fuel s r l H. unfold AlmModel.run in H.
    destruct (start_fields X Rest P C init_state new_pv pow_pa pow_da o s) as (A & B & _).
    eapply outer_bounds in H; [|solve [exact A|exact init_state|rewrite B; lia]..].
    destruct H as (_ & H & _). destruct r as [[|] s'|s'|]; auto.
    - destruct H as (E & H). destruct (H eq_refl) as (d & H1 & H2 & H3). split; auto. split; auto.
      exists d. auto.
    - destruct H as (E & _). auto.
  Qed.

  (** C12, second half, partial: with the linear rollout, a constraint
      evaluation free of NaN and a line search that evaluates at least one
      trial, the reported residuals are those of the returned iterate (primal:
      for the penalty and proximal multipliers of the last inner loop).
      Missing: the other rollout and NaN, refuted below. *)
  Theorem C12_residuals_partial :
    rollout_type o = LINEAR -> (forall m p i, rest_res m p i <> None) ->
    (forall s, fst (fst (ls s)) <> []) ->
    forall fuel s s' l, run fuel s = (Done true s', l) ->
    exists m p q, rest_res m p (it s') = Some q /\
      prim s' = Qmax (init_res (x0 (it s'))) q /\ dual s' = dual_of (it s').
  Proof.
    intros Hl Ht He fuel s s' l H. unfold AlmModel.run in H.
    destruct (start_fields X Rest P C init_state new_pv pow_pa pow_da o s) as (A & _).
    eapply outer_measured; eauto.
  Qed.

  (** C13: budgets.  [l] are the states at the head of the outer loop. *)
  Theorem C13_budgets : forall fuel s r l s', run fuel s = (r, l) -> final X Rest P C r = Some s' ->
    (num_iters s' <= max_iters o)%nat /\ (al_iter s' <= max_al_iters o)%nat /\
    (length l <= S (max_al_iters o))%nat.
  Proof.
    intros fuel s r l s' H Hf. unfold AlmModel.run in H.
    destruct (start_fields X Rest P C init_state new_pv pow_pa pow_da o s) as (A & B & D & _).
    eapply outer_bounds in H; [|solve [exact A|exact init_state|rewrite B; lia]..]. destruct H as (L & _ & H).
    destruct (H _ Hf) as (H1 & H2 & _). rewrite D in H2. repeat split; auto; lia.
  Qed.

  (** C13, termination, partial: the do-while on the inner tolerance ends when
      the inner criterion is never exactly zero. *)
  Theorem C13_terminates_partial :
    (forall s c, crit_of s = Some c -> 0 < c) ->
    (forall x, 0 < x -> x <= 99 # 100 -> 0 < pow_db x /\ pow_db x < 1) ->
    0 < mu_lower_bound o ->
    forall s, exists N, forall fuel, (N <= fuel)%nat -> fst (run fuel s) <> Diverged.
  Proof.
    intros Hc Hp Hl s. unfold AlmModel.run. apply outer_terminates; auto.
    rewrite start_mu. apply Q.le_max_r.
  Qed.

  (** C14: at every head of the outer loop the penalty is above its lower
      bound and the tolerances above their floor. *)
  Theorem C14_bounds : 0 <= target_dual ->
    forall fuel s r l, run fuel s = (r, l) ->
    Forall (fun h => mu_lower_bound o <= mu h /\ (1 # 100) * target_dual <= inner_tol h /\
                     target_tol o <= prim_tol h) l.
  Proof.
    intros Ht fuel s r l H. unfold AlmModel.run in H.
    destruct (start_fields X Rest P C init_state new_pv pow_pa pow_da o s) as (_ & _ & _ & _ & _ & A & B).
    eapply outer_schedule in H; [|try exact init_state..].
    - apply H.
    - split; [rewrite start_mu; apply Q.le_max_r|]. split; auto. lra.
  Qed.

  (** C14: the penalty at the next head.  A pass whose inner loop meets the
      primal tolerance keeps it; the other passes multiply it by the factor,
      clamped at the bound, and reset it when the bound is reached. *)
  Theorem C14_penalty_update : 0 <= target_dual ->
    forall fuel s r l, run fuel s = (r, l) ->
    (exists h l', l = h :: l' /\ mu h = Qmax (mu_init o) (mu_lower_bound o)) /\
    forall l1 h h' l2, l = l1 ++ h :: h' :: l2 ->
    exists s1, inner_loop h = Returns true s1 /\
    ((prim s1 <= prim_tol s1 /\ mu h' = mu h) \/
     (prim_tol s1 < prim s1 /\
      let m := Qmax (mu h * mu_update_factor o) (mu_lower_bound o) in
      ((scalar_close m (mu_lower_bound o) = true /\ mu h' = Qmax (mu_init o) (mu_lower_bound o)) \/
       (scalar_close m (mu_lower_bound o) = false /\ mu h' = m)))).
  Proof.
    intros Ht fuel s r l H. unfold AlmModel.run in H.
    destruct (start_fields X Rest P C init_state new_pv pow_pa pow_da o s) as (_ & _ & _ & _ & _ & A & B).
    eapply outer_schedule in H; [|try exact init_state..].
    2: { split; [rewrite start_mu; apply Q.le_max_r|]. split; auto. lra. }
    destruct H as (_ & Ch & l' & El). split.
    - exists (start X Rest P C init_state new_pv pow_pa pow_da o s), l'. split; [auto|apply start_mu].
    - clear El. intros l1. revert l Ch. induction l1 as [|h0 l1 IH]; intros l Ch h h' l2 E; subst l.
      + destruct Ch as ((s1 & E1 & E2) & _). exists s1. split; auto.
        destruct (Qle_bool (prim s1) (prim_tol s1)) eqn:Eb.
        * left. apply Qle_bool_iff in Eb. auto.
        * right. split.
          { destruct (Qlt_le_dec (prim_tol s1) (prim s1)) as [|K]; auto.
            apply Qle_bool_iff in K. congruence. }
          cbv zeta in *. destruct (scalar_close _ _); auto.
      + eapply (IH (l1 ++ h :: h' :: l2)); eauto.
        simpl in Ch. destruct (l1 ++ h :: h' :: l2) eqn:E'; [destruct l1; discriminate|]. apply Ch.
  Qed.

  (** C14: hence the penalty never increases, but for the reset. *)
  Corollary C14_monotone : 0 <= target_dual -> 0 <= mu_lower_bound o ->
    0 <= mu_update_factor o -> mu_update_factor o <= 1 ->
    forall fuel s r l, run fuel s = (r, l) ->
    forall l1 h h' l2, l = l1 ++ h :: h' :: l2 ->
    mu h' <= mu h \/
    (mu h' = Qmax (mu_init o) (mu_lower_bound o) /\
     scalar_close (Qmax (mu h * mu_update_factor o) (mu_lower_bound o)) (mu_lower_bound o) = true).
  Proof.
    intros Ht Hl F0 F1 fuel s r l H l1 h h' l2 E.
    pose proof (C14_bounds Ht _ _ _ _ H) as Hb. rewrite E in Hb.
    apply Forall_app in Hb. destruct Hb as (_ & Hb). inversion Hb as [|? ? (B1 & _) _]; subst.
    destruct (C14_penalty_update Ht _ _ _ _ H) as (_ & K).
    destruct (K _ _ _ _ eq_refl) as (s1 & _ & [(_ & ->)|(_ & [(A & ->)|(_ & ->)])]).
    - left. lra.
    - right. auto.
    - left. apply Q.max_lub; auto. nra.
  Qed.

  (** C15: the log of callback invocations of one run.  Iteration numbers are
      consecutive from 0; at each counted iteration every callback is invoked
      once, in the order of the registry, with the iterate of that iteration;
      the last one is the returned iterate, unless the run gave up because the
      regularisation reached its maximum. *)
  Theorem C15_callbacks : forall fuel s r l s', run fuel s = (r, l) -> final X Rest P C r = Some s' ->
    exists iters, length iters = num_iters s' /\
      log s' = log s ++ concat (map (fun p => map (fun c => (c, p)) callbacks)
                                    (combine (seq 0 (num_iters s')) iters)) /\
      (last iters (it s) = it s' \/ (r = Done false s' /\ reg_max o <= preg s')).
  Proof.
    intros fuel s r l s' H Hf. unfold AlmModel.run in H.
    destruct (start_fields X Rest P C init_state new_pv pow_pa pow_da o s) as (A & B & D & E & F & _).
    eapply outer_bounds in H; [|solve [exact A|exact init_state|rewrite B; lia]..]. destruct H as (_ & _ & H).
    destruct (H _ Hf) as (_ & _ & iters & H1 & H2 & H3). rewrite B in H1, H2. rewrite E in H2.
    rewrite F in H3. exists iters. unfold logged in H2. simpl in H1. rewrite <- H1 in H2. auto.
  Qed.

  (** C16, partial: with a forced initial condition the first state is that of
      the warm start throughout the run.  Missing: that it is the initial state
      of the problem, refuted below. *)
  Theorem C16_first_state_partial :
    force_init o = true -> (forall x a, integ x a zero = x) ->
    (forall s, fst (fst (ls s)) <> []) ->
    forall fuel s r l s', run fuel s = (r, l) -> final X Rest P C r = Some s' ->
    x0 (it s') = x0 (it s).
  Proof.
    intros Hf Hz He fuel s r l s' H E. unfold AlmModel.run in H.
    destruct (start_fields X Rest P C init_state new_pv pow_pa pow_da o s) as (_ & _ & _ & _ & F & _).
    rewrite <- F. eapply outer_x0; eauto.
  Qed.

  (** C16: a warm start that violates the initial condition by more than the
      tolerance can then never lead to success. *)
  Theorem C16_bad_warm_start_never_converges :
    force_init o = true -> (forall x a, integ x a zero = x) ->
    (forall s, fst (fst (ls s)) <> []) -> rollout_type o = LINEAR ->
    (forall m p i, rest_res m p i <> None) ->
    forall fuel s s' l, target_tol o < init_res (x0 (it s)) -> run fuel s <> (Done true s', l).
  Proof.
    intros Hf Hz He Hl Ht fuel s s' l Hbad H.
    pose proof (C16_first_state_partial Hf Hz He _ _ _ _ _ H eq_refl) as E.
    destruct (C12_success _ _ _ _ H) as (_ & Hp & _).
    destruct (C12_residuals_partial Hl Ht He _ _ _ _ H) as (m & p & q & _ & K & _).
    rewrite K, E in Hp. pose proof (Q.le_max_l (init_res (x0 (it s))) q). lra.
  Qed.
End Any.
Print Assumptions C12_success.
Print Assumptions C12_residuals_partial.
Print Assumptions C13_budgets.
Print Assumptions C13_terminates_partial.
Print Assumptions C14_bounds.
Print Assumptions C14_penalty_update.
Print Assumptions C14_monotone.
Print Assumptions C15_callbacks.
Print Assumptions C16_first_state_partial.
Print Assumptions C16_bad_warm_start_never_converges.

(** ** Registry of callbacks (C15) *)
(** Registering replaces the callback of that name and keeps all others. *)
Theorem C15_register : forall (name cb : Type) (eqb : name -> name -> bool),
  (forall a b, eqb a b = true <-> a = b) ->
  forall r n c m, get_callback name cb eqb (register name cb eqb r n c) m =
    if eqb n m then Some c else get_callback name cb eqb r m.
Proof.
  intros name cb eqb He r n c m. induction r as [|[n' c'] r IH]; simpl.
  - destruct (eqb n m); auto.
  - destruct (eqb n' n) eqn:E; simpl.
    + apply He in E. subst. destruct (eqb n m); auto.
    + rewrite IH. destruct (eqb n' m) eqn:Em; auto.
      apply He in Em. subst. destruct (eqb n m) eqn:E2; auto.
      apply He in E2. subst. rewrite (proj2 (He m m) eq_refl) in E. discriminate.
Qed.
Print Assumptions C15_register.

Theorem C15_names_unique : forall (name cb : Type) (eqb : name -> name -> bool),
  (forall a b, eqb a b = true <-> a = b) ->
  forall r n c, NoDup (map fst r) -> NoDup (map fst (register name cb eqb r n c)) /\
    NoDup (map fst (snd (unregister name cb eqb r n))).
Proof.
  intros name cb eqb He r n c. 
  assert (R : forall r m, In m (map fst (register name cb eqb r n c)) -> m = n \/ In m (map fst r)).
  { clear r. induction r as [|[n' c'] r IH]; simpl; intros m.
    - intuition.
    - destruct (eqb n' n) eqn:E; simpl; [intuition|].
      intros [K|K]; [auto|]. apply IH in K. intuition. }
  assert (U : forall r m, In m (map fst (snd (unregister name cb eqb r n))) -> In m (map fst r)).
  { clear r R. induction r as [|[n' c'] r IH]; simpl; intros m; auto.
    destruct (eqb n' n); simpl; auto.
    destruct (unregister name cb eqb r n) as [b r'] eqn:E'. simpl in *.
    intros [K|K]; [auto|right; auto]. }
  induction r as [|[n' c'] r IH]; simpl; intros H.
  - split; repeat constructor. auto.
  - inversion H as [|? ? H1 H2]; subst. destruct (IH H2) as [I1 I2].
    destruct (eqb n' n) eqn:E; simpl; [split; [constructor|]; auto|].
    specialize (U r). destruct (unregister name cb eqb r n) as [b r'] eqn:E'. simpl in *.
    split; constructor; auto.
    intros K. apply R in K. destruct K as [K|K]; auto.
    subst. rewrite (proj2 (He n n) eq_refl) in E. discriminate.
Qed.
Print Assumptions C15_names_unique.

(** Removing a name removes it, reports whether it was there, and keeps all
    others. *)
Theorem C15_unregister : forall (name cb : Type) (eqb : name -> name -> bool),
  (forall a b, eqb a b = true <-> a = b) ->
  forall r n, NoDup (map fst r) ->
  (fst (unregister name cb eqb r n) = true <-> In n (map fst r)) /\
  forall m, get_callback name cb eqb (snd (unregister name cb eqb r n)) m =
    if eqb n m then None else get_callback name cb eqb r m.
Proof.
  intros name cb eqb He r n Hd.
  assert (Hn : forall (r : list (name * cb)) m, ~ In m (map fst r) -> get_callback name cb eqb r m = None).
  { clear - He. intros r m. induction r as [|[n' c'] r IH]; simpl; auto.
    intros K. destruct (eqb n' m) eqn:E; auto. exfalso. apply He in E; auto. }
  induction r as [|[n' c'] r IH]; simpl.
  - split; [split; [discriminate|tauto]|]. intros m. destruct (eqb n m); auto.
  - inversion Hd as [|? ? H1 H2]; subst. destruct (eqb n' n) eqn:E; simpl.
    + apply He in E. subst. split; [intuition|]. intros m.
      destruct (eqb n m) eqn:Em; auto. apply He in Em. subst. apply Hn; auto.
    + destruct (IH H2) as [A B]. destruct (unregister name cb eqb r n) as [b r'] eqn:E'. simpl in *.
      split.
      * rewrite A. split; auto. intros [K|K]; auto. subst. rewrite (proj2 (He n n) eq_refl) in E. discriminate.
      * intros m. rewrite B. destruct (eqb n' m) eqn:Em; auto.
        apply He in Em. subst. destruct (eqb n m) eqn:E2; auto.
        apply He in E2. subst. rewrite (proj2 (He m m) eq_refl) in E. discriminate.
Qed.
Print Assumptions C15_unregister.

Example C15_registry_witness :
  let r := register nat nat Nat.eqb [(1, 10); (2, 20)]%nat 1%nat 11%nat in
  r = [(1, 11); (2, 20)]%nat /\ unregister nat nat Nat.eqb r 1%nat = (true, [(2, 20)]%nat) /\
  NoDup (map fst r).
Proof. repeat split. repeat constructor; simpl; intuition discriminate. Qed.

(** ** Concrete runs *)
Definition base (force : bool) (ro : rollout) (tol : Q) (mi : nat) : opts :=
  Opts tol tol true (1 # 100) (1 # 100) (1 # 100000000) (1 # 10000000000) 1000000000
       (1 # 1000000000) 10 100 (1 # 3) 1 1 (1 # 1000000) (1 # 10000000000000) force ro NEWTON mi 3.
Definition Z0 : st Q Q unit nat :=
  St (It 0 0) (It 0 0) 0 0 None None 0 0 0 0 0 0%nat 0%nat false tt 0 [] 0%nat.
(** scalar problem; [rest] is the Lagrangian gradient, each line search
    evaluates the steps 1 and 1/2 and halves it; callbacks 7 and 8 *)
Definition demo_run (rr : Q -> unit -> iterate Q Q -> option Q) (cr : st Q Q unit nat -> option Q)
    (step : Q) (o : opts) (fuel : nat) (s : st Q Q unit nat) :=
  run Q Q Q unit nat 0 (fun x => qabs x) rr (fun i => Some (qabs (rest i))) cr (fun _ => true)
    (fun _ => 1) (fun _ => 0) (fun _ => step) 0 (fun x a t => if Qeq_bool t 0 then x else Qred (x + a * t))
    (fun s a => Qred (a * rest (it s))) (fun _ => ([1; 1 # 2], 1 # 2, 0)) (fun _ => tt)
    (fun x => x) (fun x => x) (fun x => x) (fun x => x) o [7%nat; 8%nat] fuel s.
Definition show (r : outcome Q Q unit nat * list (st Q Q unit nat)) :=
  match fst r with
  | Done b s => Some (b, x0 (it s), rest (it s), prim s, dual s, num_iters s, al_iter s,
                      map (fun p => (fst p, fst (snd p), rest (snd (snd p)))) (log s),
                      map (fun h => (mu h, Qred (inner_tol h), Qred (prim_tol h))) (snd r))
  | _ => None
  end.

(** Witness for C12-C16: hypotheses of all the theorems above hold and the run
    succeeds after three counted iterations. *)
Example C12_witness :
  show (demo_run (fun _ _ _ => Some 0) (fun s => Some (1 + qabs (rest (it s)))) 0
          (base true LINEAR (1 # 5) 5) 3 (set_it Z0 (It 0 1))) =
  Some (true, 0, 1 # 8, 0, Some (1 # 8), 3%nat, 0%nat,
        [(7%nat, 0%nat, 1 # 2); (8%nat, 0%nat, 1 # 2); (7%nat, 1%nat, 1 # 4); (8%nat, 1%nat, 1 # 4);
         (7%nat, 2%nat, 1 # 8); (8%nat, 2%nat, 1 # 8)],
        [(1 # 100, 1 # 5, 1 # 5)]).
Proof. vm_compute. reflexivity. Qed.

(** Witness for C14: two failed passes; penalty divided, then reset. *)
Example C14_witness :
  match demo_run (fun m _ _ => Some (100 * m + 1)) (fun s => Some 0) 0
          (Opts (1 # 1000) 0 true (1 # 100) (1 # 100) (1 # 10000000) 0 1 0 1 1 1 1 1 (1 # 1000000) 0
                true LINEAR NEWTON 5 3) 3 (set_it Z0 (It 0 1)) with
  | (Done false _, l) => map (fun h => Qred (mu h)) l = [1 # 100; 1 # 10000; 1 # 1000000; 1 # 100]
  | _ => False
  end.
Proof. vm_compute. reflexivity. Qed.

(** C12, finding: the value returned by [computeMultipliers] is ignored at the
    start of the inner loop, and [prim_infeas] is not written when it finds
    NaN; the residual left by an earlier run then certifies an iterate whose
    constraints are NaN. *)
Theorem C12_stale_residual_refuted : exists s s' l,
  demo_run (fun _ _ _ => None) (fun s => Some 1) 0 (base true LINEAR (1 # 5) 5) 3 s = (Done true s', l) /\
  conv s' = true /\ prim s' = 0 /\
  (* the constraint evaluation of the returned iterate has no value *)
  (forall m p, (fun (_ : Q) (_ : unit) (_ : iterate Q Q) => @None Q) m p (it s') = None).
Proof. eexists (set_it Z0 (It 0 0)), _, _. split; [vm_compute; reflexivity|]. repeat split. Qed.
Print Assumptions C12_stale_residual_refuted.

(** C12, finding: the nonlinear rollout does not evaluate the initial
    condition; with a free initial state the solver reports a zero residual
    for a trajectory which starts five (times one half) away. *)
Theorem C12_initial_condition_refuted : exists s s' l,
  demo_run (fun _ _ _ => Some 0) (fun s => Some 1) 5 (base false NONLINEAR (1 # 2) 5) 3 s
    = (Done true s', l) /\
  prim s' = 0 /\ Qle_bool 2 (qabs (x0 (it s'))) = true.
Proof. eexists (set_it Z0 (It 0 1)), _, _. split; [vm_compute; reflexivity|]. split; reflexivity. Qed.
Print Assumptions C12_initial_condition_refuted.

(** C12, finding: when the budget ends the run, [dual_infeas] is that of the
    iterate before the returned one. *)
Theorem C12_dual_on_failure_refuted : exists s s' l,
  demo_run (fun _ _ _ => Some 0) (fun s => Some 1) 0 (base true LINEAR 0 2) 3 s = (Done false s', l) /\
  dual s' = Some (1 # 2) /\ qabs (rest (it s')) = 1 # 4.
Proof. eexists (set_it Z0 (It 0 1)), _, _. split; [vm_compute; reflexivity|]. split; reflexivity. Qed.
Print Assumptions C12_dual_on_failure_refuted.

(** C13, finding: an inner criterion that is exactly zero makes the do-while
    on the tolerances endless in exact arithmetic... *)
Lemma shrink_zero fuel : forall s : st Q Q unit nat, crit s = Some 0 -> 0 < inner_tol s -> 0 < mu s ->
  shrink_tols Q Q unit nat (fun x => x) (fun x => x) fuel s = None.
Proof.
  induction fuel as [|n IH]; intros s Hc Ht Hm; auto. cbn [shrink_tols].
  assert (P : 0 < inner_tol s * Qmin (mu s) (99 # 100)).
  { assert (0 < Qmin (mu s) (99 # 100)) by (apply Q.min_glb_lt; [auto|reflexivity]). nra. }
  unfold qlt_nan, tols_on_success. cbn [crit inner_tol set_tols]. rewrite Hc.
  assert (E : Qle_bool (inner_tol s * Qmin (mu s) (99 # 100)) 0 = false).
  { destruct (Qle_bool _ _) eqn:E; auto. apply Qle_bool_iff in E. lra. }
  rewrite E. apply IH; auto.
Qed.
Theorem C13_terminates_refuted : exists s, forall fuel,
  fst (demo_run (fun _ _ _ => Some 0) (fun s => Some 0) 0 (base true LINEAR (1 # 5) 5) fuel s) = Diverged.
Proof.
  exists Z0. intros fuel.
  unfold demo_run, run. cbn [max_al_iters base outer].
  match goal with |- context [inner_loop ?a1 ?a2 ?a3 ?a4 ?a5 ?a6 ?a7 ?a8 ?a9 ?b1 ?b2 ?b3 ?b4 ?b5 ?b6 ?b7 ?b8 ?b9 ?c ?s] =>
    let r := eval vm_compute in (inner_loop a1 a2 a3 a4 a5 a6 a7 a8 a9 b1 b2 b3 b4 b5 b6 b7 b8 b9 c s) in
    assert (E : inner_loop a1 a2 a3 a4 a5 a6 a7 a8 a9 b1 b2 b3 b4 b5 b6 b7 b8 b9 c s = r)
      by (vm_compute; reflexivity); rewrite E; clear E end.
  cbn [Nat.ltb Nat.leb num_iters start set_num_iters max_iters base].
  unfold after_inner. cbn [prim prim_tol Qle_bool].
  rewrite shrink_zero; reflexivity.
Qed.
Print Assumptions C13_terminates_refuted.

(** ... and in binary64 as well, when the penalty is at least 0.99: the
    tolerance reaches a subnormal number which the multiplication by 0.99
    rounds to itself.  (hpp 332-336 and hxx 492-494, with the default exponent
    dual_beta = 1, for which pow is the identity; default inner_tol0 = 1.) *)
Definition f64 := spec_float.
Definition mul64 : f64 -> f64 -> f64 := SFmul 53 1024.
(** the double nearest to 0.99: 0x1.fae147ae147aep-1 *)
Definition c099 : f64 := S754_finite false 8917127262193582 (-53).
Fixpoint shrink64 (crit arg : f64) (fuel : nat) (tol : f64) : option f64 :=
  match fuel with
  | O => None
  | S k => let tol := mul64 tol arg in
           if SFltb crit tol then shrink64 crit arg k tol else Some tol
  end.
Definition stuck : f64 := S754_finite false 49 (-1074).
Lemma shrink64_step crit arg t : SFltb crit (mul64 t arg) = true ->
  forall n, (forall f, shrink64 crit arg f (mul64 t arg) = None) -> shrink64 crit arg n t = None.
Proof. intros H n K. destruct n as [|n]; auto. cbn [shrink64]. rewrite H. apply K. Qed.
Fixpoint pushes (n : nat) (crit arg t : f64) : option f64 :=
  match n with
  | O => Some t
  | S k => let t' := mul64 t arg in if SFltb crit t' then pushes k crit arg t' else None
  end.
Lemma pushes_sound n crit arg : forall t t', pushes n crit arg t = Some t' ->
  (forall f, shrink64 crit arg f t' = None) -> forall f, shrink64 crit arg f t = None.
Proof.
  induction n as [|n IH]; intros t t' H K; simpl in H.
  - inversion H; subst; auto.
  - destruct (SFltb crit (mul64 t arg)) eqn:E; [|discriminate].
    intros f. apply shrink64_step; auto. intros g. eapply IH; eauto.
Qed.
Theorem C13_terminates_binary64_refuted :
  (* initial inner tolerance: inner_tol0 * pow(0.99, 1) *)
  forall fuel, shrink64 (S754_zero false) c099 fuel (mul64 (S754_finite false 4503599627370496 (-52)) c099) = None.
Proof.
  assert (F : forall f, shrink64 (S754_zero false) c099 f stuck = None).
  { induction f as [|f IH]; auto. }
  assert (E : pushes (N.to_nat 73900) (S754_zero false) c099
    (mul64 (S754_finite false 4503599627370496 (-52)) c099) = Some stuck)
    by (vm_compute; reflexivity).
  intros fuel. exact (pushes_sound _ _ _ _ _ E F fuel).
Qed.
Print Assumptions C13_terminates_binary64_refuted.

(** C14, finding: the floor of the inner tolerance is one hundredth of the
    target, so it does go below the target. *)
Theorem C14_inner_tolerance_refuted : exists s s' l h,
  demo_run (fun _ _ _ => Some (1 # 2)) (fun s => Some (1 # 10)) 0
    (Opts (1 # 10) 0 true (1 # 100) (1 # 100) (1 # 10000000) 0 1 0 1 1 1 1 6 (1 # 1000000) 0
                true LINEAR NEWTON 5 1) 3 s = (Done false s', l) /\
  In h l /\ Qle_bool (1 # 10) (inner_tol h) = false.
Proof.
  eexists (set_it Z0 (It 0 1)), _, _, _. split; [vm_compute; reflexivity|].
  split; [right; left; reflexivity|]. vm_compute. reflexivity.
Qed.
Print Assumptions C14_inner_tolerance_refuted.

(** C16, finding: the initial state of the problem is written to the trial
    point only, which the first step overwrites; the run keeps the warm start. *)
Theorem C16_initial_state_refuted : exists s s' l,
  demo_run (fun _ _ _ => Some 0) (fun s => Some 1) 0 (base true LINEAR (1 # 5) 2) 3 s = (Done false s', l) /\
  force_init (base true LINEAR (1 # 5) 2) = true /\ x0 (it s') = 3.
Proof. eexists (set_it Z0 (It 3 1)), _, _. split; [vm_compute; reflexivity|]. split; reflexivity. Qed.
Print Assumptions C16_initial_state_refuted.
