(** Properties C14 (tolerances, multiplier estimates, dynamics penalty) and C54
    (primal regularisation) of SolverProxDDP, for every behaviour of the
    numerical routines. *)
From Coq Require Import QArith Qminmax List Bool Arith Lia Lqa.
From Verif Require Import AlmModel AlmProofs P_alm.
Import ListNotations.
Local Open Scope Q_scope.

(** ** Specification *)
(** [a] multiplied [n] times by [x] *)
Fixpoint scaled (a x : Q) (n : nat) : Q :=
  match n with O => a | S k => scaled (a * x) x k end.
(** regularisation of an iteration, from the one that the previous counted
    iteration of the run ended with ([None]: first iteration) *)
Definition reg_used (o : opts) (last : option Q) : Q :=
  match last with
  | None => Qmax (reg_init o) (reg_min o)
  | Some r => Qmax (reg_min o) (r * reg_dec_k o)
  end.
(** regularisation an iteration ends with, when its step was [small] or not *)
Definition reg_after (o : opts) (last : option Q) (small : bool) : Q :=
  if small then reg_used o last * match last with None => reg_inc_first_k o | Some _ => reg_inc_k o end
  else reg_used o last.

Section Any.
  Variables X T Rest P C : Type.
  Variable init_state : X.
  Variable init_res : X -> Q.
  Variable rest_res : Q -> P -> iterate X Rest -> option Q.
  Variable dual_of : iterate X Rest -> option Q.
  Variable crit_of : st X Rest P C -> option Q.
  Variable ok : st X Rest P C -> bool.
  Variables slope merit_of : st X Rest P C -> Q.
  Variable dx0 : st X Rest P C -> T.
  Variable zero : T.
  Variable integ : X -> Q -> T -> X.
  Variable trial_rest : st X Rest P C -> Q -> Rest.
  Variable ls : st X Rest P C -> list Q * Q * Q.
  Variable new_pv : st X Rest P C -> P.
  Variables pow_pa pow_da pow_pb pow_db : Q -> Q.
  Variable o : opts.
  Variable callbacks : list C.
  Notation st := (st X Rest P C).
  Notation fpass := (forward_pass X T Rest P C init_res rest_res dx0 zero integ trial_rest o).
  Notation check := (check X Rest P C dual_of crit_of).
  Notation search := (search X T Rest P C init_res rest_res dx0 zero integ trial_rest ls o).
  Notation accept := (accept X Rest P C).
  Notation finish := (finish X Rest P C o callbacks).
  Notation inner_iter := (inner_iter X T Rest P C init_res rest_res dual_of crit_of ok slope dx0 zero
    integ trial_rest ls o callbacks).
  Notation enter := (enter X Rest P C init_res rest_res merit_of).
  Notation inner_loop := (inner_loop X T Rest P C init_res rest_res dual_of crit_of ok slope merit_of
    dx0 zero integ trial_rest ls o callbacks).
  Notation shrink := (shrink_tols X Rest P C pow_pb pow_db).
  Notation after_inner := (after_inner X Rest P C new_pv pow_pa pow_da pow_pb pow_db o).
  Notation on_failure := (on_failure X Rest P C pow_pa pow_da o).
  Notation next_outer := (next_outer X Rest P C o).
  Notation outer := (outer X T Rest P C init_res rest_res dual_of crit_of ok slope merit_of dx0 zero
    integ trial_rest ls new_pv pow_pa pow_da pow_pb pow_db o callbacks).
  Notation start := (start X Rest P C init_state new_pv pow_pa pow_da o).
  Notation run := (run X T Rest P C init_state init_res rest_res dual_of crit_of ok slope merit_of
    dx0 zero integ trial_rest ls new_pv pow_pa pow_da pow_pb pow_db o callbacks).
  Notation init_reg := (init_reg X Rest P C o).
  Notation measure := (measure X Rest P C rest_res).
  Notation target_dual := (target_dual o).

  (** two consecutive heads of the outer loop *)
  Lemma outer_heads fuel k : forall s r l, outer fuel k s = (r, l) ->
    (exists l', l = s :: l') /\
    forall l1 h h' l2, l = l1 ++ h :: h' :: l2 ->
    exists s1 s2, inner_loop h = Returns true s1 /\ after_inner fuel s1 = Some (inr s2) /\
                  h' = next_outer s2.
  Proof.
    induction k as [|k IH]; intros s r l H; cbn [AlmModel.outer] in H; cbv zeta in H.
    - inversion H; subst. split; [eauto|].
      intros l1 h h' l2 E. destruct l1 as [|? [|? ?]]; discriminate.
    - assert (One : (exists l', [s] = s :: l') /\
        forall l1 h h' l2, [s] = l1 ++ h :: h' :: l2 ->
        exists s1 s2, inner_loop h = Returns true s1 /\ after_inner fuel s1 = Some (inr s2) /\
                  h' = next_outer s2).
      { split; [eauto|]. intros l1 h h' l2 E. destruct l1 as [|? [|? ?]]; discriminate. }
      destruct (Nat.ltb _ _); [|inversion H; subst; exact One].
      destruct (inner_loop s) as [[|] s1|s1] eqn:Ei; [|inversion H; subst; exact One..].
      destruct (after_inner fuel s1) as [[s2|s2]|] eqn:Ea;
        [inversion H; subst; exact One| |inversion H; subst; exact One].
      destruct (outer fuel k (next_outer s2)) as [r' l'] eqn:Eo. simpl in H.
      inversion H; subst. destruct (IH _ _ _ Eo) as ((l'' & ->) & B). split; [eauto|].
      intros [|a l1] h h' l2 E; simpl in E; inversion E; subst; clear E; eauto.
  Qed.

  Lemma shrink_count fuel : forall s s', shrink fuel s = Some s' ->
    exists n, s' = set_tols s (scaled (inner_tol s) (pow_db (Qmin (mu s) (99 # 100))) (S n))
                              (scaled (prim_tol s) (pow_pb (Qmin (mu s) (99 # 100))) (S n)) /\
      (forall c, crit s = Some c ->
         scaled (inner_tol s) (pow_db (Qmin (mu s) (99 # 100))) (S n) <= c /\
         forall i, (i < n)%nat ->
           c < scaled (inner_tol s) (pow_db (Qmin (mu s) (99 # 100))) (S i)) /\
      (crit s = None -> n = 0%nat).
  Proof.
    induction fuel as [|k IH]; intros s s' H; cbn [shrink_tols] in H; [discriminate|].
    destruct (qlt_nan _ _) eqn:E in H.
    - destruct (IH _ _ H) as (n & -> & A & B).
      cbn [crit mu inner_tol prim_tol tols_on_success set_tols] in *.
      exists (S n). split; [reflexivity|]. split.
      + intros c Hc. destruct (A c Hc) as (A1 & A2). split; [exact A1|].
        intros [|i] Hi; [|apply (A2 i); lia].
        rewrite Hc in E. simpl in E. simpl.
        destruct (Qle_bool _ c) eqn:Eb in E; [discriminate|].
        destruct (Qlt_le_dec c (inner_tol s * pow_db (Qmin (mu s) (99 # 100)))) as [|K]; auto.
        apply Qle_bool_iff in K. congruence.
      + intros Hc. rewrite Hc in E. discriminate.
    - inversion H; subst; clear H. exists 0%nat. split; [reflexivity|]. split; [|auto].
      intros c Hc. unfold tols_on_success in E. cbn [crit set_tols inner_tol] in E. rewrite Hc in E.
      simpl in E. split; [|intros i Hi; lia]. simpl.
      destruct (Qle_bool _ c) eqn:Eb in E; [|discriminate]. now apply Qle_bool_iff.
  Qed.

  (** C14: tolerances and multiplier estimates at the next head of the outer
      loop.  After a pass that met the primal tolerance, both tolerances have
      been multiplied the same number of times by the power of the penalty,
      the least number (at least one) which brings the inner tolerance down to
      the criterion, and the proximal multiplier estimates are replaced.
      After another pass the tolerances are those of the reduced penalty,
      before its reset, and the estimates are kept.  Both times the floors
      apply. *)
  Theorem C14_tolerances : forall fuel s r l, run fuel s = (r, l) ->
    forall l1 h h' l2, l = l1 ++ h :: h' :: l2 ->
    exists s1, inner_loop h = Returns true s1 /\
    ((prim s1 <= prim_tol h /\
      let f := pow_db (Qmin (mu h) (99 # 100)) in
      let g := pow_pb (Qmin (mu h) (99 # 100)) in
      exists n, inner_tol h' = Qmax (scaled (inner_tol h) f (S n)) ((1 # 100) * target_dual) /\
        prim_tol h' = Qmax (scaled (prim_tol h) g (S n)) (target_tol o) /\
        (forall c, crit s1 = Some c -> scaled (inner_tol h) f (S n) <= c /\
           forall i, (i < n)%nat -> c < scaled (inner_tol h) f (S i)) /\
        (crit s1 = None -> n = 0%nat) /\
        (exists a b, pv h' = new_pv (set_tols s1 a b))) \/
     (prim_tol h < prim s1 /\ pv h' = pv h /\
      let m := Qmin (Qmax (mu h * mu_update_factor o) (mu_lower_bound o)) (99 # 100) in
      inner_tol h' = Qmax (inner_tol0 o * pow_da m) ((1 # 100) * target_dual) /\
      prim_tol h' = Qmax (prim_tol0 o * pow_pa m) (target_tol o))).
  Proof.
    intros fuel s r l H l1 h h' l2 E. unfold AlmModel.run in H.
    apply outer_heads in H. destruct H as (_ & H). destruct (H _ _ _ _ E) as (s1 & s2 & A & B & D).
    exists s1. split; auto.
    pose proof A as A'. eapply inner_returns_post in A'; [|try exact init_state; try exact new_pv; try exact pow_pa..].
    destruct A' as ((F1 & F2 & F3 & _ & _ & F6) & _).
    cbn [res_state] in *.
    unfold AlmModel.after_inner in B. destruct (Qle_bool (prim s1) (prim_tol s1)) eqn:Eb.
    - left. apply Qle_bool_iff in Eb. rewrite F3 in Eb. split; auto. cbv zeta.
      destruct (shrink fuel s1) as [s3|] eqn:Es; [|discriminate].
      destruct (shrink_count _ _ _ Es) as (n & E3 & G1 & G2). rewrite F1, F2, F3 in *.
      exists n. subst s3.
      destruct (overall _ _ _ _ _ _) in B; [discriminate|]. inversion B; subst s2; clear B.
      rewrite D. cbn [AlmModel.next_outer set_al_iter set_tols inner_tol prim_tol pv set_pv crit].
      repeat split; auto; try (apply G1; auto). eauto.
    - right. assert (K : prim_tol s1 < prim s1).
      { destruct (Qlt_le_dec (prim_tol s1) (prim s1)) as [|K]; auto.
        apply Qle_bool_iff in K. congruence. }
      rewrite F3 in K. split; auto. inversion B; subst s2; clear B. cbv zeta.
      rewrite D. unfold AlmModel.on_failure.
      destruct (scalar_close _ _); cbn; rewrite F1, F6; auto.
  Qed.

  (** C14: the tolerances at the start of a run *)
  Theorem C14_first_tolerances : forall fuel s r l, run fuel s = (r, l) ->
    exists h l', l = h :: l' /\
      let m := Qmin (Qmax (mu_init o) (mu_lower_bound o)) (99 # 100) in
      inner_tol h = Qmax (inner_tol0 o * pow_da m) target_dual /\
      prim_tol h = Qmax (prim_tol0 o * pow_pa m) (target_tol o).
  Proof.
    intros fuel s r l H. unfold AlmModel.run in H.
    apply outer_heads in H. destruct H as ((l' & ->) & _).
    eexists _, _. split; [reflexivity|]. cbv zeta. unfold AlmModel.start.
    destruct (force_init o); split; reflexivity.
  Qed.

  (** C14: the penalty of the dynamics is a tenth of the other one all along,
      so that it is above a tenth of the bound. *)
  Theorem C14_dynamics : forall fuel s r l, run fuel s = (r, l) -> 0 <= target_dual ->
    Forall (fun h => mu_dyn _ _ _ _ h == mu h / 10 /\ mu_lower_bound o / 10 <= mu_dyn _ _ _ _ h) l.
  Proof.
    intros fuel s r l H Ht. eapply C14_bounds in H; auto.
    eapply Forall_impl; [|exact H]. intros h (A & _). unfold mu_dyn.
    split; [field|]. setoid_replace (mu_lower_bound o / 10) with ((1 # 10) * mu_lower_bound o) by field. lra.
  Qed.

  (** ** C54 *)
  (** [preg_last_ == 0] means that no iteration of the run was counted *)
  Definition last_reg (s : st) : option Q :=
    if Qeq_bool (preg_last s) 0 then None else Some (preg_last s).

  Lemma fold_preg l : forall s, preg (fold_left fpass l s) = preg s /\
    preg_last (fold_left fpass l s) = preg_last s.
  Proof.
    induction l as [|a l IH]; intros s; simpl; auto. destruct (IH (fpass s a)) as [-> ->].
    unfold forward_pass. destruct (rollout_type o); destruct (measure _ _); auto.
  Qed.
  Lemma fold_num l : forall s, num_iters (fold_left fpass l s) = num_iters s.
  Proof.
    induction l as [|a l IH]; intros s; simpl; auto. rewrite IH.
    unfold forward_pass. destruct (rollout_type o); destruct (measure _ _); auto.
  Qed.
  Lemma init_reg_preg s : preg (init_reg s) = reg_used o (last_reg s) /\
    preg_last (init_reg s) = preg_last s.
  Proof.
    unfold AlmModel.init_reg, last_reg, reg_used. destruct (Qeq_bool _ _); auto.
  Qed.

  (** the state [sr] in which the line search of an iteration is called: the
      criterion was computed and the regularisation chosen for the LQ problem *)
  Definition searched (s sr : st) : Prop :=
    sr = tick (set_preg (check s) (reg_used o (last_reg s))).
  Lemma searched_preg s sr : searched s sr -> preg sr = reg_used o (last_reg s).
  Proof. intros ->. reflexivity. Qed.
  Definition small_step (sr : st) : bool := Qle_bool (snd (fst (ls sr))) (alpha_min o).

  Lemma inner_step n s :
    match inner_iter (S n) s with
    | Returns false s' =>
        (exists sr, searched s sr /\ small_step sr = true /\ reg_max o <= preg sr /\
           preg s' = preg sr /\ preg_last s' = preg_last s /\ num_iters s' = num_iters s) \/
        (exists sr s1, searched s sr /\ (small_step sr = true -> preg sr < reg_max o) /\
           preg s1 = reg_after o (last_reg s) (small_step sr) /\ preg_last s1 = preg s1 /\
           num_iters s1 = S (num_iters s) /\ inner_iter n s1 = Returns false s')
    | Returns true s' => (preg_last s' = preg_last s /\ num_iters s' = num_iters s) \/
        (exists sr s1, searched s sr /\ (small_step sr = true -> preg sr < reg_max o) /\
           preg s1 = reg_after o (last_reg s) (small_step sr) /\ preg_last s1 = preg s1 /\
           num_iters s1 = S (num_iters s) /\ inner_iter n s1 = Returns true s')
    | Raises s' => (preg_last s' = preg_last s /\ num_iters s' = num_iters s) \/
        (exists sr s1, searched s sr /\ (small_step sr = true -> preg sr < reg_max o) /\
           preg s1 = reg_after o (last_reg s) (small_step sr) /\ preg_last s1 = preg s1 /\
           num_iters s1 = S (num_iters s) /\ inner_iter n s1 = Raises s')
    end.
  Proof.
    cbn [AlmModel.inner_iter]. cbv zeta.
    set (s1 := check s). set (s3 := tick (init_reg s1)).
    assert (R : preg s3 = reg_used o (last_reg s) /\ preg_last s3 = preg_last s).
    { destruct (init_reg_preg s1) as [A B]. split; [exact A|exact B]. }
    assert (Q : num_iters s3 = num_iters s).
    { unfold s3, AlmModel.init_reg. destruct (Qeq_bool _ _); reflexivity. }
    assert (S3 : searched s s3).
    { unfold searched, s3, AlmModel.init_reg, last_reg.
      change (preg_last s1) with (preg_last s). destruct (Qeq_bool _ _); reflexivity. }
    destruct (negb (ok s)); [left; split; reflexivity|].
    destruct (stop _ _ _ _ _ _); [left; split; reflexivity|].
    destruct (negb (ok (init_reg _))); [left; split; [apply R|exact Q]|].
    destruct (Qle_bool (qabs _) _); [left; split; [apply R|exact Q]|].
    destruct (negb (ok s3)); [left; split; [apply R|exact Q]|].
    assert (S4 : preg (search s3) = preg s3 /\ preg_last (search s3) = preg_last s3) by apply fold_preg.
    assert (Q4 : num_iters (search s3) = num_iters s).
    { rewrite <- Q. unfold AlmModel.search. apply fold_num. }
    destruct (negb (ok (search s3))); [left; split; [rewrite (proj2 S4); apply R|exact Q4]|].
    fold (small_step s3).
    set (s5 := accept (search s3) (snd (ls s3))).
    assert (P5 : preg s5 = reg_used o (last_reg s) /\ preg_last s5 = preg_last s).
    { unfold s5. cbn [AlmModel.accept tick set_merit set_it preg preg_last].
      rewrite (proj1 S4), (proj2 S4). exact R. }
    change (num_iters (search s3)) with (num_iters s5) in Q4.
    assert (Ps3 : preg s3 = preg s5) by (rewrite (proj1 P5); apply R).
    destruct (small_step s3 && Qle_bool (reg_max o) (preg s5)) eqn:Eg.
    { left. apply andb_true_iff in Eg. destruct Eg as [Eg1 Eg2]. apply Qle_bool_iff in Eg2.
      exists s3. rewrite Ps3. destruct P5 as [P51 P52]. auto 10. }
    assert (St : small_step s3 = true -> preg s3 < reg_max o).
    { intros K. rewrite K in Eg. cbn [andb] in Eg. rewrite Ps3.
      destruct (Qlt_le_dec (preg s5) (reg_max o)) as [|L]; auto. apply Qle_bool_iff in L. congruence. }
    set (s6 := finish (small_step s3) s5).
    assert (P6 : preg s6 = reg_after o (last_reg s) (small_step s3) /\ preg_last s6 = preg s6 /\
                 num_iters s6 = S (num_iters s)).
    { clearbody s5. unfold s6, AlmModel.finish, reg_after. destruct (small_step s3).
      - unfold AlmModel.inc_reg, last_reg. rewrite (proj2 P5).
        unfold last_reg in P5. destruct (Qeq_bool _ _); cbn; rewrite (proj1 P5), Q4; auto.
      - cbn. rewrite (proj1 P5), Q4; auto. }
    destruct P6 as (P61 & P62 & P63).
    destruct (inner_iter n s6) as [[|] s'|s'] eqn:Ei; right; exists s3, s6; auto 10.
  Qed.

  (** C54: one iteration that is counted ([num_iters] goes up).  The
      regularisation it uses and the one it leaves to the next are those of
      the specification, and the run went on because the step was not minimal
      or the regularisation was below its maximum. *)
  Theorem C54_iteration : forall s s', inner_iter 1 s = Returns false s' ->
    num_iters s' = S (num_iters s) ->
    exists sr, searched s sr /\ (small_step sr = true -> preg sr < reg_max o) /\
      preg s' = reg_after o (last_reg s) (small_step sr) /\ preg_last s' = preg s'.
  Proof.
    intros s s' H Hn. pose proof (inner_step 0 s) as K. rewrite H in K.
    destruct K as [(sr & _ & _ & _ & _ & _ & K)|(sr & s1 & A & B & D & E & _ & G)]; [lia|].
    cbn in G. inversion G; subst. eauto 10.
  Qed.
  (** C54: an iteration that ends the run without being counted had a minimal
      step at the maximal regularisation. *)
  Theorem C54_gives_up : forall s s', inner_iter 1 s = Returns false s' ->
    num_iters s' = num_iters s ->
    exists sr, searched s sr /\ small_step sr = true /\ reg_max o <= preg sr /\ preg s' = preg sr.
  Proof.
    intros s s' H Hn. pose proof (inner_step 0 s) as K. rewrite H in K.
    destruct K as [(sr & A & B & D & E & _)|(sr & s1 & _ & _ & _ & _ & N & G)]; [eauto 10|].
    cbn in G. inversion G; subst. lia.
  Qed.
  (** C54: the inner loop is the repetition of such iterations. *)
  Theorem C54_loop : forall n s, inner_iter (S n) s =
    match inner_iter 1 s with
    | Returns false s' => if Nat.eqb (num_iters s') (S (num_iters s)) then inner_iter n s'
                          else Returns false s'
    | r => r
    end.
  Proof.
    intros n s. cbn [AlmModel.inner_iter]. cbv zeta.
    set (s1 := check s). set (s3 := tick (init_reg s1)).
    destruct (negb (ok s)); [reflexivity|]. destruct (stop _ _ _ _ _ _); [reflexivity|].
    destruct (negb (ok (init_reg _))); [reflexivity|].
    destruct (Qle_bool (qabs _) _); [reflexivity|].
    destruct (negb (ok s3)); [reflexivity|]. destruct (negb (ok (search s3))); [reflexivity|].
    set (s5 := accept _ _).
    assert (Q5 : num_iters s5 = num_iters s).
    { transitivity (num_iters s3).
      - change (num_iters s5) with (num_iters (search s3)). unfold AlmModel.search. apply fold_num.
      - unfold s3, AlmModel.init_reg. destruct (Qeq_bool _ _); reflexivity. }
    destruct (_ && _).
    - destruct (Nat.eqb_spec (num_iters s5) (S (num_iters s))); [lia|reflexivity].
    - match goal with |- context [finish ?b s5] => set (bb := b) end.
      assert (E : num_iters (finish bb s5) = S (num_iters s)).
      { rewrite <- Q5. unfold AlmModel.finish. destruct bb; [|reflexivity].
        unfold AlmModel.inc_reg. destruct (Qeq_bool _ _); reflexivity. }
      rewrite E, Nat.eqb_refl. reflexivity.
  Qed.

  Lemma enter_last s : preg_last (enter s) = preg_last s /\ num_iters (enter s) = num_iters s.
  Proof. unfold AlmModel.enter. destruct (measure _ _); auto. Qed.

  (** C54: a run forgets the regularisation of earlier runs, and its inner
      loops hand the last value over. *)
  Theorem C54_across_loops : forall fuel s r l, run fuel s = (r, l) ->
    (exists h l', l = h :: l' /\ last_reg h = None) /\
    (forall h, last_reg (enter h) = last_reg h) /\
    forall l1 h h' l2, l = l1 ++ h :: h' :: l2 ->
    exists s1, inner_loop h = Returns true s1 /\ last_reg h' = last_reg s1.
  Proof.
    intros fuel s r l H. unfold AlmModel.run in H. apply outer_heads in H.
    destruct H as ((l' & ->) & H). split; [|split].
    - eexists _, _. split; [reflexivity|]. unfold last_reg, AlmModel.start.
      destruct (force_init o); reflexivity.
    - intros h. unfold last_reg. rewrite (proj1 (enter_last h)). reflexivity.
    - intros l1 h h' l2 E. destruct (H _ _ _ _ E) as (s1 & s2 & A & B & D). exists s1. split; auto.
      assert (K : preg_last h' = preg_last s1).
      { subst h'. unfold AlmModel.after_inner in B. cbn.
        destruct (Qle_bool _ _).
        - destruct (shrink fuel s1) as [s3|] eqn:Es; [|discriminate].
          destruct (shrink_spec _ _ _ _ _ _ _ _ _ Es) as (a & b & ->).
          destruct (overall _ _ _ _ _ _) in B; [discriminate|]. now inversion B.
        - inversion B; subst. unfold AlmModel.on_failure. destruct (scalar_close _ _); reflexivity. }
      unfold last_reg. now rewrite K.
  Qed.

  (** C54: bounds, for sensible factors.  [bound] is the largest value the
      regularisation can take. *)
  Definition bound : Q :=
    Qmax (Qmax (reg_init o) (reg_min o)) (reg_max o * Qmax (reg_inc_first_k o) (reg_inc_k o)).
  Definition in_range (s : st) : Prop :=
    preg_last s == 0 \/ (reg_min o <= preg_last s /\ preg_last s <= bound).
  Section Bounds.
    Hypothesis min_pos : 0 <= reg_min o.
    Hypothesis dec_range : 0 <= reg_dec_k o /\ reg_dec_k o <= 1.
    Hypothesis inc_range : 1 <= reg_inc_k o /\ 1 <= reg_inc_first_k o.

    Lemma used_range s : in_range s -> reg_min o <= reg_used o (last_reg s) /\ reg_used o (last_reg s) <= bound.
    Proof.
      intros H. unfold reg_used, last_reg.
      assert (B0 : Qmax (reg_init o) (reg_min o) <= bound) by apply Q.le_max_l.
      assert (B1 : reg_min o <= bound) by (eapply Qle_trans; [apply Q.le_max_r|exact B0]).
      destruct (Qeq_bool _ _) eqn:E.
      - split; [apply Q.le_max_r|exact B0].
      - split; [apply Q.le_max_l|]. apply Q.max_lub; [exact B1|].
        destruct H as [H|[H1 H2]]; [apply Qeq_bool_iff in H; congruence|].
        assert (0 <= preg_last s) by lra. nra.
    Qed.
    Lemma after_range s b : in_range s -> (b = true -> reg_used o (last_reg s) < reg_max o) ->
      reg_min o <= reg_after o (last_reg s) b /\ reg_after o (last_reg s) b <= bound.
    Proof.
      intros H Hb. destruct (used_range s H) as [U1 U2]. unfold reg_after. destruct b; [|auto].
      specialize (Hb eq_refl).
      assert (G : forall k, 1 <= k -> k <= Qmax (reg_inc_first_k o) (reg_inc_k o) ->
        reg_min o <= reg_used o (last_reg s) * k /\ reg_used o (last_reg s) * k <= bound).
      { intros k K1 K2. split; [nra|].
        eapply Qle_trans; [|apply Q.le_max_r].
        set (M := Qmax (reg_inc_first_k o) (reg_inc_k o)) in *. nra. }
      destruct (last_reg s); apply G; try apply inc_range; [apply Q.le_max_r|apply Q.le_max_l].
    Qed.
    Lemma inner_range n : forall s, in_range s ->
      match inner_iter n s with Returns _ s' | Raises s' => in_range s' end.
    Proof.
      induction n as [|n IH]; intros s H; [exact H|].
      assert (K : forall sr s1, searched s sr -> (small_step sr = true -> preg sr < reg_max o) ->
        preg s1 = reg_after o (last_reg s) (small_step sr) -> preg_last s1 = preg s1 -> in_range s1).
      { intros sr s1 A B D E. right. rewrite E, D. apply after_range; auto.
        intros K. rewrite <- (searched_preg _ _ A). auto. }
      pose proof (inner_step n s) as S. destruct (inner_iter (Datatypes.S n) s) as [[|] s'|s'].
      - destruct S as [(A & _)|(sr & s1 & A & B & D & E & _ & G)].
        + unfold in_range. rewrite A. exact H.
        + specialize (IH s1 (K _ _ A B D E)). rewrite G in IH. exact IH.
      - destruct S as [(sr & _ & _ & _ & _ & A & _)|(sr & s1 & A & B & D & E & _ & G)].
        + unfold in_range. rewrite A. exact H.
        + specialize (IH s1 (K _ _ A B D E)). rewrite G in IH. exact IH.
      - destruct S as [(A & _)|(sr & s1 & A & B & D & E & _ & G)].
        + unfold in_range. rewrite A. exact H.
        + specialize (IH s1 (K _ _ A B D E)). rewrite G in IH. exact IH.
    Qed.
    (** every iteration of the inner loop solves its LQ problem with a
        regularisation in the range *)
    Theorem C54_bounds : forall s sr, in_range s -> searched s sr ->
      reg_min o <= preg sr /\ preg sr <= bound.
    Proof. intros s sr H A. rewrite (searched_preg _ _ A). now apply used_range. Qed.
    (** and all heads of the outer loop, and the final state, are in the range *)
    Theorem C54_bounds_run : forall fuel s r l, run fuel s = (r, l) ->
      Forall in_range l /\ forall s', final X Rest P C r = Some s' -> in_range s'.
    Proof.
      intros fuel s. unfold AlmModel.run.
      assert (H0 : in_range (start s)).
      { left. unfold AlmModel.start. destruct (force_init o); reflexivity. }
      revert H0. generalize (start s). generalize (max_al_iters o). clear s.
      induction n as [|k IH]; intros s H0 r l H; cbn [AlmModel.outer] in H; cbv zeta in H.
      { inversion H; subst. split; [auto|]. intros s' E. inversion E; now subst. }
      assert (IR : match inner_loop s with Returns _ s' | Raises s' => in_range s' end).
      { unfold AlmModel.inner_loop. destruct (negb (ok s)); [exact H0|]. apply inner_range.
        unfold in_range. rewrite (proj1 (enter_last s)). exact H0. }
      destruct (Nat.ltb _ _).
      2: { inversion H; subst. split; [auto|]. intros s' E. inversion E; now subst. }
      destruct (inner_loop s) as [[|] s1|s1] eqn:Ei.
      - destruct (after_inner fuel s1) as [[s2|s2]|] eqn:Ea.
        + inversion H; subst. split; [auto|]. intros s' E. inversion E; subst.
          unfold AlmModel.after_inner in Ea. destruct (Qle_bool _ _); [|discriminate].
          destruct (shrink fuel s1) as [s3|] eqn:Es; [|discriminate].
          destruct (shrink_spec _ _ _ _ _ _ _ _ _ Es) as (a & b & ->).
          destruct (overall _ _ _ _ _ _) in Ea; [|discriminate]. inversion Ea; subst. exact IR.
        + destruct (outer fuel k (next_outer s2)) as [r' l'] eqn:Eo. simpl in H. inversion H; subst.
          destruct (IH (next_outer s2)) with (r := r) (l := l') as [A B]; [|exact Eo|split; [constructor; auto|exact B]].
          unfold AlmModel.after_inner in Ea. destruct (Qle_bool _ _).
          * destruct (shrink fuel s1) as [s3|] eqn:Es; [|discriminate].
            destruct (shrink_spec _ _ _ _ _ _ _ _ _ Es) as (a & b & ->).
            destruct (overall _ _ _ _ _ _) in Ea; [discriminate|]. inversion Ea; subst. exact IR.
          * inversion Ea; subst. unfold AlmModel.on_failure. destruct (scalar_close _ _); exact IR.
        + inversion H; subst. split; [auto|]. discriminate.
      - inversion H; subst. split; [auto|]. intros s' E. inversion E; subst. exact IR.
      - inversion H; subst. split; [auto|]. intros s' E. inversion E; subst. exact IR.
    Qed.
  End Bounds.

  (** C54: when every line search ends at the minimal step, [n] counted
      iterations bring the regularisation above [(inc * dec)^n * reg_min], but
      below [reg_max * inc]: the loop gives up soon. *)
  Theorem C54_stalls : 0 < reg_min o -> 0 <= reg_dec_k o -> 1 <= reg_inc_k o ->
    (forall sr, small_step sr = true) ->
    forall n s s', inner_iter n s = Returns false s' -> reg_min o <= preg_last s ->
      num_iters s' = (num_iters s + n)%nat -> (0 < n)%nat ->
      scaled (preg_last s) (reg_inc_k o * reg_dec_k o) n <= preg_last s' /\
      preg_last s' < reg_max o * reg_inc_k o.
  Proof.
    intros Hm Hd Hi Hs. induction n as [|n IH]; intros s s' H Hl Hn Hp; [lia|].
    pose proof (inner_step n s) as K. rewrite H in K.
    destruct K as [(sr & _ & _ & _ & _ & _ & K)|(sr & s1 & A & B & D & E & N & G)]; [lia|].
    rewrite Hs in *. specialize (B eq_refl).
    assert (L : last_reg s = Some (preg_last s)).
    { unfold last_reg. destruct (Qeq_bool _ _) eqn:Q; auto. apply Qeq_bool_iff in Q. lra. }
    rewrite (searched_preg _ _ A), L in B. rewrite L in D. cbn [reg_after reg_used] in *.
    set (u := Qmax (reg_min o) (preg_last s * reg_dec_k o)) in *.
    assert (U1 : reg_min o <= u) by apply Q.le_max_l.
    assert (U2 : preg_last s * reg_dec_k o <= u) by apply Q.le_max_r.
    assert (V : preg_last s1 = u * reg_inc_k o) by congruence.
    assert (W : preg_last s * (reg_inc_k o * reg_dec_k o) <= preg_last s1).
    { rewrite V. setoid_replace (preg_last s * (reg_inc_k o * reg_dec_k o))
        with (preg_last s * reg_dec_k o * reg_inc_k o) by ring. nra. }
    assert (Z : preg_last s1 < reg_max o * reg_inc_k o) by (rewrite V; nra).
    assert (Mono : forall k a b x, 0 <= x -> a <= b -> scaled a x k <= scaled b x k).
    { induction k as [|k IHk]; intros a b x X0 X1; simpl; auto. apply IHk; auto. nra. }
    assert (X0 : 0 <= reg_inc_k o * reg_dec_k o) by nra.
    destruct n as [|n].
    - cbn in G. inversion G; subst. auto.
    - destruct (IH s1 s' G) as [I1 I2]; [| lia | lia|].
      + rewrite V. nra.
      + split; [|exact I2]. eapply Qle_trans; [|exact I1].
        change (scaled (preg_last s) (reg_inc_k o * reg_dec_k o) (S (S n)))
          with (scaled (preg_last s * (reg_inc_k o * reg_dec_k o)) (reg_inc_k o * reg_dec_k o) (S n)).
        apply Mono; auto.
  Qed.
End Any.

Print Assumptions C14_tolerances.
Print Assumptions C14_first_tolerances.
Print Assumptions C14_dynamics.
Print Assumptions C54_iteration.
Print Assumptions C54_gives_up.
Print Assumptions C54_loop.
Print Assumptions C54_across_loops.
Print Assumptions C54_bounds.
Print Assumptions C54_bounds_run.
Print Assumptions C54_stalls.

(** Witness for C14: a pass that meets the primal tolerance (criterion
    10^-5, penalty 10^-2: the tolerances are multiplied twice), then one that does
    not (tolerances of the reduced penalty), and the multiplier estimates,
    which count their updates, are replaced the first time only. *)
Definition Z1 : st Q Q nat nat :=
  St (It 0 1) (It 0 0) 0 0 None None 0 0 0 0 0 0%nat 0%nat false 0%nat 0 [] 0%nat.
Definition tol_opts : opts :=
  Opts (1 # 10000000000000) 0 true (1 # 100) (1 # 10) (1 # 100000000) (1 # 10000000000) 1000000000
       (1 # 1000000000) 10 100 (1 # 3) 1 1 (1 # 1000000) (1 # 10000000000000) false LINEAR NEWTON 9 2.
Definition tol_run :=
  run Q Q Q nat nat 0 (fun x => qabs x)
    (fun m p _ => match p with 1%nat => Some (1 # 100000) | _ => Some (1 # 10) end)
    (fun i => Some 1) (fun s => match pv s with 1%nat => Some (1 # 100000) | _ => Some (1 # 10000000) end) (fun _ => true)
    (fun _ => 1) (fun _ => 0) (fun _ => 0) 0 (fun x a t => x)
    (fun s a => 0) (fun _ => ([1], 1, 0)) (fun s => S (pv s))
    (fun x => x * x) (fun x => x) (fun x => x * x) (fun x => x) tol_opts [] 5 Z1.
Example C14_tolerances_witness :
  match tol_run with
  | (Done false s', l) =>
      map (fun h => (pv h, Qred (mu h), Qred (inner_tol h), Qred (prim_tol h))) l =
      [(1%nat, 1 # 100, 1 # 100, 1 # 10000); (2%nat, 1 # 100, 1 # 1000000, 1 # 1000000000000);
       (2%nat, 1 # 1000, 1 # 1000, 1 # 1000000)]
  | _ => False
  end.
Proof. vm_compute. reflexivity. Qed.

(** Witness for C54: the first step is minimal (regularisation multiplied by
    100), the second is not (divided by 3), and then all are minimal, until the
    maximum is reached in the fifth iteration: the run gives up. *)
Definition reg_opts : opts :=
  Opts (1 # 1000) 0 true (1 # 100) (1 # 10) (1 # 100000000) (1 # 1000) 1
       (1 # 100) 10 100 (1 # 3) 1 1 (1 # 1000000) (1 # 10000000000000) false LINEAR NEWTON 9 2.
Definition reg_run (n : nat) :=
  inner_iter Q Q Q nat nat (fun x => qabs x) (fun m p _ => Some 1)
    (fun i => Some 1) (fun s => Some 1) (fun _ => true) (fun _ => 1) (fun _ => 0) 0 (fun x a t => x)
    (fun s a => 0) (fun s => ([1], if Nat.eqb (num_iters s) 1 then 1 else 1 # 1000000, 0))
    reg_opts [] n (set_tols Z1 0 0).
Example C54_witness :
  map (fun n => match reg_run n with
                | Returns b s => Some (b, num_iters s, Qred (preg s), Qred (preg_last s))
                | Raises _ => None end) [1; 2; 3; 4; 5]%nat =
  [Some (false, 1%nat, 1, 1); Some (false, 2%nat, 1 # 3, 1 # 3); Some (false, 3%nat, 10 # 9, 10 # 9);
   Some (false, 4%nat, 100 # 27, 100 # 27); Some (false, 4%nat, 100 # 81, 100 # 27)].
Proof. vm_compute. reflexivity. Qed.
(** the hypotheses of the bounds hold for these options, and for the defaults
    of the solver *)
Example C54_bounds_witness :
  (0 <= reg_min reg_opts /\ (0 <= reg_dec_k reg_opts /\ reg_dec_k reg_opts <= 1) /\
   1 <= reg_inc_k reg_opts /\ 1 <= reg_inc_first_k reg_opts) /\ bound reg_opts == 100.
Proof. split; [repeat split; vm_compute; discriminate|vm_compute; reflexivity]. Qed.
(** Witness for C54_stalls: all steps minimal, ten iterations at most. *)
Definition stall_run (n : nat) :=
  inner_iter Q Q Q nat nat (fun x => qabs x) (fun m p _ => Some 1)
    (fun i => Some 1) (fun s => Some 1) (fun _ => true) (fun _ => 1) (fun _ => 0) 0 (fun x a t => x)
    (fun s a => 0) (fun s => ([1], 1 # 1000000, 0))
    reg_opts [] n (set_preg_last (set_tols Z1 0 0) (1 # 1000)).
Example C54_stalls_witness :
  (forall sr, small_step Q Q nat nat (fun s => ([1], 1 # 1000000, 0)) reg_opts sr = true) /\
  match stall_run 3 with
  | Returns false s => num_iters s = 3%nat /\ preg_last s == 1 # 9
  | _ => False
  end /\
  match stall_run 100 with Returns false s => num_iters s = 6%nat | _ => False end.
Proof. split; [reflexivity|]. vm_compute. repeat split. Qed.
