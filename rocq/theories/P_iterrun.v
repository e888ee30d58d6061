(** C66: what a run does when the criterion of the inner loop vanishes at the warm start
    although the dynamics are violated there (see C66_last_gap_refuted). *)
From Coq Require Import List QArith Qminmax Lia Lqa Bool Arith.
From Verif Require Import AlmModel.
Import ListNotations.
Open Scope Q_scope.

Section Stuck.
  Variables X T Rest P C : Type.
  Variable init_state : X.
  Variable init_res : X -> Q.
  Variable rest_res : Q -> P -> iterate X Rest -> option Q.
  Variable dual_of : iterate X Rest -> option Q.
  Variable crit_of : st X Rest P C -> option Q.
  Variable ok : st X Rest P C -> bool.
  Variables slope merit_of : st X Rest P C -> Q.
  Variable dx0 : st X Rest P C -> T.
  Variable zero : T.
  Variable integ : X -> Q -> T -> X.
  Variable trial_rest : st X Rest P C -> Q -> Rest.
  Variable ls : st X Rest P C -> list Q * Q * Q.
  Variable new_pv : st X Rest P C -> P.
  Variables pow_pa pow_da pow_pb pow_db : Q -> Q.
  Variable o : opts.
  Variable callbacks : list C.
  Notation st := (st X Rest P C).
  Notation fpass := (forward_pass X T Rest P C init_res rest_res dx0 zero integ trial_rest o).
  Notation check := (check X Rest P C dual_of crit_of).
  Notation search := (search X T Rest P C init_res rest_res dx0 zero integ trial_rest ls o).
  Notation accept := (accept X Rest P C).
  Notation finish := (finish X Rest P C o callbacks).
  Notation inner_iter := (inner_iter X T Rest P C init_res rest_res dual_of crit_of ok slope dx0 zero
    integ trial_rest ls o callbacks).
  Notation enter := (enter X Rest P C init_res rest_res merit_of).
  Notation inner_loop := (inner_loop X T Rest P C init_res rest_res dual_of crit_of ok slope merit_of
    dx0 zero integ trial_rest ls o callbacks).
  Notation shrink := (shrink_tols X Rest P C pow_pb pow_db).
  Notation after_inner := (after_inner X Rest P C new_pv pow_pa pow_da pow_pb pow_db o).
  Notation on_failure := (on_failure X Rest P C pow_pa pow_da o).
  Notation next_outer := (next_outer X Rest P C o).
  Notation outer := (outer X T Rest P C init_res rest_res dual_of crit_of ok slope merit_of dx0 zero
    integ trial_rest ls new_pv pow_pa pow_da pow_pb pow_db o callbacks).
  Notation start := (start X Rest P C init_state new_pv pow_pa pow_da o).
  Notation run := (run X T Rest P C init_state init_res rest_res dual_of crit_of ok slope merit_of
    dx0 zero integ trial_rest ls new_pv pow_pa pow_da pow_pb pow_db o callbacks).
  Notation init_reg := (init_reg X Rest P C o).
  Notation measure := (measure X Rest P C rest_res).
  Notation target_dual := (target_dual o).
  Variables (i0 : iterate X Rest) (r : Q).
  Hypothesis always_ok : forall s, ok s = true.
  Hypothesis crit0 : forall s, it s = i0 -> crit_of s = Some 0.
  Hypothesis res0 : forall m p, rest_res m p i0 = Some r.
  Hypothesis tol0 : target_tol o < r.
  Hypothesis inner0 : forall a, 0 <= inner_tol0 o * pow_da a.
  Hypothesis prim0 : forall a, prim_tol0 o * pow_pa a < r.
  Hypothesis budget : (0 < max_iters o)%nat.

  Definition at_start (s : st) : Prop :=
    it s = i0 /\ num_iters s = 0%nat /\ conv s = false /\ 0 <= inner_tol s /\ prim_tol s < r.

  Lemma failure_keeps s : at_start s -> at_start (next_outer (on_failure s)).
  Proof.
    intros (h1 & h2 & h3 & h4 & h5). unfold at_start, on_failure, next_outer, tols_on_failure.
    destruct (scalar_close _ _); cbn; repeat split; try assumption;
      (apply Q.max_lub_lt; [apply prim0|exact tol0]) || (eapply Qle_trans; [apply inner0|apply Q.le_max_l]).
  Qed.
  Lemma inner_keeps s : at_start s ->
    exists s', inner_loop s = Returns true s' /\ at_start s' /\ prim_tol s' < prim s' /\ al_iter s' = al_iter s.
  Proof.
    intros (h1 & h2 & h3 & h4 & h5). unfold inner_loop. rewrite always_ok, h2. cbn [negb].
    destruct (max_iters o - 0)%nat as [|k] eqn:E; [lia|]. cbn [inner_iter]. rewrite always_ok. cbn [negb].
    assert (F : it (enter s) = i0 /\ inner_tol (enter s) = inner_tol s /\ num_iters (enter s) = 0%nat /\
      conv (enter s) = false /\ prim_tol (enter s) = prim_tol s /\ al_iter (enter s) = al_iter s /\
      prim (enter s) = Qmax (init_res (x0 i0)) r).
    { unfold AlmModel.enter, AlmModel.measure. cbn. rewrite h1, res0. cbn. repeat split; assumption. }
    revert F. generalize (enter s) as e. intros e (Ie & Te & Ne & Ce & Pe & Ae & Re).
    assert (St : stop X Rest P C o (check e) = true).
    { unfold stop, AlmModel.check. cbn. rewrite (crit0 _); [|exact Ie]. cbn. rewrite Te.
      apply orb_true_iff; left. apply Qle_bool_iff. exact h4. }
    rewrite St. eexists; split; [reflexivity|].
    unfold at_start, AlmModel.check; cbn. rewrite Te, Pe, Re.
    repeat split; try assumption. eapply Qlt_le_trans; [exact h5|apply Q.le_max_r].
  Qed.
  Lemma outer_keeps fuel k : forall s, at_start s ->
    exists s' l, outer fuel k s = (Done false s', l) /\ at_start s' /\ al_iter s' = (al_iter s + k)%nat.
  Proof.
    induction k as [|k IH]; intros s H; cbn [AlmModel.outer].
    - exists s, [s]. destruct H as (h1 & h2 & h3 & h4 & h5). rewrite h3. repeat split; try assumption. lia.
    - destruct (inner_keeps s H) as (s' & E & H' & Hp & Ea).
      assert (N : Nat.ltb (num_iters s) (max_iters o) = true).
      { apply Nat.ltb_lt. destruct H as (_ & -> & _). exact budget. }
      rewrite N, E. unfold AlmModel.after_inner.
      assert (B : Qle_bool (prim s') (prim_tol s') = false).
      { destruct (Qle_bool _ _) eqn:B; [|reflexivity]. apply Qle_bool_iff in B. lra. }
      rewrite B. destruct (IH (next_outer (on_failure s')) (failure_keeps s' H')) as (s2 & l & E2 & H2 & A2).
      rewrite E2. exists s2, (s :: l). split; [reflexivity|]. split; [exact H2|].
      rewrite A2. unfold AlmModel.next_outer, AlmModel.on_failure.
      destruct (scalar_close _ _); cbn; rewrite Ea; lia.
  Qed.

  (** From a warm start where the criterion is zero and the primal residual exceeds the
      tolerances, the run uses up all its outer passes without one iteration and
      returns false with the warm start unchanged. *)
  Theorem C66_stuck_run : forall fuel s, it s = i0 ->
    exists s' l, run fuel s = (Done false s', l) /\ it s' = i0 /\ num_iters s' = 0%nat /\
      al_iter s' = max_al_iters o.
  Proof.
    intros fuel s Hi. unfold AlmModel.run.
    assert (H : at_start (start s)).
    { unfold at_start, AlmModel.start. destruct (force_init o); cbn; repeat split; try assumption;
        (apply Q.max_lub_lt; [apply prim0|exact tol0]) || (eapply Qle_trans; [apply inner0|apply Q.le_max_l]). }
    destruct (outer_keeps fuel (max_al_iters o) _ H) as (s' & l & E & (h1 & h2 & _) & A).
    exists s', l. split; [exact E|]. split; [exact h1|]. split; [exact h2|].
    rewrite A. unfold AlmModel.start; destruct (force_init o); reflexivity.
  Qed.
End Stuck.

(** the problem of C66_last_gap_refuted: minimise 1/2 u^2 + 1/2 x1^2 with x1 = x0 + u and
    x0 = 1; an iterate is x0 and (u, x1, lam0, lam1) *)
Definition gap1 (i : iterate Q (Q * Q * Q * Q)) : Q :=
  let '(u, x1, _, _) := rest i in qabs (x0 i + u - x1).
Definition crit1 (s : st Q (Q * Q * Q * Q) unit unit) : option Q :=
  let '(u, x1, l0, l1) := rest (it s) in
  Some (Qmax (Qmax (qabs (l0 + l1)) (qabs (u + l1))) (Qmax (qabs (x0 (it s) - 1)) (qabs (x1 - l1)))).
Definition dual1 (i : iterate Q (Q * Q * Q * Q)) : option Q :=
  let '(u, x1, l0, l1) := rest i in Some (Qmax (Qmax (qabs (l0 + l1)) (qabs (u + l1))) (qabs (x1 - l1))).
Definition opts1 := Opts (1 # 1000) 0 true (1 # 100) (1 # 100) (1 # 10000000) 0 1 0 1 1 1 1 (9 # 10) (1 # 1000000) 0
  true LINEAR NEWTON 100 20.
Definition run1 := run Q Q (Q * Q * Q * Q) unit unit 1 (fun x => qabs (x - 1)) (fun _ _ i => Some (gap1 i)) dual1 crit1
  (fun _ => true) (fun _ => 1) (fun _ => 0) (fun _ => 0) 0 (fun x a t => x + a * t) (fun s _ => rest (it s))
  (fun _ => ([1], 1, 0)) (fun _ => tt) (fun x => x) (fun x => x) (fun x => x) (fun x => x) opts1 [].
Definition warm1 : st Q (Q * Q * Q * Q) unit unit :=
  St (It 1 (0, 0, 0, 0)) (It 1 (0, 0, 0, 0)) 0 0 None None 0 0 0 0 0 0 0 false tt 0 [] 0.
Example C66_stuck_example :
  match fst (run1 10 warm1) with
  | Done b s => (b, rest (it s), num_iters s, al_iter s, prim s, dual s, crit s)
                = (false, (0, 0, 0, 0), 0%nat, 20%nat, 1, Some 0, Some 0)
  | _ => False
  end.
Proof. vm_compute. reflexivity. Qed.
Print Assumptions C66_stuck_run.
