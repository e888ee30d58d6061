(** Properties C05, C06 (filter line search). *)
From Coq Require Import QArith List Bool Arith Lqa Lia.
From Verif Require Import FilterModel FilterProofs.
Import ListNotations.
Local Open Scope Q_scope.

(** C05a: with zero margin (the value used by the solver) the filter is an
    antichain after every history of submissions and resets. *)
Theorem C05_antichain : forall ops b am n, b == 0 -> Forall no_margin ops ->
  antichain (filter_pairs (exec (new_filter b am n) ops)).
Proof.
  intros ops b am n Hb Ho. apply exec_antichain; auto.
  intros [|i] j a b' Hi; discriminate.
Qed.
Print Assumptions C05_antichain.

Example C05_antichain_witness :
  let ops := [Submit (3, 1); Submit (1, 3); Submit (4, 4); Submit (2, 2); Submit (2, 1)] in
  Forall no_margin ops /\
  filter_pairs (exec (new_filter 0 (1#100) 20) ops) = [(1, 3); (2, 1)].
Proof. split; [repeat constructor|reflexivity]. Qed.

(** C05b: effect of one submission, for every margin. *)
Theorem C05_submission : forall F f,
  (accept_pair F f = (false, F) /\
     exists el, In el (filter_pairs F) /\
       fst el + beta F * snd el <= fst f /\ snd el + beta F * snd el <= snd f) \/
  (exists F', accept_pair F f = (true, F') /\
     (forall el, In el (filter_pairs F) ->
       ~ (fst el + beta F * snd el <= fst f /\ snd el + beta F * snd el <= snd f)) /\
     In f (filter_pairs F') /\
     (forall el, In el (filter_pairs F') <->
        el = f \/ (In el (filter_pairs F) /\ ~ dominates f el)) /\
     beta F' = beta F /\ alpha_min F' = alpha_min F /\
     max_num_steps F' = max_num_steps F).
Proof.
  intros F f. destruct (accept_cases F f) as [H|[E H]]; [left; exact H|right].
  eexists. split; [exact E|]. split; [exact H|]. simpl.
  split; [apply in_or_app; right; simpl; auto|]. split; [|auto].
  intros el. rewrite in_app_iff, filter_In. simpl. split.
  - intros [[Hin Hn]|[->|[]]]; auto. right. split; auto.
    intro D. apply erased_spec in D. rewrite D in Hn. discriminate.
  - intros [->|[Hin Hn]]; auto. left. split; auto.
    destruct (erased_by f el) eqn:D; auto. apply erased_spec in D. contradiction.
Qed.
Print Assumptions C05_submission.

(** C05, reset: a reset forgets everything, so what follows is what follows a new filter. *)
Theorem C05_reset : forall F b am n ops,
  exec F (Reset b am n :: ops) = exec (new_filter b am n) ops /\
  filter_pairs (exec F [Reset b am n]) = [] /\ beta (exec F [Reset b am n]) = b /\
  alpha_min (exec F [Reset b am n]) = am /\ max_num_steps (exec F [Reset b am n]) = n.
Proof. intros. repeat split. Qed.
Print Assumptions C05_reset.

(** C05c: whatever the margin, every pair accepted since the last reset stays
    covered by a stored pair. *)
Theorem C05_history_covered : forall ops b am n g,
  In g (accepted (new_filter b am n) ops []) ->
  exists h, In h (filter_pairs (exec (new_filter b am n) ops)) /\ dominates h g.
Proof. intros ops b am n g. apply exec_covers. intros ? []. Qed.
Print Assumptions C05_history_covered.

Example C05_history_witness :
  accepted (new_filter 0 (1#100) 20)
    [Submit (9, 9); Reset 0 (1#10) 5; Submit (3, 1); Submit (4, 4); Submit (2, 1)] []
  = [(3, 1); (2, 1)].
Proof. reflexivity. Qed.

(** C05, limit of the property: with a positive margin the filter may hold a
    dominated pair. *)
Theorem C05_margin_antichain_refuted : exists ops F,
  F = exec (new_filter 1 (1#100) 20) ops /\ ~ antichain (filter_pairs F).
Proof. exact margin_breaks_antichain. Qed.
Print Assumptions C05_margin_antichain_refuted.

(** C06: what a normal return of the search guarantees.  Either the returned
    value is the merit at the returned step (and the pair was accepted, or the
    step is minimal, or the step budget is exhausted), or every trial step of
    the first phase raised. *)
Theorem C06_filter_run : forall phi fuel F v a F',
  0 < alpha_min F -> alpha_min F < 1 ->
  run phi fuel F = Returned v a F' ->
  (alpha_min F <= a /\ a <= 1) /\
  ((exists fp, phi a = Some fp /\ v = fst fp /\
      (accept_pair F fp = (true, F') \/
       (F' = F /\ (a = alpha_min F \/
          exists i, a = halved i /\ (max_num_steps F <= i)%nat)))) \/
   never_evaluated phi (alpha_min F)).
Proof. exact run_spec. Qed.
Print Assumptions C06_filter_run.

Theorem C06_filter_run_terminates : forall phi F, 0 < alpha_min F ->
  exists N, forall fuel, (N <= fuel)%nat -> run phi fuel F <> NoFuel.
Proof. exact run_terminates. Qed.
Print Assumptions C06_filter_run_terminates.

(** A merit which raises at 1, is rejected at 1/2 and accepted at 1/4. *)
Example C06_witness :
  let phi := fun a => if Qle_bool 1 a then None else Some (4 * a, 1) in
  let F := snd (accept_pair (new_filter 0 (1#100) 20) (2, 1)) in
  exists v a F', run phi 10 F = Returned v a F' /\ a == (1#4) /\ v == 1.
Proof.
  do 3 eexists. split; [vm_compute; reflexivity|]. split; reflexivity.
Qed.

(** C06, finding: when every trial step raises, the search returns the
    uninitialised value 0 at the minimum step, and records the pair (0,0) in
    the filter although no merit value was ever obtained. *)
Theorem C06_value_evaluated_refuted : exists F v a F', 0 < alpha_min F /\
  run (fun _ => None) 100 F = Returned v a F' /\
  In (0, 0) (filter_pairs F') /\ v = 0 /\ filter_pairs F = [].
Proof. exact run_unevaluated. Qed.
Print Assumptions C06_value_evaluated_refuted.
