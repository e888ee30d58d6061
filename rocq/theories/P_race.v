(** Property C26 (race freedom of the parallel regions, schedule independence). *)
From Coq Require Import List Arith NArith Bool Lia Permutation.
From Verif Require Import WorkModel P_work RaceModel RaceProofs.
Import ListNotations.

Ltac loceq := repeat match goal with
  | H : (_ || _)%bool = true |- _ => apply orb_true_iff in H
  | H : (_ =? _) = true |- _ => apply Nat.eqb_eq in H
  | H : _ \/ _ |- _ => destruct H
  | H : evloc_eqb ?l _ = true |- _ => destruct l; simpl in H; try discriminate
  | H : fdloc_eqb ?l _ = true |- _ => destruct l; simpl in H; try discriminate
  | H : rcloc_eqb ?l _ = true |- _ => destruct l; simpl in H; try discriminate
  end.

(** C26a: a race-free pool of well-behaved threads has exactly one result, that
    of running the threads one after the other, whatever the schedule. *)
Theorem C26_schedule : forall (loc val : Type) (P : pool loc val) s s',
  pool_wf _ _ P -> race_free _ _ P -> exec _ _ P s s' -> forall l, s' l = sequential _ _ P s l.
Proof. intros. eapply exec_unique; eauto using exec_sequential. Qed.
Print Assumptions C26_schedule.

Lemma indep_map {loc val} (f : nat -> action loc val) js : NoDup js ->
  (forall i j, i <> j -> ~ conflict _ _ (f i) (f j)) -> indep _ _ (map f js).
Proof.
  intros N H. induction N as [|j js Hj N IH]; simpl; auto. split; auto.
  intros b Hb. apply in_map_iff in Hb. destruct Hb as [i [<- Hi]]. apply H. intros ->. auto.
Qed.

(** C26b: problem evaluation.  However the iterations 0 .. n-1 are distributed
    over threads ([chunks], any lists covering 0 .. n-1 once) and interleaved,
    stage i's data ends as the value computed by that stage from x_i, u_i. *)
Theorem C26_evaluate : forall (val : Type) (f : nat -> val -> val -> val -> val) n chunks s s',
  Permutation (concat chunks) (seq 0 n) ->
  exec _ _ (map (map (eval_iter val f)) chunks) s s' ->
  race_free _ _ (map (map (eval_iter val f)) chunks) /\
  (forall i, i < n -> s' (EvData i) = f i (s (EvX i)) (s (EvU i)) (s (EvData i))) /\
  (forall i, n <= i -> s' (EvData i) = s (EvData i)) /\
  (forall i, s' (EvX i) = s (EvX i)) /\ (forall i, s' (EvU i) = s (EvU i)).
Proof.
  intros val f n chunks s s' Pm E.
  assert (W : forall i, wf _ _ (eval_iter val f i)).
  { intros i. split; simpl.
    - intros s0 l ->. reflexivity.
    - intros s0 s1 H l Hl. rewrite Hl. rewrite !H; auto; simpl; rewrite ?Nat.eqb_refl, ?orb_true_r; auto. }
  assert (I : indep _ _ (map (eval_iter val f) (seq 0 n))).
  { apply indep_map; [apply seq_NoDup|]. intros i j Hij [l H].
    destruct l; cbn [reads writes eval_iter evloc_eqb] in H; rewrite ?orb_true_iff, ?Nat.eqb_eq in H;
      intuition (discriminate || congruence). }
  assert (Pm' : Permutation (concat (map (map (eval_iter val f)) chunks)) (map (eval_iter val f) (seq 0 n))).
  { rewrite <- concat_map. apply Permutation_map. auto. }
  assert (W' : forall a, In a (map (eval_iter val f) (seq 0 n)) -> wf _ _ a).
  { intros a Ha. apply in_map_iff in Ha. destruct Ha as [i [<- _]]. auto. }
  destruct (parallel_for _ _ _ _ _ _ W' I Pm' E) as [A B].
  split; [|split; [|split; [|split]]].
  - apply indep_race. eapply indep_perm; [apply Permutation_sym; exact Pm'|exact I].
  - intros i Hi. rewrite (A (eval_iter val f i) (EvData i)).
    + simpl. rewrite Nat.eqb_refl. reflexivity.
    + apply in_map, in_seq. lia.
    + simpl. apply Nat.eqb_refl.
  - intros i Hi. apply B. intros a Ha. apply in_map_iff in Ha. destruct Ha as [j [<- Hj]].
    apply in_seq in Hj. simpl. apply Nat.eqb_neq. lia.
  - intros i. apply B. intros a Ha. apply in_map_iff in Ha. destruct Ha as [j [<- Hj]]. reflexivity.
  - intros i. apply B. intros a Ha. apply in_map_iff in Ha. destruct Ha as [j [<- Hj]]. reflexivity.
Qed.
Print Assumptions C26_evaluate.

(** C26c: the gaps of FDDP. *)
Theorem C26_infeasibility : forall (val : Type) (d : nat -> val -> val -> val) n chunks s s',
  Permutation (concat chunks) (seq 0 n) ->
  exec _ _ (map (map (infeas_iter val d)) chunks) s s' ->
  race_free _ _ (map (map (infeas_iter val d)) chunks) /\
  (forall i, i < n -> s' (FdF (S i)) = d i (s (FdX (S i))) (s (FdData i))) /\
  s' (FdF 0) = s (FdF 0).
Proof.
  intros val f n chunks s s' Pm E.
  assert (W : forall i, wf _ _ (infeas_iter val f i)).
  { intros i. split; simpl.
    - intros s0 l ->. reflexivity.
    - intros s0 s1 H l Hl. rewrite Hl. rewrite !H; auto; simpl; rewrite ?Nat.eqb_refl, ?orb_true_r; auto. }
  assert (I : indep _ _ (map (infeas_iter val f) (seq 0 n))).
  { apply indep_map; [apply seq_NoDup|]. intros i j Hij [l H].
    destruct l; cbn [reads writes infeas_iter fdloc_eqb] in H; rewrite ?orb_true_iff, ?Nat.eqb_eq in H;
      intuition (discriminate || congruence). }
  assert (Pm' : Permutation (concat (map (map (infeas_iter val f)) chunks)) (map (infeas_iter val f) (seq 0 n))).
  { rewrite <- concat_map. apply Permutation_map. auto. }
  assert (W' : forall a, In a (map (infeas_iter val f) (seq 0 n)) -> wf _ _ a).
  { intros a Ha. apply in_map_iff in Ha. destruct Ha as [i [<- _]]. auto. }
  destruct (parallel_for _ _ _ _ _ _ W' I Pm' E) as [A B].
  split; [|split].
  - apply indep_race. eapply indep_perm; [apply Permutation_sym; exact Pm'|exact I].
  - intros i Hi. rewrite (A (infeas_iter val f i) (FdF (S i))).
    + simpl. rewrite Nat.eqb_refl. reflexivity.
    + apply in_map, in_seq. lia.
    + simpl. apply Nat.eqb_refl.
  - apply B. intros a Ha. apply in_map_iff in Ha. destruct Ha as [j [<- Hj]]. reflexivity.
Qed.
Print Assumptions C26_infeasibility.

(** ** The legs of the parallel Riccati solver *)
Definition nfits (N nt : nat) : Prop := fits (N.of_nat N) (N.of_nat nt).
Lemma legs_ordered N nt : nfits N nt -> forall i j, i < j -> j < nt -> wend N nt i <= wbeg N nt j.
Proof.
  intros F. destruct (C25_contiguous _ _ F) as [_ [_ [Cn Bd]]].
  assert (S1 : forall k, S k < nt -> wend N nt k = wbeg N nt (S k)).
  { intros k Hk. unfold wend, wbeg. rewrite Cn by lia. replace (N.of_nat k + 1)%N with (N.of_nat (S k)) by lia.
    reflexivity. }
  assert (S2 : forall k, k < nt -> wbeg N nt k <= wend N nt k).
  { intros k Hk. unfold wend, wbeg. specialize (Bd (N.of_nat k) ltac:(lia)). lia. }
  intros i j Hij. induction Hij as [|j Hij IH]; intros Hj.
  - rewrite S1; auto.
  - rewrite <- S1 by auto. specialize (S2 j ltac:(lia)). specialize (IH ltac:(lia)). lia.
Qed.
Lemma leg_len N nt i : nfits N nt -> i < nt -> wbeg N nt i + (wend N nt i - wbeg N nt i) = wend N nt i.
Proof.
  intros F Hi. destruct (C25_contiguous _ _ F) as [_ [_ [_ Bd]]]. specialize (Bd (N.of_nat i) ltac:(lia)).
  unfold wend, wbeg. lia.
Qed.

Section Legs.
Variable val : Type.
Variable terminal : val -> val -> val.
Variable kernel : val -> val -> val -> val * val.
Variable ulaw vlaw xlaw : val -> val -> val -> option val -> val.
Variable llaw : val -> val -> option val -> val.

Lemma bwd_wf beg len a : In a (bwd_leg val terminal kernel beg len) -> wf _ _ a.
Proof.
  destruct len; simpl; [tauto|]. intros [<-|H].
  - split; simpl; [intros s l ->; reflexivity|].
    intros s s' H l Hl. rewrite Hl, !H; auto; simpl; rewrite ?Nat.eqb_refl, ?orb_true_r; auto.
  - apply in_map_iff in H. destruct H as [j [<- _]]. split; simpl.
    + intros s l H. apply orb_false_iff in H. destruct H as [-> ->]. reflexivity.
    + intros s s' H l Hl. set (t := beg + _) in *.
      rewrite (H (Stage t)), (H (Datas t)), (H (Datas (S t))) by (simpl; rewrite ?Nat.eqb_refl, ?orb_true_r; auto).
      apply orb_true_iff in Hl. destruct Hl as [->| ->]; auto.
Qed.
Lemma bwd_foot beg len a l : In a (bwd_leg val terminal kernel beg len) ->
  (writes _ _ a l = true -> exists t, l = Datas t /\ beg <= t < beg + len) /\
  (reads _ _ a l = true -> exists t, (l = Datas t \/ l = Stage t) /\ beg <= t < beg + len).
Proof.
  destruct len as [|n]; simpl; [tauto|]. intros [<-|H].
  - split; simpl; intros H; loceq; subst; eexists; split; eauto; lia.
  - apply in_map_iff in H. destruct H as [j [<- Hj]]. apply in_seq in Hj.
    split; simpl; intros H; loceq; subst; eexists; split; eauto; lia.
Qed.
Lemma fwd_in th beg len a : In a (fwd_leg val ulaw vlaw xlaw llaw th beg len) ->
  exists j, j < len /\ (a = fwd_uv val ulaw vlaw th (beg + j) \/
                       (S j < len /\ a = fwd_next val xlaw llaw th (beg + j))).
Proof.
  unfold fwd_leg. intros H. apply in_flat_map in H. destruct H as [j [Hj H]]. apply in_seq in Hj.
  exists j. split; [lia|]. destruct (Nat.ltb_spec (S j) len); simpl in H; intuition auto.
Qed.
Lemma theta_ext th (s s' : store rcloc val) :
  (forall l, reads_theta th l = true -> s l = s' l) -> theta val th s = theta val th s'.
Proof.
  destruct th as [e|]; simpl; auto. intros H. rewrite H; auto. simpl. apply Nat.eqb_refl.
Qed.
Lemma fwd_wf th beg len a : In a (fwd_leg val ulaw vlaw xlaw llaw th beg len) -> wf _ _ a.
Proof.
  intros H. apply fwd_in in H. destruct H as [j [Hj [->|[Hn ->]]]]; split; simpl.
  - intros s l H. apply orb_false_iff in H. destruct H as [-> ->]. reflexivity.
  - intros s s' H l Hl.
    rewrite (theta_ext th s s') by (intros l0 H0; apply H; rewrite H0; apply orb_true_r).
    set (t := beg + _) in *.
    rewrite (H (Stage t)), (H (Datas t)), (H (Xs t)) by (simpl; rewrite ?Nat.eqb_refl, ?orb_true_r; auto).
    apply orb_true_iff in Hl. destruct Hl as [->| ->]; auto.
  - intros s l H. apply orb_false_iff in H. destruct H as [-> ->]. reflexivity.
  - intros s s' H l Hl.
    rewrite (theta_ext th s s') by (intros l0 H0; apply H; rewrite H0; apply orb_true_r).
    set (t := beg + _) in *.
    rewrite (H (Stage t)), (H (Datas t)), (H (Datas (S t))), (H (Xs t)) by (simpl; rewrite ?Nat.eqb_refl, ?orb_true_r; auto).
    apply orb_true_iff in Hl. destruct Hl as [->| ->]; auto.
Qed.
Lemma fwd_foot th beg len a l : In a (fwd_leg val ulaw vlaw xlaw llaw th beg len) ->
  (writes _ _ a l = true -> exists t,
     ((l = Us t \/ l = Vs t) /\ beg <= t < beg + len) \/
     ((l = Xs t \/ l = Ls t) /\ beg < t < beg + len)) /\
  (reads _ _ a l = true ->
     (exists t, (l = Datas t \/ l = Stage t \/ l = Xs t) /\ beg <= t < beg + len) \/
     (exists e, th = Some e /\ l = Ls e)).
Proof.
  intros H. apply fwd_in in H. destruct H as [j [Hj [->|[Hn ->]]]]; split; simpl.
  - intros H; loceq; subst; exists (beg + j); left; split; auto; lia.
  - intros H; loceq; subst; try (left; exists (beg + j); split; auto; lia).
    destruct th; simpl in *; [|discriminate]. loceq; subst. eauto.
  - intros H. apply orb_true_iff in H. destruct H as [H|H]; (destruct l as [t|t|t|t|t|t]; try discriminate;
    assert (E : t = S (beg + j)) by (destruct t; [discriminate|]; simpl in H; apply Nat.eqb_eq in H; lia));
    exists t; right; split; auto; lia.
  - intros H. rewrite !orb_true_iff in H. destruct H as [[[[H|H]|H]|H]|H].
    1,2,4: loceq; subst; left; exists (beg + j); split; auto; lia.
    + destruct l as [t|t|t|t|t|t]; try discriminate.
      assert (E : t = S (beg + j)) by (destruct t; [discriminate|]; simpl in H; apply Nat.eqb_eq in H; lia).
      left; exists t; split; auto; lia.
    + destruct th; simpl in *; [|discriminate]. loceq; subst. eauto.
Qed.

Lemma race_free_map {loc val'} (f : nat -> thread loc val') nt : (forall i j, i < j -> j < nt ->
    forall a b, In a (f i) -> In b (f j) -> ~ conflict _ _ a b) ->
  race_free _ _ (map f (seq 0 nt)).
Proof.
  intros H. assert (G : forall k n, (k + n <= nt) -> race_free _ _ (map f (seq k n))).
  { intros k n. revert k. induction n as [|n IH]; intros k Hk; simpl; auto. split.
    - intros a th b Ha Hth Hb. apply in_map_iff in Hth. destruct Hth as [j [<- Hj]]. apply in_seq in Hj.
      apply (H k j); auto; lia.
    - apply IH. lia. }
  apply G. lia.
Qed.
Lemma pool_wf_map {loc val'} (f : nat -> thread loc val') nt : (forall i a, i < nt -> In a (f i) -> wf _ _ a) ->
  pool_wf _ _ (map f (seq 0 nt)).
Proof.
  intros H th a Ht Ha. apply in_map_iff in Ht. destruct Ht as [i [<- Hi]]. apply in_seq in Hi.
  apply (H i); auto; lia.
Qed.

(** C26d: the per-leg backward sweeps. *)
Theorem C26_backward : forall N nt s s', nfits N nt ->
  exec _ _ (bwd_pool val terminal kernel N nt) s s' ->
  race_free _ _ (bwd_pool val terminal kernel N nt) /\
  forall l, s' l = sequential _ _ (bwd_pool val terminal kernel N nt) s l.
Proof.
  intros N nt s s' F E.
  assert (R : race_free _ _ (bwd_pool val terminal kernel N nt)).
  { apply race_free_map. intros i j Hij Hj a b Ha Hb [l C].
    destruct (bwd_foot _ _ _ l Ha) as [Wa Ra]. destruct (bwd_foot _ _ _ l Hb) as [Wb Rb].
    rewrite (leg_len N nt) in Wa, Ra, Wb, Rb by (auto; lia).
    pose proof (legs_ordered N nt F i j Hij Hj).
    destruct C as [[A [B|B]]|[B [A|A]]].
    - destruct (Wa A) as [t [-> ?]], (Wb B) as [t' [X ?]]. injection X as ->. lia.
    - destruct (Wa A) as [t [-> ?]], (Rb B) as [t' [[X|X] ?]]; [injection X as ->; lia|discriminate].
    - destruct (Wa A) as [t [-> ?]], (Wb B) as [t' [X ?]]. injection X as ->. lia.
    - destruct (Wb B) as [t [-> ?]], (Ra A) as [t' [[X|X] ?]]; [injection X as ->; lia|discriminate]. }
  split; auto. intros l. apply C26_schedule; auto.
  apply pool_wf_map. intros i a Hi. apply bwd_wf.
Qed.

(** C26e: the per-leg forward sweeps. *)
Theorem C26_forward : forall N nt s s', nfits N nt ->
  exec _ _ (fwd_pool val ulaw vlaw xlaw llaw N nt) s s' ->
  race_free _ _ (fwd_pool val ulaw vlaw xlaw llaw N nt) /\
  forall l, s' l = sequential _ _ (fwd_pool val ulaw vlaw xlaw llaw N nt) s l.
Proof.
  intros N nt s s' F E.
  assert (R : race_free _ _ (fwd_pool val ulaw vlaw xlaw llaw N nt)).
  { apply race_free_map. intros i j Hij Hj a b Ha Hb [l C].
    destruct (fwd_foot _ _ _ _ l Ha) as [Wa Ra]. destruct (fwd_foot _ _ _ _ l Hb) as [Wb Rb].
    rewrite (leg_len N nt) in Wa, Ra, Wb, Rb by (auto; lia).
    pose proof (legs_ordered N nt F i j Hij Hj) as O.
    assert (Oj : wbeg N nt j <= wend N nt j) by (pose proof (leg_len N nt j F Hj); lia).
    destruct C as [[A [B|B]]|[B [A|A]]].
    - destruct (Wa A) as [t [[[->| ->] ?]|[[->| ->] ?]]], (Wb B) as [t' [[[X|X] ?]|[[X|X] ?]]];
        try discriminate; injection X as ->; lia.
    - destruct (Wa A) as [t [[[->| ->] ?]|[[->| ->] ?]]], (Rb B) as [[t' [[X|[X|X]] ?]]|[e [He X]]];
        try discriminate; injection X as ->; try lia.
      destruct (j <? nt - 1); [|discriminate]. injection He as <-. lia.
    - destruct (Wa A) as [t [[[->| ->] ?]|[[->| ->] ?]]], (Wb B) as [t' [[[X|X] ?]|[[X|X] ?]]];
        try discriminate; injection X as ->; lia.
    - destruct (Wb B) as [t [[[->| ->] ?]|[[->| ->] ?]]], (Ra A) as [[t' [[X|[X|X]] ?]]|[e [He X]]];
        try discriminate; injection X as ->; try lia.
      destruct (i <? nt - 1); [|discriminate]. injection He as <-. lia. }
  split; auto. intros l. apply C26_schedule; auto.
  apply pool_wf_map. intros i a Hi. apply fwd_wf.
Qed.
End Legs.
Print Assumptions C26_backward.
Print Assumptions C26_forward.

(** Instances. *)
Definition ev0 : nat -> nat -> nat -> nat -> nat := fun i x u d => i + 10 * x + 100 * u + 1000 * d.
Definition st0 : store evloc nat := fun l => match l with EvX i => i | EvU i => S i | EvData i => 2 end.
(** iterations 2, 0 on one thread, 1 on the other; order of execution 2, 1, 0 *)
Example C26_witness_eval : Permutation (concat [[2; 0]; [1]]) (seq 0 3) /\
  exists s', exec _ _ (map (map (eval_iter nat ev0)) [[2; 0]; [1]]) st0 s' /\
    s' (EvData 0) = 2100 /\ s' (EvData 1) = 2211 /\ s' (EvData 2) = 2322.
Proof.
  split.
  - simpl. apply Permutation_sym. apply (perm_trans (l' := [0; 2; 1])); repeat constructor.
  - eexists. split.
    + eapply Next; [apply (Step _ _ [] (eval_iter nat ev0 2) _ _)|]. simpl.
      eapply Next; [apply (Step _ _ [[eval_iter nat ev0 0]] (eval_iter nat ev0 1) [] [])|]. simpl.
      eapply Next; [apply (Step _ _ [] (eval_iter nat ev0 0) _ _)|]. simpl.
      apply Done. repeat constructor.
    + vm_compute. auto.
Qed.
Example C26_witness_legs : nfits 3 2 /\ wbeg 3 2 1 = 2 /\ wend 3 2 1 = 4 /\
  (exists s', exec _ _ (bwd_pool nat (fun a b => a + b) (fun a b c => (a + b, c)) 3 2) (fun _ => 1) s' /\
              s' (Datas 0) = 2) /\
  (exists s', exec _ _ (fwd_pool nat (fun a b c d => a) (fun a b c d => b)
     (fun a b c d => c + match d with Some e => e | None => 0 end) (fun a b c => b) 3 2) (fun _ => 1) s' /\
     s' (Xs 1) = 2 /\ s' (Xs 3) = 1).
Proof.
  split; [split; [reflexivity|vm_compute; reflexivity]|].
  split; [reflexivity|]. split; [reflexivity|].
  split; eexists; (split; [apply exec_sequential|]); vm_compute; auto.
Qed.
(** the hypothesis matters: if the forward sweep of a leg also wrote the first
    co-state of the next leg (its own theta), two schedules would differ *)
Definition over (t v : nat) : action rcloc nat :=
  Act (fun _ => false) (fun l => rcloc_eqb l (Ls t)) (fun s l => if rcloc_eqb l (Ls t) then v else s l).
Example C26_race_matters : exists s1 s2,
  exec _ _ [[over 2 5]; [over 2 6]] (fun _ => 0) s1 /\ exec _ _ [[over 2 5]; [over 2 6]] (fun _ => 0) s2 /\
  s1 (Ls 2) = 6 /\ s2 (Ls 2) = 5.
Proof.
  eexists. eexists. split; [|split].
  - eapply Next; [apply (Step _ _ [] (over 2 5) [] [[over 2 6]])|]. simpl.
    eapply Next; [apply (Step _ _ [[]] (over 2 6) [] [])|]. apply Done. repeat constructor.
  - eapply Next; [apply (Step _ _ [[over 2 5]] (over 2 6) [] [])|]. simpl.
    eapply Next; [apply (Step _ _ [] (over 2 5) [] [[]])|]. apply Done. repeat constructor.
  - vm_compute. auto.
Qed.
