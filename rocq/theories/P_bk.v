(** C30: the Bunch-Kaufman factorisation (core/bunchkaufman.hpp), blocked and unblocked. *)
From Coq Require Import Reals List Arith ZArith Bool Lia Lra Psatz.
From Verif Require Import BkModel BkProofs BkSolve BkFactor BkBlock.
Import ListNotations.
Local Open Scope R_scope.

(** Specification: matrices and vectors of size n are functions; (M x)_i is [dot n (M i) x]. *)
Definition dot (n : nat) (f g : nat -> R) : R := fold_right Rplus 0 (map (fun j => f j * g j) (seq 0 n)).
(** M is symmetric and its lower triangle is that of A *)
Definition symmetric_from (n : nat) (M A : nat -> nat -> R) : Prop :=
  (forall i j, (i < n)%nat -> (j < n)%nat -> M i j = M j i) /\ (forall i j, (j <= i < n)%nat -> M i j = A i j).
Definition solves_system (n : nat) (M : nat -> nat -> R) (x b : nat -> R) : Prop :=
  forall i, (i < n)%nat -> dot n (M i) x = b i.
Definition singular (n : nat) (M : nat -> nat -> R) : Prop :=
  exists v, (exists i, (i < n)%nat /\ v i <> 0) /\ solves_system n M v (fun _ => 0).

Lemma dot_sum n f g : dot n f g = sum 0 n (fun j => f j * g j).
Proof.
  unfold dot, sum. rewrite Nat.sub_0_r. induction (seq 0 n) as [|j l IH]; simpl; [reflexivity|]. now rewrite IH.
Qed.
Lemma solves_iff n M x b : solves_system n M x b <-> solves 0 n M x b.
Proof.
  split; intros H i Hi; [rewrite <- dot_sum; apply H; lia|rewrite dot_sum; apply H; lia].
Qed.
Lemma solves_ext n M N x b : (forall i j, (i < n)%nat -> (j < n)%nat -> M i j = N i j) -> solves 0 n M x b -> solves 0 n N x b.
Proof. intros E H i Hi. rewrite <- (H i Hi). apply sum_ext. intros j Hj. rewrite E by lia. reflexivity. Qed.
Lemma sum_swap lo hi lo' hi' (f : nat -> nat -> R) :
  sum lo hi (fun i => sum lo' hi' (f i)) = sum lo' hi' (fun j => sum lo hi (fun i => f i j)).
Proof.
  unfold sum. induction (seq lo (hi - lo)) as [|i l IH]; simpl.
  - induction (seq lo' (hi' - lo')) as [|j m IHm]; simpl; [reflexivity|]. rewrite <- IHm. ring.
  - rewrite IH. clear IH. induction (seq lo' (hi' - lo')) as [|j m IHm]; simpl; [ring|]. rewrite <- IHm. ring.
Qed.
Lemma sum_sq_zero n (v : nat -> R) : sum 0 n (fun i => v i * v i) = 0 -> forall i, (i < n)%nat -> v i = 0.
Proof.
  unfold sum. rewrite Nat.sub_0_r. intros H i Hi. assert (I : In i (seq 0 n)) by (apply in_seq; lia). revert H I.
  assert (P : forall l, 0 <= fold_right (fun j s => v j * v j + s) 0 l) by (induction l; simpl; [lra|nra]).
  induction (seq 0 n) as [|j l IH]; simpl; [contradiction|]. intros H [->|I]; specialize (P l).
  - apply Rsqr_0_uniq. unfold Rsqr. nra.
  - apply IH; [nra|exact I].
Qed.
Lemma solvable_regular n M : (forall i j, (i < n)%nat -> (j < n)%nat -> M i j = M j i) ->
  (forall b, exists x, solves 0 n M x b) -> forall v, solves 0 n M v (fun _ => 0) -> forall i, (i < n)%nat -> v i = 0.
Proof.
  intros Sy Ex v Hv. apply sum_sq_zero. destruct (Ex v) as [x Hx].
  transitivity (sum 0 n (fun i => sum 0 n (fun j => v i * (M i j * x j)))).
  - apply sum_ext. intros i Hi. rewrite sum_scale, (Hx i Hi). reflexivity.
  - rewrite sum_swap. transitivity (sum 0 n (fun j => x j * 0)).
    + apply sum_ext. intros j Hj. rewrite <- (Hv j Hj). rewrite <- sum_scale. apply sum_ext. intros i Hi. rewrite (Sy i j) by lia. ring.
    + rewrite (sum_ext 0 n _ (fun _ => 0)) by (intros; ring). apply sum_zero.
Qed.

Lemma compute_with_ok bs n w A : bs = 0%nat \/ (2 <= bs)%nat ->
  match compute_with bs n w A with
  | Success f => forall b, solves 0 n (sym A) (solve n f b) b
  | NumericalIssue => sing 0 n (sym A)
  | OutOfFuel => False
  end.
Proof.
  intros Hbs. unfold compute_with. cbv zeta. set (m := fun i j : nat => if (j <=? i) && (i <? n) then A i j else 0).
  assert (E : forall i j, (i < n)%nat -> (j < n)%nat -> sym m i j = sym A i j).
  { intros i j Hi Hj. unfold sym, m. nat_cases; reflexivity. }
  assert (B := blocks_ok n bs w m Hbs n 0 m (fun _ => 0%Z) [] ltac:(lia) ltac:(lia)).
  destruct (blocks n n bs 0 w m (fun _ => 0%Z)) as [[a piv]| |].
  - destruct B as (l & T' & St); [simpl; split; reflexivity|reflexivity|].
    destruct (extract n n 0 a (fun _ => 0) piv) as [a2 sd] eqn:Ex. intros b.
    assert (So := solve_ok n a piv l (sym m) T' (fun _ => 0) b St (sym_symm m 0 n)). rewrite Ex in So.
    exact (solves_ext _ _ _ _ _ E So).
  - destruct B as (v & Nz & K); [simpl; split; reflexivity|reflexivity|]. exists v. split; [exact Nz|]. exact (solves_ext _ _ _ _ _ E K).
  - apply B; [simpl; split; reflexivity|reflexivity].
Qed.
Lemma compute_ok n w M A : symmetric_from n M A ->
  match compute n w A with
  | Success f => forall b, solves 0 n M (solve n f b) b
  | NumericalIssue => sing 0 n M
  | OutOfFuel => False
  end.
Proof.
  intros [Sy Lo]. assert (E : forall i j, (i < n)%nat -> (j < n)%nat -> sym A i j = M i j).
  { intros i j Hi Hj. unfold sym. destruct (Nat.leb_spec j i); [symmetry; apply Lo; lia|rewrite Sy by lia; symmetry; apply Lo; lia]. }
  unfold compute. assert (C := compute_with_ok (if n <=? BlockSize then 0 else BlockSize) n w A).
  destruct (compute_with _ n w A).
  - intros b. apply (solves_ext _ _ _ _ _ E). apply C. destruct (n <=? BlockSize); [auto|]. unfold BlockSize. lia.
  - destruct C as (v & Nz & K); [destruct (n <=? BlockSize); [auto|]; unfold BlockSize; lia|]. exists v. split; [exact Nz|]. exact (solves_ext _ _ _ _ _ E K).
  - apply C. destruct (n <=? BlockSize); [auto|]. unfold BlockSize. lia.
Qed.

(** C30: when compute reports Success, solve returns the solution, for the symmetric matrix
    whose lower triangle was given (whatever the upper triangle and the workspace hold). *)
Theorem C30_solve n w A M f b : symmetric_from n M A -> compute n w A = Success f ->
  solves_system n M (solve n f b) b.
Proof. intros H E. assert (C := compute_ok n w M A H). rewrite E in C. apply solves_iff, C. Qed.

(** C30: compute always ends; it reports Success exactly for the nonsingular matrices and
    NumericalIssue exactly for the singular ones. *)
Theorem C30_success_iff n w A M : symmetric_from n M A ->
  ((exists f, compute n w A = Success f) <-> ~ singular n M) /\
  (compute n w A = NumericalIssue <-> singular n M) /\ compute n w A <> OutOfFuel.
Proof.
  intros H. assert (C := compute_ok n w M A H). destruct (compute n w A) as [f| |].
  - assert (NS : ~ singular n M).
    { intros (v & (i & Hi & Hv) & K). apply Hv. apply (solvable_regular n M (proj1 H)); [|now apply solves_iff|exact Hi].
      intros b. exists (solve n f b). apply C. }
    repeat split; try discriminate; eauto; intros; contradiction.
  - assert (SS : singular n M).
    { destruct C as (v & (i & Hi & Hv) & K). exists v. split; [exists i; split; [lia|exact Hv]|]. now apply solves_iff. }
    split; [split; [intros [f E]; discriminate|intros; contradiction]|]. split; [split; auto|discriminate].
  - contradiction.
Qed.

(** C30: the solution is the only one, so neither the workspace nor the upper triangle matters. *)
Theorem C30_unique n w w' A A' M f f' b : symmetric_from n M A -> symmetric_from n M A' ->
  compute n w A = Success f -> compute n w' A' = Success f' ->
  forall i, (i < n)%nat -> solve n f b i = solve n f' b i.
Proof.
  intros H H' E E'. assert (C := compute_ok n w M A H). assert (C' := compute_ok n w' M A' H'). rewrite E in C. rewrite E' in C'.
  intros i Hi. apply Rminus_diag_uniq.
  apply (solvable_regular n M (proj1 H) (fun c => ex_intro (fun x => solves 0 n M x c) (solve n f c) (C c)) (fun j => solve n f b j - solve n f' b j)); [|exact Hi].
  intros r Hr. transitivity (sum 0 n (fun j => M r j * solve n f b j) + -1 * sum 0 n (fun j => M r j * solve n f' b j)).
  - rewrite <- sum_scale, <- sum_plus. apply sum_ext. intros j _. ring.
  - rewrite (C b r Hr), (C' b r Hr). ring.
Qed.

(** C30: any block size but 1 gives the same guarantees; 0 is the unblocked routine alone. *)
Theorem C30_blocksize bs n w A M f b : bs <> 1%nat -> symmetric_from n M A -> compute_with bs n w A = Success f ->
  solves_system n M (solve n f b) b.
Proof.
  intros Hb [Sy Lo] E. assert (C := compute_with_ok bs n w A ltac:(lia)). rewrite E in C. apply solves_iff.
  refine (solves_ext _ _ _ _ _ _ (C b)). intros i j Hi Hj. unfold sym.
  destruct (Nat.leb_spec j i); [symmetry; apply Lo; lia|rewrite Sy by lia; symmetry; apply Lo; lia].
Qed.

(** Examples: the reversal matrix of size 40 has a zero diagonal, so the first pivot is 2x2,
    and is larger than a block; a rank one matrix is refused. *)
Definition reversal (n : nat) : nat -> nat -> R := fun i j => if (i + j =? n - 1)%nat then 1 else 0.
Lemma reversal_regular n : ~ singular n (reversal n).
Proof.
  intros (v & (i & Hi & Hv) & K). apply Hv. specialize (K (n - 1 - i)%nat ltac:(lia)). rewrite dot_sum in K.
  rewrite (sum_one 0 n _ i) in K; [|lia|].
  - unfold reversal in K. replace (n - 1 - i + i =? n - 1)%nat with true in K by (symmetry; apply Nat.eqb_eq; lia). lra.
  - intros j Hj Hne. unfold reversal. replace (n - 1 - i + j =? n - 1)%nat with false by (symmetry; apply Nat.eqb_neq; lia). ring.
Qed.
Example C30_reversal : exists f, compute 40 (fun _ _ _ => 7) (fun i j => if (j <=? i)%nat then reversal 40 i j else 13) = Success f /\
  forall b i, (i < 40)%nat -> solve 40 f b i = b (39 - i)%nat.
Proof.
  set (A := fun i j => if (j <=? i)%nat then reversal 40 i j else 13).
  assert (H : symmetric_from 40 (reversal 40) A).
  { split; [intros i j _ _; unfold reversal; now rewrite Nat.add_comm|]. intros i j Hj. unfold A. rewrite (proj2 (Nat.leb_le j i)) by lia. reflexivity. }
  destruct (proj2 (proj1 (C30_success_iff 40 (fun _ _ _ => 7) A _ H)) (reversal_regular 40)) as [f E]. exists f. split; [exact E|].
  intros b i Hi. assert (K := C30_solve _ _ _ _ _ b H E (39 - i)%nat ltac:(lia)). rewrite dot_sum in K.
  rewrite (sum_one 0 40 _ i) in K; [|lia|].
  - unfold reversal in K. replace (39 - i + i =? 40 - 1)%nat with true in K by (symmetry; apply Nat.eqb_eq; lia). rewrite Rmult_1_l in K. exact K.
  - intros j Hj Hne. unfold reversal. replace (39 - i + j =? 40 - 1)%nat with false by (symmetry; apply Nat.eqb_neq; lia). apply Rmult_0_l.
Qed.
Example C30_rank_one w : compute 3 w (fun _ _ => 1) = NumericalIssue.
Proof.
  apply (C30_success_iff 3 w _ (fun _ _ => 1)); [split; reflexivity|].
  exists (fun i => match i with 0%nat => 1 | 1%nat => -1 | _ => 0 end). split; [exists 0%nat; split; [lia|lra]|].
  intros i Hi. unfold dot. simpl. ring.
Qed.

(** After a failure: on diag(1, 0, 0) the loop does one step and stops with NumericalIssue, and
    solve with what is then stored (pivots not yet written are 0) maps (b, 0, 0) to 0, not to the
    least-norm solution (b, 0, 0).  Callers which do not look at info() get this. *)
Definition diag100 : mat := fun i j => if (i =? 0)%nat && (j =? 0)%nat then 1 else 0.
Example C30_after_failure : exists a' piv',
  BkModel.round 0 3 0 diag100 (fun _ => 0%Z) = Some (a', piv', 1%nat) /\ BkModel.round 0 3 1 a' piv' = None /\
  forall b i, (i < 3)%nat -> solve 3 (Factor a' (fun _ => 0) piv') (fun j => if (j =? 0)%nat then b else 0) i = 0.
Proof.
  destruct (BkModel.round 0 3 0 diag100 (fun _ => 0%Z)) as [[[a' piv'] ks]|] eqn:E.
  - assert (H : ks = 1%nat /\ (forall j, piv' j = 0%Z) /\
       forall i j, (j <= i < 3)%nat -> a' i j = if (i =? 0)%nat && (j =? 0)%nat then 1 else 0).
    { unfold BkModel.round in E. cbv zeta in E.
      unfold col_max, max_coeff, for_ in E. simpl in E. unfold diag100 in E at 1 2 3 4 5 6. simpl in E.
      rewrite !Rabs_R0, Rabs_R1 in E.
      destruct (Rleb_spec 0 0); [|lra]. simpl in E.
      destruct (Reqb_spec (Rmax 1 0) 0) as [X|X]; [rewrite Rmax_left in X by lra; lra|].
      unfold choose in E. destruct (Rleb_spec (0 * alpha) 1) as [Y|Y]; [|lra].
      injection E as <- <- <-. split; [reflexivity|]. split.
      - intros j. unfold record_pivot, set_piv. destruct (j =? 0)%nat; reflexivity.
      - intros i j Hij. rewrite elim_one_at by lia. unfold swap_lower, diag100. simpl.
        destruct i as [|[|[|i]]]; destruct j as [|[|[|j]]]; try lia; simpl; lra. }
    destruct H as (-> & HP & HA). exists a', piv'. split; [reflexivity|]. split.
    + unfold BkModel.round. cbv zeta. unfold col_max, max_coeff, for_. simpl. rewrite !HA by lia. simpl. rewrite Rabs_R0.
      destruct (Reqb_spec (Rmax 0 0) 0) as [X|X]; [reflexivity|]. rewrite Rmax_left in X by lra. lra.
    + intros b i Hi. unfold solve. cbn [f_mat f_sub f_piv].
      assert (L : forall x j, (j < 3)%nat -> lower_solve 3 a' x j = x j).
      { intros x j Hj. unfold lower_solve, for_. simpl. destruct j as [|[|[|j]]]; try lia; simpl; rewrite ?HA by lia; simpl; ring. }
      assert (U : forall x j, (j < 3)%nat -> upper_solve 3 a' x j = x j).
      { intros x j Hj. unfold upper_solve, sum. simpl. destruct j as [|[|[|j]]]; try lia; simpl; rewrite ?HA by lia; simpl; ring. }
      set (x0 := swaps_forward 3 3 0 piv' _).
      assert (X0 : forall j, (j < 3)%nat -> x0 j = if (j =? 1)%nat then b else 0).
      { intros j Hj. unfold x0. simpl. repeat (rewrite !HP; simpl). unfold swap_vec.
        destruct j as [|[|[|j]]]; try lia; reflexivity. }
      clearbody x0. set (x1 := lower_solve 3 a' x0).
      assert (X1 : forall j, (j < 3)%nat -> x1 j = if (j =? 1)%nat then b else 0) by (intros; unfold x1; rewrite L, X0 by lia; reflexivity).
      clearbody x1. set (x2 := diag_solve 3 3 0 a' _ piv' x1).
      assert (X2 : forall j, (j < 3)%nat -> x2 j = 0).
      { intros j Hj. unfold x2. simpl. repeat (rewrite !HP; simpl).
        destruct j as [|[|[|j]]]; try lia; simpl; rewrite ?X1, ?HA by lia; simpl; ring. }
      clearbody x2. set (x3 := upper_solve 3 a' x2).
      assert (X3 : forall j, (j < 3)%nat -> x3 j = 0) by (intros; unfold x3; rewrite U, X2 by lia; reflexivity).
      clearbody x3. simpl. repeat (rewrite !HP; simpl). unfold swap_vec.
      destruct i as [|[|[|i]]]; try lia; simpl; apply X3; lia.
  - exfalso. unfold BkModel.round in E. cbv zeta in E. unfold col_max, max_coeff, for_ in E. simpl in E.
    unfold diag100 in E at 1 2 3 4 5 6. simpl in E. rewrite !Rabs_R0, Rabs_R1 in E. destruct (Rleb_spec 0 0); [|lra]. simpl in E.
    destruct (Reqb_spec (Rmax 1 0) 0) as [X|X]; [rewrite Rmax_left in X by lra; lra|].
    destruct (choose _ _ _ _ _ _). discriminate.
Qed.

Print Assumptions C30_solve.
Print Assumptions C30_success_iff.
Print Assumptions C30_unique.
Print Assumptions C30_blocksize.
Print Assumptions C30_reversal.
Print Assumptions C30_after_failure.
