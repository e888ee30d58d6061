(** Property C25 (work partition). *)
From Coq Require Import NArith Lia ZifyN List.
From Verif Require Import WorkModel.
Import ListNotations.
Local Open Scope N_scope.

(** The stages [0 .. horz] are handed out to [nt] legs. *)
Definition in_leg (horz nt k t : N) : Prop :=
  fst (get_work horz k nt) <= t < snd (get_work horz k nt).

(** no 32-bit overflow in the computation *)
Definition fits (horz nt : N) : Prop := 0 < nt /\ nt * (horz + 1) < 2 ^ 32.

Lemma get_work_exact horz nt k : fits horz nt -> k < nt ->
  get_work horz k nt = (k * (horz + 1) / nt, (k + 1) * (horz + 1) / nt).
Proof.
  intros [H0 H] Hk. unfold get_work, mul32, add32, wrap32.
  assert (k * (horz + 1) <= nt * (horz + 1)) by (apply N.mul_le_mono_r; lia).
  assert ((k + 1) * (horz + 1) <= nt * (horz + 1)) by (apply N.mul_le_mono_r; lia).
  assert (1 * (horz + 1) <= nt * (horz + 1)) by (apply N.mul_le_mono_r; lia).
  assert (nt * 1 <= nt * (horz + 1)) by (apply N.mul_le_mono_l; lia).
  rewrite !(N.mod_small (horz + 1)), (N.mod_small (k + 1)), !N.mod_small by lia.
  reflexivity.
Qed.

(** C25a: contiguity and end points *)
Theorem C25_contiguous : forall horz nt, fits horz nt ->
  fst (get_work horz 0 nt) = 0 /\
  snd (get_work horz (nt - 1) nt) = horz + 1 /\
  (forall k, k + 1 < nt -> snd (get_work horz k nt) = fst (get_work horz (k + 1) nt)) /\
  (forall k, k < nt -> fst (get_work horz k nt) <= snd (get_work horz k nt) <= horz + 1).
Proof.
  intros horz nt F. pose proof F as [H0 H].
  split; [|split; [|split]].
  - rewrite get_work_exact by (auto; lia). cbn [fst]. apply N.div_0_l. lia.
  - rewrite get_work_exact by (auto; lia). cbn [snd].
    replace (nt - 1 + 1) with nt by lia. rewrite N.mul_comm. apply N.div_mul. lia.
  - intros k Hk. rewrite !get_work_exact by (auto; lia). reflexivity.
  - intros k Hk. rewrite get_work_exact by auto. cbn [fst snd]. split.
    + apply N.div_le_mono; [lia|]. apply N.mul_le_mono_r; lia.
    + apply N.div_le_upper_bound; [lia|]. apply N.mul_le_mono_r; lia.
Qed.
Print Assumptions C25_contiguous.

(** C25b: every stage belongs to exactly one leg. *)
Theorem C25_partition : forall horz nt, fits horz nt -> forall t, t <= horz ->
  exists k, (k < nt /\ in_leg horz nt k t) /\
    forall k', k' < nt -> in_leg horz nt k' t -> k' = k.
Proof.
  intros horz nt F t Ht. pose proof F as [H0 H].
  (* the leg of stage t is the largest k with k*(h+1)/nt <= t *)
  set (k := ((t + 1) * nt - 1) / (horz + 1)).
  assert (D : (horz + 1) * k <= (t + 1) * nt - 1 < (horz + 1) * k + (horz + 1)).
  { unfold k. pose proof (N.div_mod ((t + 1) * nt - 1) (horz + 1) ltac:(lia)).
    pose proof (N.mod_lt ((t + 1) * nt - 1) (horz + 1) ltac:(lia)). lia. }
  assert (P : 0 < (t + 1) * nt) by lia.
  assert (Hk : k < nt).
  { destruct (N.lt_ge_cases k nt); auto. exfalso.
    assert ((horz + 1) * nt <= (horz + 1) * k) by (apply N.mul_le_mono_l; lia).
    assert ((t + 1) * nt <= (horz + 1) * nt) by (apply N.mul_le_mono_r; lia). lia. }
  assert (char : forall j, j < nt -> (in_leg horz nt j t <->
            j * (horz + 1) < (t + 1) * nt /\ (t + 1) * nt <= (j + 1) * (horz + 1))).
  { intros j Hj. unfold in_leg. rewrite get_work_exact by auto. cbn [fst snd]. split.
    - intros [A B]. split.
      + destruct (N.lt_ge_cases (j * (horz + 1)) ((t + 1) * nt)) as [L|L]; auto. exfalso.
        assert (t + 1 <= j * (horz + 1) / nt) by (apply N.div_le_lower_bound; lia). lia.
      + destruct (N.le_gt_cases ((t + 1) * nt) ((j + 1) * (horz + 1))) as [L|L]; auto. exfalso.
        assert ((j + 1) * (horz + 1) / nt < t + 1) by (apply N.div_lt_upper_bound; lia). lia.
    - intros [A B]. split.
      + assert (j * (horz + 1) / nt < t + 1) by (apply N.div_lt_upper_bound; lia). lia.
      + assert (t + 1 <= (j + 1) * (horz + 1) / nt) by (apply N.div_le_lower_bound; lia). lia. }
  exists k. split.
  - split; auto. apply char; auto. lia.
  - intros k' Hk' L. apply char in L; auto. destruct L as [A B].
    destruct (N.lt_trichotomy k' k) as [C|[C|C]]; auto; exfalso.
    + assert ((k' + 1) * (horz + 1) <= k * (horz + 1)) by (apply N.mul_le_mono_r; lia). lia.
    + assert ((k + 1) * (horz + 1) <= k' * (horz + 1)) by (apply N.mul_le_mono_r; lia). lia.
Qed.
Print Assumptions C25_partition.

(** C25c: balance and non-emptiness. *)
Theorem C25_balanced : forall horz nt, fits horz nt -> forall j k, j < nt -> k < nt ->
  let len i := snd (get_work horz i nt) - fst (get_work horz i nt) in
  len j <= len k + 1 /\ (nt <= horz + 1 -> 0 < len k).
Proof.
  intros horz nt F j k Hj Hk len. pose proof F as [H0 H]. unfold len.
  rewrite !get_work_exact by auto. cbn [fst snd].
  assert (B : forall i, (horz + 1) / nt <= (i + 1) * (horz + 1) / nt - i * (horz + 1) / nt
                     <= (horz + 1) / nt + 1).
  { intros i.
    assert (G : forall a b, b / nt <= (a + b) / nt - a / nt <= b / nt + 1).
    { clear i. intros a b.
      pose proof (N.div_mod a nt ltac:(lia)) as Da. pose proof (N.mod_lt a nt ltac:(lia)) as Ma.
      pose proof (N.div_mod b nt ltac:(lia)) as Db. pose proof (N.mod_lt b nt ltac:(lia)) as Mb.
      assert (L : a / nt + b / nt <= (a + b) / nt) by (apply N.div_le_lower_bound; lia).
      assert (U : (a + b) / nt < a / nt + b / nt + 2) by (apply N.div_lt_upper_bound; lia).
      clear -L U. revert L U. generalize (a / nt), (b / nt), ((a + b) / nt). intros; lia. }
    replace ((i + 1) * (horz + 1)) with (i * (horz + 1) + (horz + 1)) by lia. apply G. }
  pose proof (B j). pose proof (B k). split; [lia|]. intros Hn.
  assert (1 <= (horz + 1) / nt) by (apply N.div_le_lower_bound; lia). lia.
Qed.
Print Assumptions C25_balanced.

Example C25_witness : fits 10 4 /\
  map (fun k => get_work 10 k 4) [0; 1; 2; 3] = [(0, 2); (2, 5); (5, 8); (8, 11)].
Proof. split; [unfold fits; lia|reflexivity]. Qed.

(** Findings: with more threads than stages some legs are empty, and the
    products overflow for large horizons. *)
Theorem C25_empty_leg_refuted : exists horz nt k, fits horz nt /\ k < nt /\
  fst (get_work horz k nt) = snd (get_work horz k nt).
Proof. exists 1, 4, 0. split; [unfold fits; lia|]. split; [lia|reflexivity]. Qed.
Print Assumptions C25_empty_leg_refuted.
Theorem C25_overflow_refuted : exists horz nt k, horz + 1 < 2 ^ 32 /\ k + 1 < nt /\
  snd (get_work horz k nt) < fst (get_work horz k nt).
Proof. exists (2^30 + 1), 8, 3. split; [lia|]. split; [lia|reflexivity]. Qed.
Print Assumptions C25_overflow_refuted.
