(** C35: stacked segments tile. *)
From Coq Require Import List Arith Lia.
From Verif Require Import StackModel.
Import ListNotations.

Definition sum (l : list nat) : nat := fold_right Nat.add 0 l.

Lemma sum_app a b : sum (a ++ b) = sum a + sum b.
Proof. induction a; simpl; lia. Qed.

Lemma sum_firstn_le l k : sum (firstn k l) <= sum l.
Proof. rewrite <- (firstn_skipn k l) at 2. rewrite sum_app. lia. Qed.

Lemma sum_firstn_S l i : i < length l ->
  sum (firstn (S i) l) = sum (firstn i l) + nth i l 0.
Proof.
  revert i. induction l as [|a l IH]; intros i Hi; simpl in Hi; [lia|].
  destruct i as [|i]; [simpl; lia|].
  change (a + sum (firstn (S i) l) = a + sum (firstn i l) + nth i l 0).
  rewrite IH; lia.
Qed.

Lemma sum_firstn_mono l i j : i <= j -> sum (firstn i l) <= sum (firstn j l).
Proof.
  intros H. replace i with (Nat.min i j) by lia. rewrite <- firstn_firstn.
  apply sum_firstn_le.
Qed.

Lemma blk_indices_spec dims : forall acc,
  snd (blk_indices acc dims) = acc + sum dims /\
  length (fst (blk_indices acc dims)) = length dims /\
  forall i, i < length dims ->
    nth i (fst (blk_indices acc dims)) 0 = acc + sum (firstn i dims).
Proof.
  induction dims as [|d t IH]; intros acc; simpl.
  - repeat split; lia.
  - specialize (IH (acc + d)). destruct (blk_indices (acc + d) t) as [l n].
    simpl in *. destruct IH as (A & B & C). repeat split; try lia.
    intros [|i] Hi; simpl; [lia|]. rewrite C by lia. lia.
Qed.

Lemma in_segment dims i k : i < length dims ->
  In k (blk_segment dims i) <->
  sum (firstn i dims) <= k < sum (firstn (S i) dims).
Proof.
  intros Hi. unfold blk_segment, blk_initialize. rewrite in_seq.
  destruct (blk_indices_spec dims 0) as (_ & _ & C).
  rewrite C, sum_firstn_S by auto. simpl. reflexivity.
Qed.

(** C35, layout: for any dimensions the segments (one per block, of its
    dimension) are disjoint, in order and cover exactly the rows up to the total
    dimension. *)
Theorem C35_tiling : forall dims,
  snd (blk_initialize dims) = sum dims /\
  (forall i, length (blk_segment dims i) = nth i dims 0) /\
  (forall i j a b, i < j -> j < length dims ->
     In a (blk_segment dims i) -> In b (blk_segment dims j) -> a < b) /\
  (forall k, k < sum dims <-> exists i, i < length dims /\ In k (blk_segment dims i)) /\
  concat (map (blk_segment dims) (seq 0 (length dims))) = seq 0 (sum dims).
Proof.
  intros dims.
  assert (T : forall k, k < sum dims <->
    exists i, i < length dims /\ In k (blk_segment dims i)).
  { intros k. split.
    - intros Hk.
      assert (G : forall n, n <= length dims -> k < sum (firstn n dims) ->
        exists i, i < n /\ In k (blk_segment dims i)).
      { induction n as [|n IH]; simpl firstn; intros Hn Hs; [simpl in Hs; lia|].
        destruct (Nat.lt_ge_cases k (sum (firstn n dims))) as [L|L].
        - destruct (IH ltac:(lia) L) as (i & Hi & In'). exists i. split; [lia|auto].
        - exists n. split; [lia|]. apply in_segment; auto. }
      destruct (G (length dims)) as (i & Hi & In'); auto.
      + rewrite firstn_all. exact Hk.
      + exists i. auto.
    - intros (i & Hi & In'). apply in_segment in In'; auto.
      pose proof (sum_firstn_le dims (S i)). lia. }
  split; [apply blk_indices_spec|].
  split; [intros i; unfold blk_segment; apply seq_length|].
  split.
  { intros i j a b Hij Hj Ha Hb. apply in_segment in Ha; [|lia].
    apply in_segment in Hb; auto.
    pose proof (sum_firstn_mono dims (S i) j Hij). lia. }
  split; [exact T|].
  assert (G : forall n, n <= length dims ->
    concat (map (blk_segment dims) (seq 0 n)) = seq 0 (sum (firstn n dims))).
  { induction n as [|n IH]; intros Hn; [reflexivity|].
    rewrite seq_S, map_app, concat_app, IH by lia. cbn [map concat].
    rewrite app_nil_r, sum_firstn_S, seq_app by lia. cbn [Nat.add]. f_equal.
    unfold blk_segment, blk_initialize.
    destruct (blk_indices_spec dims 0) as (_ & _ & C). now rewrite C. }
  rewrite G by auto. now rewrite firstn_all.
Qed.

(** ... and the blocks of a matrix tile it. *)
Theorem C35_blocks : forall rd cd r c,
  (r < sum rd /\ c < sum cd <->
   exists i j, i < length rd /\ j < length cd /\ In (r, c) (blk_block rd cd i j)) /\
  (forall i j i' j', i < length rd -> i' < length rd -> j < length cd ->
     j' < length cd -> In (r, c) (blk_block rd cd i j) ->
     In (r, c) (blk_block rd cd i' j') -> i = i' /\ j = j').
Proof.
  intros rd cd r c.
  destruct (C35_tiling rd) as (_ & _ & O & T & _).
  destruct (C35_tiling cd) as (_ & _ & O' & T' & _). split.
  - rewrite T, T'. unfold blk_block. split.
    + intros [(i & Hi & Hr) (j & Hj & Hc)]. exists i, j. repeat split; auto.
      now apply in_prod.
    + intros (i & j & Hi & Hj & H). apply in_prod_iff in H. destruct H.
      split; [exists i|exists j]; auto.
  - intros i j i' j' Hi Hi' Hj Hj' H H'. unfold blk_block in *.
    apply in_prod_iff in H, H'. destruct H as [A B], H' as [A' B']. split.
    + destruct (Nat.lt_trichotomy i i') as [L|[E|L]]; auto; exfalso.
      * pose proof (O i i' r r L Hi' A A'). lia.
      * pose proof (O i' i r r L Hi A' A). lia.
    + destruct (Nat.lt_trichotomy j j') as [L|[E|L]]; auto; exfalso.
      * pose proof (O' j j' c c L Hj' B B'). lia.
      * pose proof (O' j' j c c L Hj B' B). lia.
Qed.

(** The constraints held after a sequence of operations. *)
Fixpoint held {cstr} (l : list cstr) (ops : list (op cstr)) : list cstr :=
  match ops with
  | [] => l
  | Push _ c :: t => held (l ++ [c]) t
  | Clear _ :: t => held [] t
  end.

Lemma total_of_app l acc : fold_left Nat.add l acc = acc + sum l.
Proof. revert acc. induction l; intros; simpl; [lia|]. rewrite IHl. lia. Qed.

(** C35, stack: after any sequence of pushBack/clear the dimensions are those of
    the constraints held, the total is their sum, and the indices are the
    starting points of the segments of the block layout built from [dims()],
    followed by the total. *)
Theorem C35_stack : forall cstr (nr : cstr -> nat) ops,
  let s := run cstr nr ops in
  funcs cstr s = held [] ops /\
  dims cstr s = map nr (held [] ops) /\
  total_dim cstr s = sum (map nr (held [] ops)) /\
  indices cstr s = fst (blk_initialize (dims cstr s)) ++ [total_dim cstr s].
Proof.
  intros cstr nr ops s.
  set (good := fun (s : stack cstr) l =>
    funcs cstr s = l /\ dims cstr s = map nr l /\
    total_dim cstr s = sum (map nr l) /\
    indices cstr s = fst (blk_initialize (dims cstr s)) ++ [total_dim cstr s]).
  assert (B : forall l a acc, fst (blk_indices acc (l ++ [a])) =
    fst (blk_indices acc l) ++ [acc + sum l]).
  { induction l as [|d l IH]; intros a acc; simpl.
    - now rewrite Nat.add_0_r.
    - specialize (IH a (acc + d)).
      destruct (blk_indices (acc + d) (l ++ [a])) as [u n].
      destruct (blk_indices (acc + d) l) as [u' n']. simpl in *. rewrite IH.
      now rewrite Nat.add_assoc. }
  assert (P : forall s l c, good s l -> good (pushBack cstr nr s c) (l ++ [c])).
  { intros s0 l c (A1 & A2 & A3 & A4). unfold good; simpl.
    rewrite A1, A2, A3, map_app. simpl. repeat split; auto.
    - rewrite sum_app. simpl. lia.
    - rewrite A4, last_last, A2. unfold blk_initialize. rewrite B. simpl.
      rewrite A3. reflexivity. }
  assert (N : good (st_new cstr) []) by (repeat split).
  assert (G : forall ops s l, good s l -> good (fold_left (apply cstr nr) ops s) (held l ops)).
  { clear ops s. induction ops as [|[c|] ops IH]; intros s l H; simpl; auto. }
  apply (G ops (st_new cstr) [] N).
Qed.

(** ... so the view of the first [n] block rows has the rows of the first [n]
    segments. *)
Theorem C35_top : forall dims n,
  snd (topBlkRows dims n) = sum (firstn n dims) /\
  (forall i, i < n -> blk_segment (fst (topBlkRows dims n)) i = blk_segment dims i).
Proof.
  intros dims n. unfold topBlkRows. simpl. split; [now rewrite total_of_app|].
  intros i Hi. unfold blk_segment, blk_initialize.
  destruct (blk_indices_spec dims 0) as (_ & L & C).
  destruct (blk_indices_spec (firstn n dims) 0) as (_ & L' & C').
  destruct (Nat.lt_ge_cases i (length dims)) as [H|H].
  - rewrite C, C'; auto; [|rewrite firstn_length; lia].
    rewrite firstn_firstn. replace (Nat.min i n) with i by lia.
    f_equal. clear -H Hi. revert n i H Hi.
    induction dims as [|d t IH]; intros n i H Hi; simpl in H; [lia|].
    destruct n as [|n]; [lia|]. destruct i as [|i]; simpl; auto.
    apply IH; lia.
  - rewrite !nth_overflow; auto; rewrite ?L, ?L', ?firstn_length; lia.
Qed.

Example C35_example :
  let s := run nat (fun c => c) [Push nat 9; Clear nat; Push nat 2; Push nat 0; Push nat 3] in
  dims nat s = [2; 0; 3] /\ indices nat s = [0; 2; 2; 5] /\ total_dim nat s = 5 /\
  blk_segment [2; 0; 3] 2 = [2; 3; 4].
Proof. repeat split. Qed.

Print Assumptions C35_tiling.
Print Assumptions C35_blocks.
Print Assumptions C35_stack.
Print Assumptions C35_top.
