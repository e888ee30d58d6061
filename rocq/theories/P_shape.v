(** C62: sizes of the buffers of SolverProxDDP. *)
From Coq Require Import List Arith Bool Lia.
From Verif Require Import ShapeModel.
Import ListNotations.

Lemma buf_beq_refl b : buf_beq b b = true.
Proof. now apply internal_buf_dec_lb. Qed.
Lemma buf_beq_eq b b' : buf_beq b b' = true -> b = b'.
Proof. apply internal_buf_dec_bl. Qed.
Lemma same_refl a : same a a = true.
Proof. unfold same. now rewrite !Nat.eqb_refl. Qed.
Lemma same_eq a b : same a b = true -> a = b.
Proof.
  destruct a, b; unfold same; simpl. rewrite andb_true_iff, !Nat.eqb_eq. now intros [-> ->].
Qed.

Lemma put_same m b v : put m b v b = v.
Proof. unfold put. now rewrite buf_beq_refl. Qed.
Lemma put_other m b v b' : b <> b' -> put m b v b' = m b'.
Proof. unfold put. destruct (buf_beq b b') eqn:E; auto. now apply buf_beq_eq in E. Qed.

Lemma exec_app l1 l2 m : exec (l1 ++ l2) m = match exec l1 m with Some m' => exec l2 m' | None => None end.
Proof.
  revert m. induction l1 as [|o l1 IH]; intros m; simpl; auto.
  destruct (step m o); auto.
Qed.

Lemma exec_fit l m m' : exec l m = Some m' -> Forall (fun o => exists a e, o = Fit a e) l -> m' = m.
Proof.
  intros H F. revert m H. induction F as [|o l (a & e & ->) _ IH]; intros m; simpl; [congruence|].
  destruct (size m a); [|discriminate]. destruct (size m e); [|discriminate].
  destruct (same _ _); [|discriminate]. apply IH.
Qed.

(** ** Reasoning about programs that keep given sizes *)
Section Keep.
Variable elen : buf -> nat.
Variable esz : buf -> nat -> nat * nat.
Definition E : mem := fun b => (elen b, esz b).

Definition full (m : mem) (b : buf) : Prop :=
  len m b = elen b /\ forall i, i < elen b -> at_ m b i = esz b i.

Definition agree (m : mem) : Prop := forall b, full m b.

Lemma size_agree m e : agree m -> size m e = size E e.
Proof.
  intros A. induction e; simpl; auto;
    try (now rewrite IHe1, IHe2);
    try now rewrite IHe.
  - destruct (A b) as [L X]. rewrite L. unfold len, E; simpl.
    destruct (i <? elen b) eqn:I; auto. apply Nat.ltb_lt in I. now rewrite X.
  - assert (H : forallb (fun x => snd x <? len m (fst x)) l = forallb (fun x => snd x <? len E (fst x)) l).
    { induction l as [|x l IH]; simpl in *; auto.
      rewrite IH by auto. destruct (A (fst x)) as [-> _]. reflexivity. }
    rewrite H. destruct (forallb (fun x => snd x <? len E (fst x)) l) eqn:F; auto. do 3 f_equal.
    clear H. induction l as [|x l IH]; simpl in *; auto.
    apply andb_true_iff in F as [F1 F2].
    apply Nat.ltb_lt in F1. rewrite (proj2 (A (fst x))) by exact F1. f_equal. now apply IH.
Qed.

(** A statement that keeps the sizes. *)
Definition keeps (o : op) : Prop :=
  match o with
  | Put b i e => i < elen b /\ size E e = Some (esz b i)
  | Fit a e => exists s, size E a = Some s /\ size E e = Some s
  | Uses e => exists s, size E e = Some s
  | Chk c => c = true
  | Resize b n => n = elen b
  | Copy b b' => elen b = elen b' /\ forall i, i < elen b -> esz b i = esz b' i
  | Pop _ | Rot _ _ _ => False
  | LenIs b n => elen b = n
  end.

Lemma step_keeps m o : agree m -> keeps o -> exists m', step m o = Some m' /\ agree m'.
Proof.
  intros A; destruct o; simpl.
  - intros (I & S). rewrite (size_agree m e A), S. destruct (A b) as [H1 H2]. rewrite H1.
    replace (i <? elen b) with true by (symmetry; now apply Nat.ltb_lt).
    eexists; split; [reflexivity|]. intros b'. unfold full, len, at_, put.
    destruct (buf_beq b b') eqn:Eb.
    + apply buf_beq_eq in Eb; subst b'. simpl. split; auto. intros j J.
      destruct (i =? j) eqn:Ej; [apply Nat.eqb_eq in Ej; now subst j|]. now apply H2.
    + apply (A b').
  - intros (s & S1 & S2). rewrite (size_agree m a A), (size_agree m e A), S1, S2, same_refl.
    eauto.
  - intros (s & S). rewrite (size_agree m e A), S. eauto.
  - intros ->. eauto.
  - intros ->. eexists; split; [reflexivity|]. intros b'. destruct (A b) as [H1 H2].
    unfold full, len, at_, put. destruct (buf_beq b b') eqn:Eb; [|apply (A b')].
    apply buf_beq_eq in Eb; subst b'. simpl. split; auto. intros i I.
    unfold len in H1. rewrite H1. replace (i <? elen b) with true by (symmetry; now apply Nat.ltb_lt).
    now apply H2.
  - intros (H1 & H2). eexists; split; [reflexivity|]. intros b0. destruct (A b') as [G1 G2].
    unfold full, len, at_, put. destruct (buf_beq b b0) eqn:Eb; [|apply (A b0)].
    apply buf_beq_eq in Eb; subst b0. unfold len, at_ in *. split; [congruence|]. intros i I.
    rewrite G2 by congruence. now rewrite H2.
  - tauto.
  - tauto.
  - intros <-. destruct (A b) as [-> _]. rewrite Nat.eqb_refl. eauto.
Qed.

Lemma exec_keeps l m : agree m -> Forall keeps l -> exists m', exec l m = Some m' /\ agree m'.
Proof.
  intros A F. revert m A. induction F as [|o l K _ IH]; intros m A; simpl; eauto.
  destruct (step_keeps m o A K) as (m' & -> & A'). now apply IH.
Qed.

Lemma keeps_for n f : (forall i, i < n -> Forall keeps (f i)) -> Forall keeps (for_ n f).
Proof.
  intros H. unfold for_. apply Forall_flat_map, Forall_forall. intros i I. apply in_seq in I. apply H. lia.
Qed.

(** An assignment that changes the size of one element. *)
Lemma step_put_to m b i e s : agree m -> i < elen b -> size E e = Some s ->
  exists m', step m (Put b i e) = Some m' /\
    forall b', len m' b' = elen b' /\
      forall j, j < elen b' -> at_ m' b' j = if buf_beq b b' && (i =? j) then s else esz b' j.
Proof.
  intros A I S. simpl. rewrite (size_agree m e A), S. destruct (A b) as [H1 H2]. rewrite H1.
  replace (i <? elen b) with true by (symmetry; now apply Nat.ltb_lt).
  eexists; split; [reflexivity|]. intros b'. unfold len, at_, put.
  destruct (buf_beq b b') eqn:Eb; [|apply (A b')].
  apply buf_beq_eq in Eb; subst b'. simpl. split; auto. intros j J. destruct (i =? j); auto. now apply H2.
Qed.
End Keep.

(** ** Filling buffers *)
(** each vector is resized before its elements are assigned *)
Fixpoint safe (D : buf -> Prop) (l : list op) : Prop :=
  match l with
  | [] => True
  | Resize b _ :: l => safe (fun b' => b = b' \/ D b') l
  | Put b _ _ :: l => D b /\ safe D l
  | Chk _ :: l => safe D l
  | _ => False
  end.
Lemma safe_mono l : forall D D' : buf -> Prop, (forall b, D b -> D' b) -> safe D l -> safe D' l.
Proof.
  induction l as [|o l IH]; intros D D' H; simpl; auto. destruct o; auto.
  - intros [A B]. split; auto. eapply IH; eauto.
  - apply IH; auto.
  - apply IH. intros b' [->|A]; auto.
Qed.
Lemma safe_app l1 l2 : forall D, safe D l1 -> safe (fun b => D b \/ exists k, In (Resize b k) l1) l2 -> safe D (l1 ++ l2).
Proof.
  induction l1 as [|o l1 IH]; intros D A B; simpl in *.
  - revert B. apply safe_mono. intros b [H|[k []]]; auto.
  - destruct o; try tauto.
    + split; [tauto|]. apply IH; [tauto|]. revert B. apply safe_mono. intros b' [H|[k [H|H]]]; eauto; discriminate.
    + apply IH; [tauto|]. revert B. apply safe_mono. intros b' [H|[k [H|H]]]; eauto; discriminate.
    + apply IH; [tauto|]. revert B. apply safe_mono. intros b' [H|[k [H|H]]]; eauto.
      injection H as -> _; auto.
Qed.
Lemma safe_for k f D : (forall i, i < k -> safe D (f i)) -> safe D (for_ k f).
Proof.
  intros H. unfold for_. assert (G : forall l, (forall i, In i l -> safe D (f i)) -> safe D (flat_map f l)).
  { induction l as [|x l IH]; simpl; intros G; auto. apply safe_app; auto.
    eapply safe_mono; [|apply IH]; auto. }
  apply G. intros i I. apply in_seq in I. apply H. lia.
Qed.

Section Fill.
Variable elen : buf -> nat.
Variable esz : buf -> nat -> nat * nat.
Notation full := (full elen esz).
Definition wr (b : buf) (i : nat) : op := Put b i (Lit (fst (esz b i)) (snd (esz b i))).

Lemma wr_eq b i r c : (r, c) = esz b i -> Put b i (Lit r c) = wr b i.
Proof. unfold wr. intros <-. reflexivity. Qed.

(** Constructors: vectors are resized and their elements are assigned, in any
    order in which a vector is resized before its elements are assigned. *)
Inductive mix : op -> Prop :=
| MR b : mix (Resize b (elen b))
| MW b i : i < elen b -> mix (wr b i)
| MC c : c = true -> mix (Chk c).
Lemma mix_put b i r c : i < elen b -> (r, c) = esz b i -> mix (Put b i (Lit r c)).
Proof. intros I H. rewrite (wr_eq b i r c H). now constructor. Qed.
Lemma mix_res b k : k = elen b -> mix (Resize b k).
Proof. intros ->. constructor. Qed.
Lemma mix_for k f : (forall i, i < k -> Forall mix (f i)) -> Forall mix (for_ k f).
Proof.
  intros H. unfold for_. apply Forall_flat_map, Forall_forall. intros i I. apply in_seq in I. apply H. lia.
Qed.

(** the element is right, or will be by default *)
Definition rdy (m : mem) (b : buf) (i : nat) : Prop :=
  (i < len m b /\ at_ m b i = esz b i) \/ (len m b <= i /\ esz b i = (0, 1)).

Lemma exec_mix l : forall (D : buf -> Prop) m, (forall b, D b -> len m b = elen b) -> Forall mix l -> safe D l ->
  exists m', exec l m = Some m' /\
    (forall b, D b \/ In (Resize b (elen b)) l -> len m' b = elen b) /\
    (forall b, ~ In (Resize b (elen b)) l -> len m' b = len m b) /\
    (forall b i, i < elen b -> In (wr b i) l \/ rdy m b i -> rdy m' b i).
Proof.
  induction l as [|o l IH]; intros D m HD M S; simpl.
  - exists m. repeat split; auto.
    + intros b [H|[]]; auto.
    + intros b i _ [[]|H]; auto.
  - inversion_clear M as [|? ? Mo Ml]. destruct Mo as [b|b i I|c Hc]; simpl in S.
    + set (m1 := put m b (elen b, fun j => if j <? len m b then at_ m b j else (0, 1))).
      assert (L1 : forall b', len m1 b' = if buf_beq b b' then elen b else len m b').
      { intros b'. unfold m1, len, put. now destruct (buf_beq b b'). }
      assert (R1 : forall b' i, i < elen b' -> rdy m b' i -> rdy m1 b' i).
      { intros b' i I R. unfold rdy. rewrite L1. unfold at_, m1, put. destruct (buf_beq b b') eqn:Eb; [|exact R].
        apply buf_beq_eq in Eb; subst b'. left. split; auto. simpl. destruct R as [[R1 R2]|[R1 R2]].
        - replace (i <? len m b) with true by (symmetry; now apply Nat.ltb_lt). exact R2.
        - replace (i <? len m b) with false by (symmetry; now apply Nat.ltb_ge). auto. }
      destruct (IH (fun b' => b = b' \/ D b') m1) as (m2 & E2 & A2 & B2 & C2); auto.
      { intros b' [<-|H]; rewrite L1; [now rewrite buf_beq_refl|]. destruct (buf_beq b b') eqn:Eb; auto.
        apply buf_beq_eq in Eb; now subst. }
      exists m2. split; auto. split; [|split].
      * intros b' [H|[H|H]]; try (apply A2; tauto). injection H as -> _. apply A2; tauto.
      * intros b' H. rewrite B2 by tauto. rewrite L1. destruct (buf_beq b b') eqn:Eb; auto.
        apply buf_beq_eq in Eb; subst. exfalso; apply H; now left.
      * intros b' i I [[H|H]|H]; [discriminate|apply C2; auto|apply C2; auto].
    + destruct S as [Db S]. pose proof (HD b Db) as Lb. unfold wr, step; simpl. rewrite Lb.
      replace (i <? elen b) with true by (symmetry; now apply Nat.ltb_lt).
      set (m1 := put m b _).
      assert (L1 : forall b', len m1 b' = len m b').
      { intros b'. unfold m1, len, put. destruct (buf_beq b b') eqn:Eb; auto.
        apply buf_beq_eq in Eb; subst. now rewrite <- Lb. }
      assert (R1 : forall b' j, rdy m b' j -> rdy m1 b' j).
      { intros b' j R. unfold rdy. rewrite L1. unfold at_, m1, put. destruct (buf_beq b b') eqn:Eb; [|exact R].
        apply buf_beq_eq in Eb; subst b'. simpl. destruct R as [[R1 R2]|R]; auto. left. split; auto.
        destruct (i =? j) eqn:Ej; auto. apply Nat.eqb_eq in Ej. subst. now destruct (esz b j). }
      assert (R2 : rdy m1 b i).
      { left. rewrite L1, Lb. split; auto. unfold at_, m1. rewrite put_same. simpl. rewrite Nat.eqb_refl.
        now destruct (esz b i). }
      destruct (IH D m1) as (m2 & E2 & A2 & B2 & C2); auto.
      { intros b' H. rewrite L1. auto. }
      exists m2. split; auto. split; [|split].
      * intros b' [H|[H|H]]; try (apply A2; tauto). discriminate.
      * intros b' H. rewrite B2 by tauto. apply L1.
      * intros b' j J [[H|H]|H]; try (apply C2; auto).
        unfold wr in H. injection H as <- <- _ _. now right.
    + simpl. rewrite Hc. destruct (IH D m) as (m2 & E2 & A2 & B2 & C2); auto.
      exists m2. split; auto. split; [|split].
      * intros b' [H|[H|H]]; try (apply A2; tauto). discriminate.
      * intros b' H. apply B2. tauto.
      * intros b' j J [[H|H]|H]; try (apply C2; auto). discriminate.
Qed.

(** vectors assigned by a statement *)
Definition tgt (o : op) : option buf :=
  match o with
  | Put b _ _ | Resize b _ | Copy b _ | Pop b | Rot b _ _ => Some b
  | _ => None
  end.
Lemma step_frame m o m' b : step m o = Some m' -> tgt o <> Some b -> m' b = m b.
Proof.
  destruct o; simpl; intros H T;
    repeat match type of H with
    | match ?x with _ => _ end = _ => destruct x; try discriminate
    end; injection H as <-; auto; apply put_other; congruence.
Qed.
Lemma exec_frame l : forall m m' b, exec l m = Some m' -> Forall (fun o => tgt o <> Some b) l -> m' b = m b.
Proof.
  induction l as [|o l IH]; simpl; intros m m' b H F; [congruence|].
  destruct (step m o) as [m1|] eqn:E1; [|discriminate]. inversion_clear F as [|? ? Fo Fl].
  rewrite (IH m1 m' b H Fl). eapply step_frame; eauto.
Qed.

(** a vector that is resized and of which every element is assigned *)
Lemma fill_any l m : Forall mix l -> safe (fun _ => False) l ->
  exists m', exec l m = Some m' /\
    (forall b, In (Resize b (elen b)) l -> (forall i, i < elen b -> In (wr b i) l) -> full m' b) /\
    (forall b, Forall (fun o => tgt o <> Some b) l -> m' b = m b).
Proof.
  intros M S. destruct (exec_mix l (fun _ => False) m) as (m' & E1 & A & B & C); auto; [tauto|].
  exists m'. split; auto. split.
  - intros b R F. assert (L : len m' b = elen b) by auto. split; auto. intros i I.
    destruct (C b i I) as [[_ H]|[H _]]; auto. lia.
  - intros b F. eapply exec_frame; eauto.
Qed.

(** vectors in [D] are built, the others are empty *)
Definition built (D : buf -> bool) (m : mem) : Prop :=
  forall b, if D b then full m b else len m b = 0.

Lemma seg D D' l m : built D m -> Forall mix l -> safe (fun b => D b = true) l ->
  (forall b, D' b = false -> D b = false /\ ~ In (Resize b (elen b)) l) ->
  (forall b, D' b = true -> D b = true \/
     (In (Resize b (elen b)) l /\ forall i, i < elen b -> In (wr b i) l \/ esz b i = (0, 1))) ->
  exists m', exec l m = Some m' /\ built D' m'.
Proof.
  intros O M S N Y. destruct (exec_mix l (fun b => D b = true) m) as (m' & Ex & A & B & C); auto.
  { intros b H. specialize (O b). rewrite H in O. apply O. }
  exists m'. split; auto. intros b. specialize (O b). destruct (D' b) eqn:Db.
  - assert (L : len m' b = elen b) by (apply A; destruct (Y b Db) as [H|[H _]]; auto).
    split; auto. intros i I. assert (R : rdy m' b i).
    { apply C; auto. destruct (Y b Db) as [H|[H1 H2]].
      - right. rewrite H in O. destruct O as [O1 O2]. left. rewrite O1. auto.
      - destruct (H2 i I) as [H|H]; auto. right. destruct (D b).
        + destruct O as [O1 O2]. left. rewrite O1. auto.
        + right. rewrite O. split; auto. lia. }
    destruct R as [[_ R]|[R _]]; auto. lia.
  - destruct (N b Db) as [N1 N2]. rewrite N1 in O. rewrite B; auto.
Qed.

Lemma seg_copy D D' b b' m : built D m -> D b' = true -> elen b = elen b' ->
  (forall i, i < elen b -> esz b i = esz b' i) ->
  (forall b0, D' b0 = if buf_beq b b0 then true else D b0) ->
  exists m', exec [Copy b b'] m = Some m' /\ built D' m'.
Proof.
  intros O Db H1 H2 HD. eexists; split; [reflexivity|]. intros b0. rewrite HD. unfold full, len, at_, put.
  destruct (buf_beq b b0) eqn:Eb; [|apply (O b0)]. apply buf_beq_eq in Eb; subst b0.
  specialize (O b'). rewrite Db in O. destruct O as [L A]. unfold len, at_ in *.
  split; [congruence|]. intros i I. rewrite A by congruence. now rewrite H2.
Qed.
End Fill.

(** ** Well-formed problems *)
Definition cstr_wf (n : nat) (c : cstr) : Prop :=
  c_ndx c = n /\ match c_box c with Some k => k = c_nr c | None => True end.
Definition stage_wf (s : stage) : Prop :=
  stage_accepted s = true /\ nx2 s = nx1 s /\ ndx2 s = ndx1 s /\ k_ndx s = ndx1 s /\
  Forall (cstr_wf (ndx1 s)) (cs s).
Definition wf (p : prob) : Prop :=
  1 <= N p /\ integrity p = true /\
  (forall k, i_x0 p = Some k -> k = nx1 (st p 0)) /\
  Forall stage_wf (stages p) /\ Forall (cstr_wf (t_ndx p)) (tcs p).

Lemma st_wf p i : wf p -> i < N p -> stage_wf (st p i).
Proof.
  intros (_ & _ & _ & F & _) I. unfold st. rewrite Forall_forall in F. apply F. now apply nth_In.
Qed.

Lemma integrity_step p k : integrity p = true -> S k < N p ->
  nx2 (st p k) = nx1 (st p (S k)) /\ ndx2 (st p k) = ndx1 (st p (S k)).
Proof.
  unfold integrity. destruct (N p =? 0) eqn:Z; [apply Nat.eqb_eq in Z; lia|].
  rewrite !andb_true_iff, forallb_forall. intros (((_ & F) & _) & _) K.
  specialize (F (S k)). rewrite in_seq, andb_true_iff, !Nat.eqb_eq in F.
  replace (S k - 1) with k in F by lia. apply F. lia.
Qed.
Lemma integrity_ends p : 1 <= N p -> integrity p = true ->
  ndx1 (st p 0) = i_ndx p /\ nx2 (st p (N p - 1)) = t_nx p /\ ndx2 (st p (N p - 1)) = t_ndx p.
Proof.
  unfold integrity. destruct (N p =? 0) eqn:Z; [apply Nat.eqb_eq in Z; lia|].
  rewrite !andb_true_iff, !Nat.eqb_eq. tauto.
Qed.

Lemma st_uniform p i : wf p -> i < N p -> nx1 (st p i) = nx1 (st p 0) /\ ndx1 (st p i) = ndx1 (st p 0).
Proof.
  intros W. induction i as [|i IH]; intros I; auto.
  destruct (integrity_step p i) as [A B]; [apply W|auto|].
  destruct (st_wf p i W) as (_ & C & D & _); [lia|]. destruct IH; [lia|]. split; congruence.
Qed.

Lemma st_dims p i : wf p -> i < N p ->
  nx1 (st p i) = nx1 (st p 0) /\ ndx1 (st p i) = ndx1 (st p 0) /\
  nx2 (st p i) = nx1 (st p 0) /\ ndx2 (st p i) = ndx1 (st p 0) /\
  k_ndx (st p i) = ndx1 (st p 0) /\ k_nu (st p i) = nu (st p i).
Proof.
  intros W I. destruct (st_uniform p i W I) as [A B]. destruct (st_wf p i W I) as (C & D & E0 & F & _).
  unfold stage_accepted in C. apply andb_true_iff in C as [C _]. apply Nat.eqb_eq in C.
  repeat split; congruence.
Qed.
Lemma end_dims p : wf p -> i_ndx p = ndx1 (st p 0) /\ t_nx p = nx1 (st p 0) /\ t_ndx p = ndx1 (st p 0).
Proof.
  intros W. destruct (integrity_ends p) as (A & B & C); [apply W|apply W|].
  destruct (st_dims p (N p - 1) W) as (_ & _ & D & E0 & _); [destruct W; lia|]. repeat split; congruence.
Qed.
Lemma ctr_wf p i j : wf p -> i <= N p -> j < length (ctr p i) ->
  cstr_wf (ndx1 (st p 0)) (nth j (ctr p i) (Cstr 0 0 0 None)).
Proof.
  intros W I J. unfold ctr in *. destruct (i <? N p) eqn:H.
  - apply Nat.ltb_lt in H. destruct (st_wf p i W H) as (_ & _ & _ & _ & F). rewrite Forall_forall in F.
    rewrite (proj2 (st_uniform p i W H)) in F. now apply F, nth_In.
  - destruct W as (W1 & W2 & W3 & W4 & F). rewrite Forall_forall in F.
    rewrite <- (proj2 (proj2 (end_dims p (conj W1 (conj W2 (conj W3 (conj W4 (proj2 (Forall_forall _ _) F)))))))).
    now apply F, nth_In.
Qed.
Lemma stage_cnu p i j : wf p -> i < N p -> j < length (cs (st p i)) ->
  c_nu (nth j (cs (st p i)) (Cstr 0 0 0 None)) = nu (st p i).
Proof.
  intros W I J. destruct (st_wf p i W I) as (C & _). unfold stage_accepted in C.
  apply andb_true_iff in C as [_ C]. rewrite forallb_forall in C. apply Nat.eqb_eq, C, nth_In, J.
Qed.

Lemma dims_nth l j : nth j (dims l) 0 = c_nr (nth j l (Cstr 0 0 0 None)).
Proof. unfold dims. exact (map_nth c_nr l (Cstr 0 0 0 None) j). Qed.
Lemma offset_le l j : offset l j + nth j l 0 <= total l.
Proof.
  unfold offset, total. revert l. induction j as [|j IH]; intros [|x l]; simpl; try lia. specialize (IH l). lia.
Qed.

(** ** The sizes *)
Section Sizes.
Variable p : prob.
Variable ch : choice.
Hypothesis W : wf p.
Notation N := (N p).
Notation st := (st p).
Definition X : nat := nx1 (st 0).
Definition n : nat := ndx1 (st 0).
Notation U := (k_nu_ p).
Notation C := (ncs p).
Definition n2 (i : nat) := if i <? N then n else 0.
Definition L0 (i : nat) := match i with 0 => i_nr p | _ => n end.
Notation gr := (gain_rows p ch).

Definition elen (b : buf) : nat :=
  match b with
  | Rus | Tus | Pus | Dus | Lu | CorrU | Xnext | DJx | DJu | DHxx | DHxu | DHuu => N
  | Crits | Viol | StDual | CtDual | G0 | g0 | K0mat | K0ff | IVal | IJx | IHxx => 1
  | CV i | CJx i | CJu i => if i <=? N then length (ctr p i) else 0
  | _ => S N
  end.
(** [g] is the number of columns of G0, which changes *)
Definition esz (g : nat) (b : buf) (i : nat) : nat * nat :=
  match b with
  | Rxs | Txs | Pxs | Xnext => (X, 1)
  | Rus | Tus | Pus | Dus | Lu | CorrU | Kr | rhat => (U i, 1)
  | Rvs | Tvs | Pvs | VsPlus | VsPdal | Infeas | Shift | Lv | Dvs | Active | Kd => (C i, 1)
  | Rlams | Tlams | LamsPlus | Slack | Dlams => (L0 i, 1)
  | Rgain => (U i + C i + n2 i, n + 1)
  | ProjJ => (C i, n + U i)
  | Dxs | Lx | CorrX | Kq | qhat | vx | CLx => (n, 1)
  | Crits | Viol | StDual | CtDual => (S N, 1)
  | KQ | Qhat | Vxx | CLxx | DHxx | IHxx | DJx => (n, n)
  | KS | Shat | DHxu | DJu => (n, U i)
  | KR | Rhat | DHuu => (U i, U i)
  | KA => (n2 i, n)
  | KB => (n2 i, U i)
  | Kf => (n2 i, 1)
  | KC => (C i, n)
  | KD => (C i, U i)
  | G0 => (i_nr p, g)
  | g0 | IVal => (i_nr p, 1)
  | AtV => (n, n2 i)
  | BtV => (U i, n2 i)
  | Fff => (gr i, 1)
  | Ffb => (gr i, n)
  | Fkkt => (U i + C i, U i + C i)
  | K0mat => (n + i_nr p, n + i_nr p)
  | K0ff => (n + i_nr p, 1)
  | IJx => (i_nr p, n)
  | CLu => (if i <? N then U i else t_nu p, 1)
  | CLxu => (n, if i <? N then U i else t_nu p)
  | CLuu => (if i <? N then U i else t_nu p, if i <? N then U i else t_nu p)
  | CV k => (nth i (dims (ctr p k)) 0, 1)
  | CJx k => (nth i (dims (ctr p k)) 0, n)
  | CJu k => (nth i (dims (ctr p k)) 0, c_nu (nth i (ctr p k) (Cstr 0 0 0 None)))
  end.

Lemma nx1_st i : i < N -> nx1 (st i) = X.
Proof. intros; now apply st_dims. Qed.
Lemma ndx1_st i : i < N -> ndx1 (st i) = n.
Proof. intros; now apply st_dims. Qed.
Lemma nx2_st i : i < N -> nx2 (st i) = X.
Proof. intros; now apply st_dims. Qed.
Lemma ndx2_st i : i < N -> ndx2 (st i) = n.
Proof. intros; now apply st_dims. Qed.
Lemma kndx_st i : i < N -> k_ndx (st i) = n.
Proof. intros; now apply st_dims. Qed.
Lemma U_st i : i < N -> nu (st i) = U i.
Proof. intros I. unfold k_nu_. now replace (i <? N) with true by (symmetry; now apply Nat.ltb_lt). Qed.
Lemma knu_st i : i < N -> k_nu (st i) = U i.
Proof. intros. rewrite <- U_st by auto. now apply st_dims. Qed.
Lemma knx i : i <= N -> k_nx p i = n.
Proof.
  intros I. unfold k_nx. destruct (i <? N) eqn:H.
  - apply Nat.ltb_lt in H. now apply ndx1_st.
  - apply (end_dims p W).
Qed.
Lemma knx2 i : k_nx2 p i = n2 i.
Proof. unfold k_nx2, n2. destruct (i <? N) eqn:H; auto. apply Nat.ltb_lt in H. now apply ndx1_st. Qed.
Lemma C_st i : i < N -> nc (st i) = C i.
Proof. intros I. unfold nc, ncs, ctr. now replace (i <? N) with true by (symmetry; now apply Nat.ltb_lt). Qed.
Lemma C_T : ncT p = C N.
Proof. unfold ncT, ncs, ctr. now rewrite Nat.ltb_irrefl. Qed.
Lemma U_T : U N = 0.
Proof. unfold k_nu_. now rewrite Nat.ltb_irrefl. Qed.
Lemma n2_st i : i < N -> n2 i = n.
Proof. intros I. unfold n2. now replace (i <? N) with true by (symmetry; now apply Nat.ltb_lt). Qed.
Lemma n2_T : n2 N = 0.
Proof. unfold n2. now rewrite Nat.ltb_irrefl. Qed.
Lemma cs_st i : i < N -> cs (st i) = ctr p i.
Proof. intros I. unfold ctr. now replace (i <? N) with true by (symmetry; now apply Nat.ltb_lt). Qed.
Lemma tcs_ctr : tcs p = ctr p N.
Proof. unfold ctr. now rewrite Nat.ltb_irrefl. Qed.
Lemma N_pos : 1 <= N.
Proof. apply W. Qed.
Lemma C_fold i : total (dims (ctr p i)) = C i.
Proof. reflexivity. Qed.
Lemma tndx : t_ndx p = n.
Proof. now apply end_dims. Qed.
Lemma indx : i_ndx p = n.
Proof. now apply end_dims. Qed.

Lemma C_blk i j : offset (dims (ctr p i)) j + nth j (dims (ctr p i)) 0 <= C i.
Proof. apply offset_le. Qed.
Lemma box_st i j k : i <= N -> j < length (ctr p i) -> c_box (nth j (ctr p i) (Cstr 0 0 0 None)) = Some k ->
  k = nth j (dims (ctr p i)) 0.
Proof.
  intros I J B. destruct (ctr_wf p i j W I J) as [_ H]. rewrite B in H. now rewrite dims_nth.
Qed.
Lemma cndx_st i j : i <= N -> j < length (ctr p i) -> c_ndx (nth j (ctr p i) (Cstr 0 0 0 None)) = n.
Proof. intros I J. now apply ctr_wf. Qed.
Lemma cnu_st i j : i < N -> j < length (ctr p i) -> c_nu (nth j (ctr p i) (Cstr 0 0 0 None)) = U i.
Proof.
  intros I J. rewrite <- cs_st in * by auto. rewrite <- U_st by auto. now apply stage_cnu.
Qed.

Variable g : nat.
Notation K := (keeps elen (esz g)).

Ltac nrm :=
  repeat match goal with
  | H : ?i < ShapeModel.N p |- _ =>
      progress rewrite ?(nx1_st i H), ?(ndx1_st i H), ?(nx2_st i H), ?(ndx2_st i H), ?(kndx_st i H),
        ?(U_st i H), ?(knu_st i H), ?(C_st i H), ?(cs_st i H), ?(n2_st i H)
  end;
  rewrite ?knx2, ?C_T, ?tndx, ?indx, ?tcs_ctr, ?C_fold, ?U_T, ?n2_T, ?Nat.ltb_irrefl.
Ltac bools :=
  repeat match goal with
  | |- context [Nat.ltb ?a ?b] => replace (a <? b) with true by (symmetry; apply Nat.ltb_lt; lia)
  | |- context [Nat.leb ?a ?b] => replace (a <=? b) with true by (symmetry; apply Nat.leb_le; lia)
  | |- context [Nat.eqb ?a ?b] => replace (a =? b) with true by (symmetry; apply Nat.eqb_eq; lia)
  end.
Ltac k1 :=
  cbn [keeps is_vec solves stage_at block_row blk fblk kblk k0_blk k0_seg size offset total firstn fold_right nth];
  repeat (progress (unfold len, at_, E; cbn [fst snd elen esz L0]; nrm; unfold same; bools; cbn [andb]));
  try (eexists); try split; try lia; try reflexivity; try (apply f_equal, f_equal2; lia).
Ltac ks := cbn [app]; repeat (apply Forall_cons; [k1|]); try apply Forall_nil.

Lemma keeps_app l1 l2 : Forall K l1 -> Forall K l2 -> Forall K (l1 ++ l2).
Proof. intros; now apply Forall_app. Qed.

Lemma k_evaluate bx bu : elen bx = S N -> elen bu = N -> Forall K (evaluate p bx bu).
Proof.
  intros A B. unfold evaluate. apply keeps_app; [|apply keeps_app].
  - repeat constructor; cbn [keeps]; auto.
  - apply keeps_for. intros i H. repeat constructor; cbn [keeps size]; unfold len, E; cbn [fst]; rewrite ?A, ?B;
      bools; eauto.
  - repeat constructor; cbn [keeps size]; unfold len, E; cbn [fst]; rewrite ?A; bools; eauto.
Qed.

Lemma k_prod i z out : i <= N -> elen z = S N -> elen out = S N -> esz g z i = (C i, 1) -> fst (esz g out i) = C i ->
  Forall K (prod_sets (ctr p i) (Buf z i) (Buf out i)).
Proof.
  intros I Z1 O1 Z2 O2. unfold prod_sets. apply keeps_for. intros j J.
  pose proof (C_blk i j). destruct (esz g out i) as [r c] eqn:Eo. cbn in O2; subst r.
  apply keeps_app.
  - destruct (c_box _) eqn:B; [|apply Forall_nil]. apply (box_st i j n0 I J) in B. subst n0.
    apply Forall_cons; [|apply Forall_nil]. cbn [keeps is_vec block_row size]. unfold len, at_, E; cbn [fst snd].
    rewrite Z1, Z2. bools. eauto.
  - repeat constructor; cbn [keeps block_row size]; unfold len, at_, E; cbn [fst snd];
      rewrite ?Z1, ?Z2, ?O1, ?Eo; bools; eauto.
Qed.

Lemma k_mult_block vs i : i <= N -> elen vs = S N -> esz g vs i = (C i, 1) ->
  Forall K (mult_block vs i (ctr p i)).
Proof.
  intros I V1 V2. unfold mult_block.
  apply keeps_app; [ks|]. apply keeps_app.
  - apply keeps_for. intros j J. pose proof (C_blk i j). ks.
  - apply keeps_app; [ks|]. apply keeps_app; [now apply k_prod|]. apply keeps_app; [now apply k_prod|].
    apply Forall_cons; [k1|]. apply Forall_cons; [|ks].
    cbn [keeps size]. unfold len, at_, E; cbn [fst snd elen esz]. rewrite V1, V2. bools. eauto.
Qed.

Lemma k_mult xs lams vs : elen xs = S N -> (forall i, esz g xs i = (X, 1)) ->
  elen lams = S N -> (forall i, esz g lams i = (L0 i, 1)) -> elen vs = S N -> (forall i, esz g vs i = (C i, 1)) ->
  Forall K (computeMultipliers p xs lams vs).
Proof.
  intros A1 A2 B1 B2 C1 C2. unfold computeMultipliers.
  apply keeps_app; [ks|]. apply keeps_app.
  { apply Forall_cons; [k1|]. apply Forall_cons; [|apply Forall_nil].
    cbn [keeps size]. unfold len, at_, E; cbn [fst snd elen esz L0]. rewrite B1, B2. unfold same. bools. cbn [fst snd]. rewrite !Nat.eqb_refl. split; [lia|reflexivity]. }
  apply keeps_app.
  - apply keeps_for. intros i H. nrm. apply keeps_app; [|apply keeps_app; [|apply keeps_app]].
    + repeat constructor; cbn [keeps stage_at is_vec size]; unfold len, at_, E; cbn [fst snd];
        rewrite ?B1, ?B2, ?C1, ?C2; bools; eauto.
    + unfold difference. apply Forall_cons.
      { cbn [keeps is_vec size]; unfold len, at_, E; cbn [fst snd]; rewrite ?A1, ?A2; bools; eauto. }
      ks.
    + apply Forall_cons; [|apply Forall_nil]. cbn [keeps size]. unfold len, at_, E; cbn [fst snd elen esz L0].
      rewrite B1, B2. unfold same; cbn [fst snd L0]. bools. split; [lia|reflexivity].
    + apply k_mult_block; auto; lia.
  - rewrite tcs_ctr. destruct (ctr p N) eqn:T; [apply Forall_nil|]. rewrite <- T. apply k_mult_block; auto.
Qed.

Ltac app := repeat match goal with |- Forall _ (_ ++ _) => apply keeps_app end.
Ltac for1 := apply keeps_for; let i := fresh "i" in let H := fresh "H" in intros i H.

Lemma k_merit : Forall K (merit p).
Proof.
  unfold merit. app; [ks|for1; ks|].
  rewrite tcs_ctr. destruct (ctr p N); ks.
Qed.

Lemma k_lagrangian lams vs : elen lams = S N -> (forall i, esz g lams i = (L0 i, 1)) ->
  elen vs = S N -> (forall i, esz g vs i = (C i, 1)) -> Forall K (lagrangian p lams vs).
Proof.
  intros B1 B2 C1 C2. unfold lagrangian.
  assert (sl : forall i, i <= N -> size (E elen (esz g)) (Buf lams i) = Some (L0 i, 1)).
  { intros i I. cbn [size]. unfold len, at_, E; cbn [fst snd]. rewrite B1, B2. now bools. }
  assert (sv : forall i, i <= N -> size (E elen (esz g)) (Buf vs i) = Some (C i, 1)).
  { intros i I. cbn [size]. unfold len, at_, E; cbn [fst snd]. rewrite C1, C2. now bools. }
  app.
  - apply Forall_cons; [|apply Forall_nil]. cbn [keeps size].
    change (if 0 <? len (E elen (esz g)) lams then Some (at_ (E elen (esz g)) lams 0) else None)
      with (size (E elen (esz g)) (Buf lams 0)). rewrite sl by lia. k1.
  - for1. nrm. app.
    + apply Forall_cons; [k1|]. apply Forall_cons; [k1|]. apply Forall_cons; [k1|].
      apply Forall_cons; [|apply Forall_cons; [|apply Forall_cons; [|apply Forall_nil]]];
        remember (Buf lams (S i)) as e eqn:Ee; remember (Buf vs i) as e' eqn:Ee';
        cbn [keeps size]; rewrite ?Ee, ?Ee'; rewrite ?sl, ?sv by lia; k1.
    + for1. pose proof (C_blk i i0).
      apply Forall_cons; [|apply Forall_cons; [|apply Forall_nil]];
      remember (Buf vs i) as e' eqn:Ee'; cbn [keeps size block_row]; rewrite Ee', sv by lia; 
        unfold len, at_, E; cbn [fst snd elen esz]; rewrite ?(cnu_st i i0 H H0); k1.
    + apply Forall_cons; [|apply Forall_nil]. cbn [keeps].  rewrite sl by lia. k1.
  - apply Forall_cons; [k1|]. apply Forall_cons; [|apply Forall_nil]. cbn [keeps].  rewrite sv by lia. k1.
  - nrm. for1. pose proof (C_blk N i). apply Forall_cons; [|apply Forall_nil].
      remember (Buf vs N) as e' eqn:Ee'; cbn [keeps size block_row]; rewrite Ee', sv by lia; k1.
Qed.

Lemma k_criterion : Forall K (criterion p).
Proof. unfold criterion. app; [for1; ks|ks]. Qed.

Lemma k_projected : Forall K (projected_jacobians p).
Proof.
  unfold projected_jacobians. app.
  - for1. cbv zeta. nrm. app; [ks| |ks| |ks].
    + for1. pose proof (C_blk i i0).
      apply Forall_cons; [k1|apply Forall_cons; [|apply Forall_nil]].
      cbn [keeps]. cbn [size]. unfold len, at_, E; cbn [fst snd elen esz]. rewrite ?(cnu_st i i0 H H0). k1.
    + apply k_prod; auto; lia.
  - rewrite tcs_ctr. destruct (ctr p N) eqn:T; [apply Forall_nil|]. rewrite <- T. cbv zeta. nrm. app; [|ks| |ks].
    + for1. pose proof (C_blk N i). ks.
    + apply k_prod; auto.
Qed.

Lemma k_update_knots exact : Forall K (update_knots p exact).
Proof.
  unfold update_knots. app; [ks| |ks].
  for1. cbv zeta. nrm. app; [ks|destruct exact; ks|].
  rewrite knx by lia. ks.
Qed.

Lemma k_ctrl_gains : Forall K (ctrl_gains p).
Proof. unfold ctrl_gains. for1. ks. Qed.

Lemma k_slope : Forall K (slope p).
Proof. unfold slope. app; [now apply k_lagrangian|ks|for1; ks]. Qed.

Lemma k_accept : Forall K accept.
Proof. repeat constructor. Qed.
Lemma k_outer u : Forall K (outer u).
Proof. unfold outer. app; [repeat constructor|]. destruct u as [[]|]; repeat constructor. Qed.

Lemma k_init_xs b : elen b = S N -> (forall i, esz g b i = (X, 1)) -> Forall K (init_xs p b).
Proof.
  intros A1 A2. pose proof N_pos. unfold init_xs. app.
  - repeat constructor; cbn [keeps]; auto.
  - destruct (i_x0 p) eqn:I.
    + apply W in I. subst. repeat constructor; cbn [keeps size]; rewrite ?A1, ?A2; auto; lia.
    + repeat constructor; cbn [keeps size]; rewrite ?A1, ?A2; auto; try lia. now apply Nat.leb_le.
  - for1. repeat constructor; cbn [keeps size]; nrm; rewrite ?A1, ?A2; auto; lia.
Qed.
Lemma k_init_us b : elen b = N -> (forall i, esz g b i = (U i, 1)) -> Forall K (init_us p b).
Proof.
  intros A1 A2. unfold init_us. app.
  - repeat constructor; cbn [keeps]; auto.
  - for1. repeat constructor; cbn [keeps size]; nrm; rewrite ?A1, ?A2; auto; lia.
Qed.
Lemma k_start d f : Forall K (start p d f).
Proof.
  unfold start. app.
  - destruct d; [app; [now apply k_init_xs|now apply k_init_us]|apply Forall_nil].
  - destruct f; [|apply Forall_nil]. destruct (i_x0 p) eqn:I; [|apply Forall_nil].
    apply W in I. subst. repeat constructor; cbn [keeps elen]; auto; try lia; try apply N_pos.
  - repeat constructor; cbn [keeps elen]; auto; try lia.
Qed.

Lemma k_multiply_add a b c : elen a = S N -> elen b = S N -> elen c = S N ->
  (forall i, esz g a i = esz g c i) -> (forall i, esz g b i = esz g c i) -> Forall K (multiply_add p a b c).
Proof.
  intros A1 B1 C1 A2 B2. unfold multiply_add. app; [repeat constructor; auto|].
  for1. apply Forall_cons; [|apply Forall_nil]. cbn [keeps size]. unfold len, at_, E; cbn [fst snd].
  rewrite A1, B1, C1, A2, B2. bools. rewrite same_refl. split; [lia|reflexivity].
Qed.

(** the longest of the listed vectors *)
Lemma size_longest l : (forall x, In x l -> snd x < elen (fst x)) ->
  exists k, size (E elen (esz g)) (Longest l) = Some (k, 1) /\ forall x, In x l -> fst (esz g (fst x) (snd x)) <= k.
Proof.
  intros H. cbn [size]. unfold len, at_, E; cbn [fst snd].
  replace (forallb _ l) with true.
  2:{ symmetry. apply forallb_forall. intros x I. apply Nat.ltb_lt. auto. }
  eexists. split; [reflexivity|]. intros x I. clear H.
  induction l as [|y l IH]; cbn in I; [tauto|]. cbn. destruct I as [->|I]; [lia|]. specialize (IH I). lia.
Qed.

Lemma k_linear_step : Forall K (linear_step p).
Proof.
  unfold linear_step.
  set (dxt := Longest (map (pair Dxs) (seq 0 N) ++ [(Dxs, N)])).
  set (dut := Longest (map (pair Dus) (seq 0 N))). cbv zeta.
  assert (Dx : exists k, size (E elen (esz g)) dxt = Some (k, 1) /\ n <= k).
  { destruct (size_longest (map (pair Dxs) (seq 0 N) ++ [(Dxs, N)])) as (k & A & B).
    { intros x I. apply in_app_or in I as [I|[<-|[]]]; cbn; try lia. apply in_map_iff in I as (i & <- & I).
      apply in_seq in I. cbn. lia. }
    exists k. split; auto. apply (B (Dxs, N)). apply in_or_app. right. now left. }
  assert (Du : exists k, size (E elen (esz g)) dut = Some (k, 1) /\ forall i, i < N -> U i <= k).
  { destruct (size_longest (map (pair Dus) (seq 0 N))) as (k & A & B).
    { intros x I. apply in_map_iff in I as (i & <- & I). apply in_seq in I. cbn. lia. }
    exists k. split; auto. intros i I. apply (B (Dus, i)). apply in_map, in_seq. lia. }
  clearbody dxt dut. destruct Dx as (kx & Dx & Hx). destruct Du as (ku & Du & Hu).
  pose proof N_pos as NP. assert (NP1 : N - 1 < N) by lia.
  app; [ks|now apply k_multiply_add|now apply k_multiply_add| | | |now apply k_evaluate].
  - for1. cbv zeta. nrm. specialize (Hu i H). app.
    + unfold stage_at. repeat constructor; cbn [keeps size]; rewrite ?Dx, ?Du; k1.
    + unfold integrate, is_vec. repeat constructor; cbn [keeps size]; rewrite ?Dx, ?Du; k1.
    + unfold integrate, is_vec. repeat constructor; cbn [keeps size]; rewrite ?Dx, ?Du; k1.
  - apply Forall_cons; [k1|]. apply Forall_cons; [|apply Forall_nil]. cbn [keeps size]. rewrite ?Dx. k1.
  - unfold integrate, is_vec. nrm. repeat constructor; cbn [keeps size]; rewrite ?Dx, ?Du; k1.
Qed.

Lemma gr_ok i : ch <> STAGEDENSE -> gr i = U i + C i + n2 i.
Proof. intros H. unfold gain_rows. destruct ch; try tauto; now rewrite knx2. Qed.

Ltac k2 GR :=
  cbn [keeps is_vec solves stage_at block_row blk fblk kblk k0_blk k0_seg size offset total firstn fold_right nth];
  repeat (progress (unfold len, at_, E; cbn [fst snd elen esz L0]; rewrite ?GR; nrm; rewrite ?knx by lia; unfold same; bools; cbn [andb]));
  try (eexists); try split; try lia; try reflexivity; try (apply f_equal, f_equal2; lia).
Ltac ks2 GR := cbn [app]; repeat (apply Forall_cons; [k2 GR|]); try apply Forall_nil.

Lemma k_backward : ch <> STAGEDENSE -> g = n -> Forall K (backward p).
Proof.
  intros D G. pose proof (fun i => gr_ok i D) as GR. pose proof N_pos as NP.
  unfold backward. app.
  - unfold terminal_solve. rewrite U_T. cbn [Nat.eqb]. app; [ks2 GR|ks2 GR|ks2 GR].
  - apply Forall_flat_map, Forall_forall. intros i I. apply in_rev, in_seq in I.
    assert (H : i < N) by lia. clear I. unfold stage_solve. cbv zeta. ks2 GR.
  - ks2 GR.
Qed.

Lemma k_forward : ch <> STAGEDENSE -> Forall K (forward p).
Proof.
  intros D. pose proof (fun i => gr_ok i D) as GR. pose proof N_pos as NP.
  unfold forward. app; [ks2 GR|]. for1.
  destruct (Nat.eq_dec i N) as [->|Hn].
  - rewrite !U_T, !Nat.eqb_refl. cbn [Nat.eqb]. app; [ks2 GR|ks2 GR|ks2 GR|ks2 GR].
  - assert (Hi : i < N) by lia.
    replace (i =? N) with false by (symmetry; now apply Nat.eqb_neq).
    app; [ks2 GR| |ks2 GR|ks2 GR].
    destruct (k_nu_ p i =? 0); ks2 GR.
Qed.

Lemma k_copy_gains : ch <> STAGEDENSE -> Forall K (copy_gains p).
Proof.
  intros D. pose proof (fun i => gr_ok i D) as GR. pose proof N_pos as NP.
  unfold copy_gains. app; [for1; ks2 GR|ks2 GR].
Qed.

Lemma k_rollout_stages : ch <> STAGEDENSE -> Forall K (rollout_stages p).
Proof.
  intros D. pose proof (fun i => gr_ok i D) as GR. pose proof N_pos as NP.
  unfold rollout_stages. app.
  - for1. cbv zeta. app; unfold integrate, difference; ks2 GR.
  - rewrite tcs_ctr. destruct (ctr p N) eqn:T; [apply Forall_nil|]. cbv zeta. ks2 GR.
Qed.
Lemma k_update_init1 : Forall K [Put g0 0 (Buf IVal 0); Fit (Buf KQ 0) (Buf IHxx 0)].
Proof. ks. Qed.

(** order of construction *)
Definition ord (b : buf) : nat :=
  match b with
  | Rxs | Rus | Rvs | Rlams | Rgain => 1
  | IVal | IJx | IHxx | Xnext | DJx | DJu | DHxx | DHxu | DHuu | CLx | CLu | CLxx | CLxu | CLuu => 2
  | CV i | CJx i | CJu i => if i <=? N then 2 else 0
  | Txs | Tus | Crits | Viol | StDual | CtDual => 3
  | Tvs | Tlams => 4
  | Pxs => 5 | Pus => 6 | Pvs => 7 | VsPdal => 8 | VsPlus => 9 | LamsPlus => 10 | Slack => 11
  | Infeas => 12 | Shift => 13
  | Active | ProjJ | KQ | KS | KR | Kq | Kr | KA | KB | Kf | KC | KD | Kd | G0 | g0 => 14
  | Dxs | Dus | Dvs | Dlams => 15
  | Lx => 16 | Lu => 17 | Lv => 18 | CorrX => 19 | CorrU => 20
  | Qhat | Rhat | Shat | qhat | rhat | AtV | BtV | Fff | Ffb | Fkkt | Vxx | vx | K0mat | K0ff => 21
  end.
Definition Dn (k : nat) (b : buf) : bool := ord b <=? k.

Lemma Dn_le k k' b : k <= k' -> Dn k' b = false -> Dn k b = false.
Proof. unfold Dn. rewrite !Nat.leb_gt. lia. Qed.
Lemma in_for k f o i : In o (f i) -> i < k -> In o (for_ k f).
Proof. intros H I. apply in_flat_map. exists i. split; auto. apply in_seq. lia. Qed.
Lemma in_put l b i r c : In (Put b i (Lit r c)) l -> (r, c) = esz g b i -> In (wr (esz g) b i) l.
Proof. intros H E0. now rewrite <- (wr_eq _ b i r c E0). Qed.
Lemma in_res l b k : In (Resize b k) l -> k = elen b -> In (Resize b (elen b)) l.
Proof. now intros H <-. Qed.
(** vectors resized by a program *)
Definition res1 (o : op) : list buf := match o with Resize b _ => [b] | _ => [] end.
Definition resl (l : list op) : list buf := flat_map res1 l.
Lemma in_resl l b k : In (Resize b k) l -> In b (resl l).
Proof. intros H. apply in_flat_map. exists (Resize b k). split; auto. now left. Qed.
Lemma resl_app l1 l2 : resl (l1 ++ l2) = resl l1 ++ resl l2.
Proof. apply flat_map_app. Qed.
Lemma in_resl_for b k f : In b (resl (for_ k f)) -> exists i, i < k /\ In b (resl (f i)).
Proof.
  intros H. apply in_flat_map in H as (o & H & R). apply in_flat_map in H as (i & I & H). apply in_seq in I.
  exists i. split; [lia|]. apply in_flat_map. eauto.
Qed.

Ltac sz := cbn [esz elen L0]; nrm; bools; rewrite ?knx by lia; try reflexivity; try (apply f_equal2; lia).
Ltac mx := repeat match goal with
  | |- Forall _ (_ ++ _) => apply Forall_app; split
  | |- Forall _ [] => apply Forall_nil
  | |- Forall _ (_ :: _) => apply Forall_cons
  | |- Forall _ (for_ _ _) => apply mix_for; let i := fresh "i" in let H := fresh "H" in intros i H
  | |- mix _ _ (Resize _ _) => apply mix_res; sz
  | |- mix _ _ (Put _ _ (Lit _ _)) => apply mix_put; [cbn [elen]; bools; lia|sz]
  | |- mix _ _ (Chk _) => apply MC
  end.
Ltac sf := repeat match goal with
  | |- safe _ (_ ++ _) => apply safe_app
  | |- safe _ (for_ _ _) => apply safe_for; let i := fresh "i" in let H := fresh "H" in intros i H
  | |- safe _ (_ :: _) => cbn [safe]
  | |- safe _ [] => exact I
  | |- _ /\ _ => split
  end; try tauto.

Ltac mem :=
  match goal with
  | |- In _ (_ ++ _) => apply in_or_app; first [left; mem | right; mem]
  | |- In _ (for_ _ _) => eapply in_for; [mem|lia]
  | |- In _ (?x :: _) => first [left; reflexivity | right; mem]
  end.
Ltac cov := eapply in_put; [mem|sz].
Ltac res := eapply in_res; [mem|sz].
Ltac notres :=
  let H := fresh "H" in
  intros H; apply in_resl in H; rewrite ?resl_app in H;
  repeat match goal with
  | H : In _ (_ ++ _) |- _ => apply in_app_or in H as [H|H]
  | H : In _ (resl (for_ _ _)) |- _ => apply in_resl_for in H as (? & ? & H); rewrite ?resl_app in H
  | H : In _ _ |- _ => progress (cbn [resl flat_map res1 app map] in H)
  | H : In _ [] |- _ => destruct H
  | H : In _ (_ :: _) |- _ => destruct H as [H|H]; try discriminate
  | H : False |- _ => destruct H
  end.

Lemma CN_nil : tcs p = [] -> C N = 0.
Proof. intros T. rewrite <- C_T. unfold ncT. now rewrite T. Qed.
Lemma x0_X k : i_x0 p = Some k -> k = X.
Proof. apply W. Qed.

Lemma seg1 m : built elen (esz g) (Dn 0) m ->
  exists m', exec ([Chk (integrity p)] ++ new_results p) m = Some m' /\ built elen (esz g) (Dn 1) m'.
Proof.
  intros B. pose proof N_pos as NP.
  unfold new_results, init_sol, init_xs, init_us.
  apply (seg _ _ (Dn 0) (Dn 1) _ m B).
  - destruct (i_x0 p) eqn:I; [apply x0_X in I; subst n0|]; destruct (tcs p) eqn:T;
      mx; try apply W; try now apply Nat.leb_le.
  - destruct (i_x0 p); destruct (tcs p); sf; cbn; eauto 20.
  - intros b Hb. split; [apply (Dn_le 0 1); auto|].
    destruct b; try discriminate; destruct (i_x0 p); destruct (tcs p); notres.
  - intros b Hb. destruct b; try discriminate; try (left; reflexivity); try (left; unfold Dn in *; cbn [ord] in *; destruct (i <=? N); [discriminate|reflexivity]); right.
    all: split; [res|].
    all: intros i I; cbn [elen] in I.
    + left. destruct i as [|i]; [|assert (i < N) by lia; cov]. destruct (i_x0 p) eqn:I0; [apply x0_X in I0; subst n0|]; cov.
    + left. cov.
    + destruct (Nat.eq_dec i N) as [->|]; [|left; assert (i < N) by lia; cov].
      destruct (tcs p) eqn:T; [right; cbn [esz]; now rewrite CN_nil|left; cov].
    + left. destruct i as [|i]; [cov|]. assert (i < N) by lia. cov.
    + left. destruct (Nat.eq_dec i N) as [->|]; [|assert (i < N) by lia]; cov.
Qed.

Ltac dm := first [reflexivity | left; dm | right; dm | eexists; mem].
Ltac cstrs :=
  repeat match goal with
  | H : ?j < length (ctr p ?i) |- _ => 
      progress rewrite ?dims_nth, ?(cndx_st i j) by lia
  end.

Lemma seg2 m : built elen (esz g) (Dn 1) m ->
  exists m', exec (new_data p) m = Some m' /\ built elen (esz g) (Dn 2) m'.
Proof.
  intros B. pose proof N_pos as NP.
  unfold new_data, cstr_data, cost_data, dyn_data. cbv zeta.
  apply (seg _ _ (Dn 1) (Dn 2) _ m B).
  - mx.
    1-3: rewrite (cs_st i H) in *.
    4-6: rewrite tcs_ctr in *.
    all: apply mix_put; [cbn [elen]; bools; auto|cbn [esz]; rewrite ?dims_nth, ?cndx_st by lia; auto].
  - sf; dm.
  - intros b Hb. split; [apply (Dn_le 1 2); auto|].
    destruct b; try discriminate; notres.
    all: injection H as H; unfold Dn in Hb; cbn [ord] in Hb;
      destruct (i <=? N) eqn:Hi; [discriminate|apply Nat.leb_gt in Hi; lia].
  - intros b Hb. destruct b; try discriminate; try (left; reflexivity).
    all: try (right; split; [res|]; intros i I; cbn [elen] in I; left;
      first [assert (i = 0) as -> by lia; cov | cov | destruct (Nat.eq_dec i N) as [->|]; [|assert (i < N) by lia]; cov]).
    all: destruct (le_lt_dec i N) as [Hi|Hi];
      [|left; unfold Dn; cbn [ord]; replace (i <=? N) with false by (symmetry; apply Nat.leb_gt; lia); reflexivity].
    all: right; destruct (Nat.eq_dec i N) as [->|Hn]; [|assert (H : i < N) by lia; pose proof (f_equal (@length _) (cs_st i H)) as HL].
    all: try (pose proof (f_equal (@length _) tcs_ctr) as HL).
    all: split; [res|].
    all: intros j J; cbn [elen] in J; replace (_ <=? _) with true in J by (symmetry; apply Nat.leb_le; lia); left.
    all: eapply in_put; [mem|cbn [esz]; rewrite ?(cs_st i H), ?tcs_ctr; rewrite ?dims_nth, ?cndx_st by lia; auto].
Qed.

Ltac old k k' := intros b Hb; split; [apply (Dn_le k k'); auto|].
Ltac two i := destruct (Nat.eq_dec i N) as [->|]; [|assert (i < N) by lia].
Lemma Dn_C (k k' : nat) (b : buf) i : b = CV i \/ b = CJx i \/ b = CJu i -> 2 <= k' -> Dn k' b = true.
Proof. intros [-> | [-> | ->]] K; unfold Dn; cbn [ord]; destruct (i <=? N); apply Nat.leb_le; lia. Qed.

Definition seg3_code : list op :=
  init_xs p Txs ++ init_us p Tus ++
  [Resize Crits 1; Resize Viol 1; Resize StDual 1; Resize CtDual 1;
   Put Crits 0 (Lit (S N) 1); Put Viol 0 (Lit (S N) 1); Put StDual 0 (Lit (S N) 1); Put CtDual 0 (Lit (S N) 1)].
Lemma seg3 m : built elen (esz g) (Dn 2) m ->
  exists m', exec seg3_code m = Some m' /\ built elen (esz g) (Dn 3) m'.
Proof.
  intros B. pose proof N_pos as NP.
  unfold seg3_code, init_xs, init_us.
  apply (seg _ _ (Dn 2) (Dn 3) _ m B).
  - destruct (i_x0 p) eqn:I; [apply x0_X in I; subst n0|]; mx; now apply Nat.leb_le.
  - destruct (i_x0 p); sf; dm.
  - old 2 3. destruct b; try discriminate; destruct (i_x0 p); notres.
    all: rewrite (Dn_C 0 3 _ i) in Hb by (auto; lia); discriminate.
  - intros b Hb. destruct b; try discriminate; try (left; reflexivity); try (left; apply (Dn_C 0 2 _ i); auto; lia); right.
    all: split; [res|].
    all: intros i I; cbn [elen] in I; left.
    + destruct i as [|i]; [|assert (i < N) by lia; cov]. destruct (i_x0 p) eqn:I0; [apply x0_X in I0; subst n0|]; cov.
    + cov.
    + assert (i = 0) as -> by lia; cov.
    + assert (i = 0) as -> by lia; cov.
    + assert (i = 0) as -> by lia; cov.
    + assert (i = 0) as -> by lia; cov.
Qed.

Lemma seg4 m : built elen (esz g) (Dn 3) m ->
  exists m', exec ([Chk (integrity p)] ++ init_sol p Txs Tus Tvs Tlams) m = Some m' /\ built elen (esz g) (Dn 4) m'.
Proof.
  intros B. pose proof N_pos as NP.
  unfold init_sol, init_xs, init_us.
  apply (seg _ _ (Dn 3) (Dn 4) _ m B).
  - destruct (i_x0 p) eqn:I; [apply x0_X in I; subst n0|]; destruct (tcs p) eqn:T;
      mx; try apply W; try now apply Nat.leb_le.
  - destruct (i_x0 p); destruct (tcs p); sf; dm.
  - old 3 4. destruct b; try discriminate; destruct (i_x0 p); destruct (tcs p); notres.
  - intros b Hb. destruct b; try discriminate; try (left; reflexivity); try (left; apply (Dn_C 0 3 _ i); auto; lia); right.
    all: split; [res|].
    all: intros i I; cbn [elen] in I.
    + two i; [|left; cov].
      destruct (tcs p) eqn:T; [right; cbn [esz]; now rewrite CN_nil|left; cov].
    + left. destruct i as [|i]; [cov|]. assert (i < N) by lia. cov.
Qed.

Ltac cp k := match goal with
  | B : built _ _ _ ?m |- exists m', exec (Copy ?b ?b' :: ?l) ?m = _ /\ _ =>
      let m1 := fresh "m" in let E1 := fresh "E" in let B1 := fresh "B" in
      destruct (seg_copy elen (esz g) (Dn k) (Dn (S k)) b b' m B) as (m1 & E1 & B1);
      [reflexivity|reflexivity|reflexivity|
       intros b0; unfold Dn; destruct b0; try reflexivity; cbn [ord buf_beq]; match goal with |- context [?j <=? ShapeModel.N p] => destruct (j <=? ShapeModel.N p) end; reflexivity|];
      change (Copy b b' :: l) with ([Copy b b'] ++ l); rewrite exec_app, E1; clear E1 B
  end.

Lemma seg5 m : built elen (esz g) (Dn 4) m ->
  exists m', exec [Copy Pxs Txs; Copy Pus Tus; Copy Pvs Tvs; Copy VsPdal Tvs; Copy VsPlus VsPdal;
   Copy LamsPlus Tlams; Copy Slack Tlams; Copy Infeas Tvs; Copy Shift Pvs] m = Some m' /\ built elen (esz g) (Dn 13) m'.
Proof.
  intros B. cp 4. cp 5. cp 6. cp 7. cp 8. cp 9. cp 10. cp 11. cp 12. eexists; split; [reflexivity|assumption].
Qed.

Definition seg6_code : list op :=
  [Resize Active (S N); Resize ProjJ (S N)] ++
  map (fun b => Resize b (S N)) knot_bufs ++ for_ (S N) (new_knot p) ++
  for_ N (fun i => let s := st i in
    [Put ProjJ i (Lit (total (dims (cs s))) (ndx1 s + nu s)); Put Active i (Lit (nc s) 1)]) ++
  [Put ProjJ N (Lit (total (dims (tcs p))) (t_ndx p + 0)); Put Active N (Lit (ncT p) 1)] ++
  [Resize G0 1; Resize g0 1; Put G0 0 (Lit (i_nr p) (i_nr p)); Put g0 0 (Lit (i_nr p) 1)].
Lemma seg6 m : g = i_nr p -> built elen (esz g) (Dn 13) m ->
  exists m', exec seg6_code m = Some m' /\ built elen (esz g) (Dn 14) m'.
Proof.
  intros Hg B. pose proof N_pos as NP.
  unfold seg6_code, knot_bufs, new_knot. cbn [map]. cbv zeta.
  apply (seg _ _ (Dn 13) (Dn 14) _ m B).
  - mx.
  - sf; dm.
  - old 13 14. destruct b; try discriminate; notres.
  - intros b Hb. destruct b; try discriminate; try (left; reflexivity); try (left; apply (Dn_C 0 13 _ i); auto; lia); right.
    all: split; [res|].
    all: intros i I; cbn [elen] in I; left.
    all: first [cov|assert (i = 0) as -> by lia; cov| two i; cov].
Qed.

(** lqrInitializeSolution: us has one more element until the last statement *)
Definition elenL (b : buf) : nat := match b with Dus => S N | _ => elen b end.
Definition lqr_code1 (e : ex) : list op :=
  [Resize Dxs (S N); Resize Dus (S N); Resize Dvs (S N); Resize Dlams (S N); Put Dlams 0 e] ++
  for_ (S N) (fun i =>
    [Put Dxs i (Lit (k_nx p i) 1); Put Dus i (Lit (U i) 1); Put Dvs i (Lit (C i) 1)] ++
    (if i =? N then [] else [Put Dlams (S i) (Lit (k_nx2 p i) 1)])).
Lemma seg7_a m : built elenL (esz g) (Dn 14) m ->
  exists m', exec (lqr_code1 (Lit (i_nr p) 1)) m = Some m' /\ built elenL (esz g) (Dn 15) m'.
Proof.
  intros B. pose proof N_pos as NP.
  unfold lqr_code1.
  apply (seg _ _ (Dn 14) (Dn 15) _ m B).
  - mx; try (apply mix_put; [cbn [elenL elen]; lia|sz]); try (apply mix_res; reflexivity).
    destruct (i =? N) eqn:Ei; mx. apply Nat.eqb_neq in Ei. assert (i < N) by lia.
    apply mix_put; [cbn [elenL elen]; lia|sz; now rewrite n2_st].
  - sf; try dm. destruct (i =? N); sf. dm.
  - old 14 15. destruct b; try discriminate; notres.
    all: destruct (x =? N); cbn in H; intuition discriminate.
  - intros b Hb. destruct b; try discriminate; try (left; reflexivity); try (left; apply (Dn_C 0 14 _ i); auto; lia); right.
    all: split; [mem|].
    all: intros i I; cbn [elenL elen] in I; left.
    1-3: eapply in_put; [mem|sz].
    destruct i as [|i]; [cov|]. assert (i < N) by lia.
    eapply in_put; [apply in_or_app; right; apply (in_for _ _ _ i); [|lia]; cbv beta;
      replace (i =? N) with false by (symmetry; apply Nat.eqb_neq; lia); mem|sz; now rewrite n2_st].
Qed.

Lemma seg7 m : built elen (esz g) (Dn 14) m ->
  exists m', exec (lqr_init p) m = Some m' /\ built elen (esz g) (Dn 15) m'.
Proof.
  intros B.
  set (m1 := put (put (put (put m Dxs (0, fun j => if j <? len m Dxs then at_ m Dxs j else (0, 1)))
     Dus (0, fun j => if j <? len m Dus then at_ m Dus j else (0, 1)))
     Dvs (0, fun j => if j <? len m Dvs then at_ m Dvs j else (0, 1)))
     Dlams (0, fun j => if j <? len m Dlams then at_ m Dlams j else (0, 1))).
  assert (E1 : exec [Resize Dxs 0; Resize Dus 0; Resize Dvs 0; Resize Dlams 0] m = Some m1) by reflexivity.
  assert (B1 : built elenL (esz g) (Dn 14) m1).
  { intros b. specialize (B b). destruct b; try exact B; reflexivity. }
  destruct (seg7_a m1 B1) as (m2 & E2 & B2).
  assert (E3 : exec (lqr_code1 (Buf g0 0)) m1 = Some m2).
  { rewrite <- E2. unfold lqr_code1. pose proof (B g0) as [G1 G2]. specialize (G2 0 (Nat.lt_0_succ 0)).
    cbn [app exec step size]. 
    set (m3 := put (put (put (put m1 _ _) _ _) _ _) _ _).
    replace (len m3 g0) with 1 by (symmetry; exact G1).
    replace (at_ m3 g0 0) with (i_nr p, 1) by (symmetry; exact G2). reflexivity. }
  exists (put m2 Dus (len m2 Dus - 1, at_ m2 Dus)). split.
  - unfold lqr_init. rewrite U_T. cbn [Nat.eqb].
    change ([Resize Dxs 0; Resize Dus 0; Resize Dvs 0; Resize Dlams 0; Resize Dxs (S N);
       Resize Dus (S N); Resize Dvs (S N); Resize Dlams (S N); Put Dlams 0 (Buf g0 0)])
      with ([Resize Dxs 0; Resize Dus 0; Resize Dvs 0; Resize Dlams 0] ++ [Resize Dxs (S N);
       Resize Dus (S N); Resize Dvs (S N); Resize Dlams (S N); Put Dlams 0 (Buf g0 0)]).
    rewrite <- app_assoc, exec_app, E1, app_assoc, exec_app.
    match goal with |- match ?x with _ => _ end = _ => change x with (exec (lqr_code1 (Buf g0 0)) m1) end.
    rewrite E3. cbn [exec step]. rewrite (proj1 (B2 Dus)). reflexivity.
  - intros b. pose proof (B2 b) as Bb. destruct b; try exact Bb.
    destruct Bb as [L A]. cbn. split; [unfold len in *; cbn in *; lia|]. intros i I.
    apply A. cbn. cbn in I. lia.
Qed.

Lemma seg8 m : built elen (esz g) (Dn 15) m ->
  exists m', exec [Copy Lx Dxs; Copy Lu Dus; Copy Lv Dvs; Copy CorrX Lx; Copy CorrU Lu] m = Some m' /\
    built elen (esz g) (Dn 20) m'.
Proof. intros B. cp 15. cp 16. cp 17. cp 18. cp 19. eexists; split; [reflexivity|assumption]. Qed.

Lemma gr_eq i : gain_rows p ch i = gr i.
Proof. reflexivity. Qed.
Lemma seg9 m : built elen (esz g) (Dn 20) m ->
  exists m', exec (new_solver p ch) m = Some m' /\ built elen (esz g) (Dn 21) m'.
Proof.
  intros B. pose proof N_pos as NP.
  unfold new_solver, factor_bufs. cbn [map]. cbv zeta.
  apply (seg _ _ (Dn 20) (Dn 21) _ m B).
  - mx.
  - sf; dm.
  - old 20 21. destruct b; try discriminate; notres.
  - intros b Hb. destruct b; try discriminate; try (left; reflexivity); try (left; apply (Dn_C 0 20 _ i); auto; lia); right.
    all: split; [res|].
    all: intros i I; cbn [elen] in I; left.
    all: first [cov|assert (i = 0) as -> by lia; cov].
Qed.

(** ** The same from any state *)
Ltac fr := repeat match goal with
  | |- Forall _ (_ ++ _) => apply Forall_app; split
  | |- Forall _ [] => apply Forall_nil
  | |- Forall _ (_ :: _) => apply Forall_cons
  | |- Forall _ (for_ _ _) => apply Forall_flat_map, Forall_forall; intros ? _
  | |- Forall _ (if ?c then _ else _) => destruct c
  | |- tgt _ <> _ => cbn [tgt]; congruence
  end.

Lemma lqr_any m : full elen (esz g) m g0 ->
  exists m', exec (lqr_init p) m = Some m' /\
    (forall b, b = Dxs \/ b = Dus \/ b = Dvs \/ b = Dlams -> full elen (esz g) m' b) /\
    (forall b, b <> Dxs -> b <> Dus -> b <> Dvs -> b <> Dlams -> m' b = m b).
Proof.
  intros [G1 G2]. pose proof N_pos as NP.
  set (m1 := put (put (put (put m Dxs (0, fun j => if j <? len m Dxs then at_ m Dxs j else (0, 1)))
     Dus (0, fun j => if j <? len m Dus then at_ m Dus j else (0, 1)))
     Dvs (0, fun j => if j <? len m Dvs then at_ m Dvs j else (0, 1)))
     Dlams (0, fun j => if j <? len m Dlams then at_ m Dlams j else (0, 1))).
  assert (E1 : exec [Resize Dxs 0; Resize Dus 0; Resize Dvs 0; Resize Dlams 0] m = Some m1) by reflexivity.
  destruct (fill_any elenL (esz g) (lqr_code1 (Lit (i_nr p) 1)) m1) as (m2 & E2 & A2 & F2).
  { unfold lqr_code1. mx; try (apply mix_put; [cbn [elenL elen]; lia|sz]); try (apply mix_res; reflexivity).
    destruct (i =? N) eqn:Ei; mx. apply Nat.eqb_neq in Ei. assert (i < N) by lia.
    apply mix_put; [cbn [elenL elen]; lia|sz; now rewrite n2_st]. }
  { unfold lqr_code1. sf; try dm. destruct (i =? N); sf. dm. }
  assert (E3 : exec (lqr_code1 (Buf g0 0)) m1 = Some m2).
  { rewrite <- E2. unfold lqr_code1. specialize (G2 0 (Nat.lt_0_succ 0)).
    cbn [app exec step size].
    set (m3 := put (put (put (put m1 _ _) _ _) _ _) _ _).
    replace (len m3 g0) with 1 by (symmetry; exact G1).
    replace (at_ m3 g0 0) with (i_nr p, 1) by (symmetry; exact G2). reflexivity. }
  assert (Q : forall b, b = Dxs \/ b = Dus \/ b = Dvs \/ b = Dlams -> full elenL (esz g) m2 b).
  { intros b Hb. apply A2.
    - unfold lqr_code1. destruct Hb as [->|[->|[->| ->]]]; mem.
    - unfold lqr_code1. destruct Hb as [->|[->|[->| ->]]]; intros i I; cbn [elenL elen] in I.
      1-3: eapply in_put; [mem|sz].
      destruct i as [|i]; [cov|]. assert (i < N) by lia.
      eapply in_put; [apply in_or_app; right; apply (in_for _ _ _ i); [|lia]; cbv beta;
        replace (i =? N) with false by (symmetry; apply Nat.eqb_neq; lia); mem|sz; now rewrite n2_st]. }
  exists (put m2 Dus (len m2 Dus - 1, at_ m2 Dus)). split; [|split].
  - unfold lqr_init. rewrite U_T. cbn [Nat.eqb].
    change ([Resize Dxs 0; Resize Dus 0; Resize Dvs 0; Resize Dlams 0; Resize Dxs (S N);
       Resize Dus (S N); Resize Dvs (S N); Resize Dlams (S N); Put Dlams 0 (Buf g0 0)])
      with ([Resize Dxs 0; Resize Dus 0; Resize Dvs 0; Resize Dlams 0] ++ [Resize Dxs (S N);
       Resize Dus (S N); Resize Dvs (S N); Resize Dlams (S N); Put Dlams 0 (Buf g0 0)]).
    rewrite <- app_assoc, exec_app, E1, app_assoc, exec_app.
    match goal with |- match ?x with _ => _ end = _ => change x with (exec (lqr_code1 (Buf g0 0)) m1) end.
    rewrite E3. cbn [exec step]. rewrite (proj1 (Q Dus ltac:(tauto))). reflexivity.
  - intros b Hb. pose proof (Q b Hb) as Bb. destruct Hb as [->|[->|[->| ->]]]; try exact Bb.
    destruct Bb as [L A]. cbn. split; [unfold len in *; cbn in *; lia|]. intros i I.
    apply A. cbn. cbn in I. lia.
  - intros b H1 H2 H3 H4. rewrite put_other by congruence. rewrite F2; [unfold m1; now rewrite !put_other by congruence|].
    unfold lqr_code1. fr.
Qed.

Lemma solver_any m : exists m', exec (new_solver p ch) m = Some m' /\
  (forall b, In b factor_bufs \/ b = K0mat \/ b = K0ff -> full elen (esz g) m' b) /\
  (forall b, ~ In b factor_bufs -> b <> K0mat -> b <> K0ff -> m' b = m b).
Proof.
  pose proof N_pos as NP.
  destruct (fill_any elen (esz g) (new_solver p ch) m) as (m2 & E2 & A2 & F2).
  - unfold new_solver, factor_bufs. cbn [map]. cbv zeta. mx.
  - unfold new_solver, factor_bufs. cbn [map]. cbv zeta. sf; dm.
  - exists m2. split; auto. split.
    + intros b Hb. unfold new_solver, factor_bufs in *. cbn [map In] in *. cbv zeta in A2.
      apply A2.
      * repeat match goal with H : _ \/ _ |- _ => destruct H as [H|H] end; try contradiction; subst b; res.
      * intros i I. repeat match goal with H : _ \/ _ |- _ => destruct H as [H|H] end; try contradiction; subst b;
          cbn [elen] in I; first [cov|assert (i = 0) as -> by lia; cov].
    + intros b H1 H2 H3. apply F2. unfold new_solver, factor_bufs in *. cbn [map In] in *. cbv zeta.
      fr; cbn [tgt]; intros [= <-]; tauto.
Qed.

Lemma cstr_data_any i m : i < N ->
  exists m', exec (cstr_data i (ctr p i)) m = Some m' /\
  (forall b, b = CV i \/ b = CJx i \/ b = CJu i -> full elen (esz g) m' b) /\
  (forall b, b <> CV i -> b <> CJx i -> b <> CJu i -> m' b = m b).
Proof.
  intros I. destruct (fill_any elen (esz g) (cstr_data i (ctr p i)) m) as (m2 & E2 & A2 & F2).
  - unfold cstr_data. cbv zeta. mx.
    all: cbn [esz]; rewrite ?dims_nth, ?cndx_st by lia; auto.
  - unfold cstr_data. sf; dm.
  - exists m2. split; auto. split.
    + intros b Hb. apply A2.
      * unfold cstr_data. destruct Hb as [->|[->| ->]]; res.
      * intros j J. unfold cstr_data. destruct Hb as [->|[->| ->]]; cbn [elen] in J;
          replace (i <=? N) with true in J by (symmetry; apply Nat.leb_le; lia);
          (eapply in_put; [mem|cbn [esz]; rewrite ?dims_nth, ?cndx_st by lia; auto]).
    + intros b H1 H2 H3. apply F2. unfold cstr_data. fr.
Qed.
End Sizes.

(** ** Calls *)
Section Calls.
Variable p : prob.
Variable ch : choice.
Hypothesis W : wf p.
Notation ag g := (agree (elen p) (esz p ch g)).

Lemma put_G0 g m : ag g m -> exists m', step m (Put G0 0 (Buf IJx 0)) = Some m' /\ ag (n p) m'.
Proof.
  intros A. destruct (step_put_to _ _ m G0 0 (Buf IJx 0) (i_nr p, n p) A) as (m' & S & F);
    [cbn; lia|reflexivity|].
  exists m'. split; auto. intros b. destruct (F b) as [F1 F2]. split; auto. intros i I. rewrite F2 by auto.
  destruct b; cbn; auto. cbn in I. assert (i = 0) as -> by lia. reflexivity.
Qed.

Lemma lq_step_ok e g m : ag g m -> exists m' g', exec (lq_step p ch e) m = Some m' /\ ag g' m'.
Proof.
  intros A. unfold lq_step.
  destruct (exec_keeps _ _ _ m A (k_update_knots p ch W g e)) as (m1 & E1 & A1).
  destruct (put_G0 g m1 A1) as (m2 & E2 & A2).
  destruct (exec_keeps _ _ _ m2 A2 (k_update_init1 p ch (n p))) as (m3 & E3 & A3).
  assert (X : exists m', exec (match ch with SERIAL => backward p ++ forward p | _ => [] end) m3 = Some m' /\ ag (n p) m').
  { destruct ch eqn:Ec; try (exists m3; split; [reflexivity|rewrite ?Ec in *; exact A3]).
    apply (exec_keeps _ _ _ m3 A3). apply Forall_app. split.
    - apply k_backward; auto; discriminate.
    - apply k_forward; auto; discriminate. }
  destruct X as (m4 & E4 & A4). exists m4, (n p). split; auto.
  rewrite exec_app, E1, exec_app. unfold update_init. cbn [exec]. rewrite E2.
  change (match exec [Put g0 0 (Buf IVal 0); Fit (Buf KQ 0) (Buf IHxx 0)] m2 with
          | Some m' => exec (match ch with SERIAL => backward p ++ forward p | _ => [] end) m'
          | None => None end = Some m4).
  now rewrite E3.
Qed.

Lemma built0 g : built (elen p) (esz p ch g) (Dn p 0) mem0.
Proof.
  intros b. destruct b; try reflexivity; unfold Dn, full; cbn [ord elen]; destruct (i <=? N p); cbn;
    repeat split; auto; intros; lia.
Qed.

Lemma setup_ok : exists m, exec (setup p ch) mem0 = Some m /\ ag (i_nr p) m.
Proof.
  destruct (seg1 p ch W (i_nr p) mem0 (built0 _)) as (m1 & E1 & B1).
  destruct (seg2 p ch W (i_nr p) m1 B1) as (m2 & E2 & B2).
  destruct (seg3 p ch W (i_nr p) m2 B2) as (m3 & E3 & B3).
  destruct (seg4 p ch W (i_nr p) m3 B3) as (m4 & E4 & B4).
  destruct (seg5 p ch (i_nr p) m4 B4) as (m5 & E5 & B5).
  destruct (seg6 p ch W (i_nr p) m5 eq_refl B5) as (m6 & E6 & B6).
  destruct (seg7 p ch W (i_nr p) m6 B6) as (m7 & E7 & B7).
  destruct (seg8 p ch (i_nr p) m7 B7) as (m8 & E8 & B8).
  destruct (seg9 p ch W (i_nr p) m8 B8) as (m9 & E9 & B9).
  exists m9. split.
  - unfold setup. rewrite app_assoc, exec_app, E1, exec_app.
    assert (Ew : new_workspace p = new_data p ++ seg3_code p ++ ([Chk (integrity p)] ++ init_sol p Txs Tus Tvs Tlams) ++
      [Copy Pxs Txs; Copy Pus Tus; Copy Pvs Tvs; Copy VsPdal Tvs; Copy VsPlus VsPdal;
       Copy LamsPlus Tlams; Copy Slack Tlams; Copy Infeas Tvs; Copy Shift Pvs] ++ seg6_code p ++ lqr_init p ++
      [Copy Lx Dxs; Copy Lu Dus; Copy Lv Dvs; Copy CorrX Lx; Copy CorrU Lu]).
    { unfold new_workspace, seg3_code, seg6_code. rewrite <- !app_assoc. reflexivity. }
    rewrite Ew. rewrite exec_app, E2, exec_app, E3, exec_app, E4, exec_app, E5, exec_app, E6, exec_app, E7, E8. exact E9.
  - intros b. specialize (B9 b). replace (Dn p 21 b) with true in B9; auto.
    destruct b; try reflexivity; unfold Dn; cbn [ord]; now destruct (i <=? N p).
Qed.

Lemma rollout_ok g m : ch <> STAGEDENSE -> ag g m -> exists m', exec (nonlinear_rollout p) m = Some m' /\ ag g m'.
Proof.
  intros D A. pose proof (N_pos p W) as NP.
  destruct (step_put_to _ _ m Tlams 0 (Buf Dxs 0) (n p, 1) A) as (m1 & S1 & F1); [cbn; lia|reflexivity|].
  set (esz' := fun b j => if buf_beq Tlams b && (0 =? j) then (n p, 1) else esz p ch g b j).
  assert (A1 : agree (elen p) esz' m1).
  { intros b. destruct (F1 b) as [L1 L2]. split; auto. }
  destruct (step_put_to _ _ m1 Tlams 0 (Add (Buf Rlams 0) (Buf Dlams 0)) (i_nr p, 1) A1) as (m2 & S2 & F2).
  { cbn; lia. }
  { cbn. rewrite same_refl. reflexivity. }
  assert (A2 : ag g m2).
  { intros b. destruct (F2 b) as [L1 L2]. split; auto. intros i I. rewrite L2 by auto. unfold esz'.
    destruct (buf_beq Tlams b) eqn:Eb; auto. apply buf_beq_eq in Eb; subst b. destruct i; auto. }
  destruct (exec_keeps _ _ _ m2 A2 (k_rollout_stages p ch W g D)) as (m3 & E3 & A3).
  exists m3. split; auto.
  destruct (exec_keeps _ _ (integrate (nx1 (st p 0)) (ndx1 (st p 0)) (Buf Rxs 0) (Buf Tlams 0) (Buf Txs 0)) m1 A1)
    as (m1' & E1' & _).
  { unfold integrate, is_vec. repeat constructor; cbn [keeps]; eexists; split; reflexivity. }
  assert (Em : m1' = m1).
  { apply (exec_fit _ _ _ E1'). unfold integrate, is_vec. repeat constructor; eauto. }
  subst m1'.
  unfold nonlinear_rollout, rollout_first. cbn [app exec].
  replace (step m (stage_at p 0)) with (Some m).
  2:{ unfold stage_at, step. now replace (0 <? N p) with true by (symmetry; apply Nat.ltb_lt; lia). }
  rewrite S1. rewrite <- app_assoc, exec_app, E1'. cbn [app exec]. rewrite S2. exact E3.
Qed.

Definition dense_ok (c : call) : Prop := ch = STAGEDENSE -> c <> CopyGains /\ c <> Rollout.
Lemma not_dense c : dense_ok c -> c = CopyGains \/ c = Rollout -> ch <> STAGEDENSE.
Proof. intros H Hc Hd. destruct (H Hd), Hc; auto. Qed.
Lemma call_ok c g m : dense_ok c -> ag g m -> exists m' g', exec (code p ch c) m = Some m' /\ ag g' m'.
Proof.
  intros Hd A.
  assert (K : Forall (keeps (elen p) (esz p ch g)) (code p ch c) -> exists m' g', exec (code p ch c) m = Some m' /\ ag g' m').
  { intros F. destruct (exec_keeps _ _ _ m A F) as (m' & E' & A'). eauto. }
  destruct c as [d f|[]|[]| | | | |e| | | | | | |u]; cbn [code] in *.
  - apply K, k_start; auto.
  - now apply K, k_evaluate.
  - now apply K, k_evaluate.
  - now apply K, k_mult.
  - now apply K, k_mult.
  - now apply K, k_merit.
  - now apply K, k_lagrangian.
  - now apply K, k_criterion.
  - now apply K, k_projected.
  - now apply (lq_step_ok e g).
  - apply K, k_copy_gains; auto. now apply (not_dense CopyGains); auto.
  - now apply K, k_ctrl_gains.
  - now apply K, k_slope.
  - now apply K, k_linear_step.
  - destruct (rollout_ok g m) as (m' & E' & A'); eauto. now apply (not_dense Rollout); auto.
  - apply K, k_accept.
  - apply K, k_outer.
Qed.

Lemma calls_ok l : forall g m, Forall dense_ok l -> ag g m ->
  exists m' g', exec (flat_map (code p ch) l) m = Some m' /\ ag g' m'.
Proof.
  induction l as [|c l IH]; intros g m F A; [exists m, g; auto|].
  inversion_clear F as [|? ? F1 F2]. destruct (call_ok c g m F1 A) as (m1 & g1 & E1 & A1).
  cbn [flat_map]. rewrite exec_app, E1. now apply (IH g1).
Qed.
End Calls.

(** ** Statements *)

(** Sizes of the results: one state per node, one control per stage, the
    multipliers of the constraints of each node, one costate per node (the first
    one for the initial condition), and the gains of the primal-dual unknowns
    [u, v, y] of each stage. *)
Definition results_sizes (p : prob) (m : mem) : Prop :=
  len m Rxs = S (N p) /\ len m Rus = N p /\ len m Rvs = S (N p) /\ len m Rlams = S (N p) /\
  len m Rgain = S (N p) /\ at_ m Rlams 0 = (i_nr p, 1) /\
  (forall i, i < N p ->
     at_ m Rxs i = (nx1 (st p i), 1) /\ at_ m Rus i = (nu (st p i), 1) /\
     at_ m Rvs i = (nc (st p i), 1) /\ at_ m Rlams (S i) = (ndx2 (st p i), 1) /\
     at_ m Rgain i = (nu (st p i) + nc (st p i) + ndx2 (st p i), ndx1 (st p i) + 1)) /\
  at_ m Rxs (N p) = (t_nx p, 1) /\ at_ m Rvs (N p) = (ncT p, 1) /\ at_ m Rgain (N p) = (ncT p, t_ndx p + 1).

(** Sizes of the knots of the LQ problem and of the step. *)
Definition lq_sizes (p : prob) (m : mem) : Prop :=
  len m KQ = S (N p) /\
  (forall i, i < N p ->
     let a := ndx1 (st p i) in let u := nu (st p i) in let c := nc (st p i) in let b := ndx2 (st p i) in
     at_ m KQ i = (a, a) /\ at_ m KS i = (a, u) /\ at_ m KR i = (u, u) /\ at_ m Kq i = (a, 1) /\
     at_ m Kr i = (u, 1) /\ at_ m KA i = (b, a) /\ at_ m KB i = (b, u) /\ at_ m Kf i = (b, 1) /\
     at_ m KC i = (c, a) /\ at_ m KD i = (c, u) /\ at_ m Kd i = (c, 1) /\
     at_ m Dxs i = (a, 1) /\ at_ m Dus i = (u, 1) /\ at_ m Dvs i = (c, 1) /\ at_ m Dlams (S i) = (b, 1)) /\
  at_ m KQ (N p) = (t_ndx p, t_ndx p) /\ at_ m Kq (N p) = (t_ndx p, 1) /\
  at_ m KC (N p) = (ncT p, t_ndx p) /\ at_ m Kd (N p) = (ncT p, 1) /\
  at_ m Dxs (N p) = (t_ndx p, 1) /\ at_ m Dvs (N p) = (ncT p, 1) /\ at_ m Dlams 0 = (i_nr p, 1).

Lemma sizes_results p ch g m : wf p -> agree (elen p) (esz p ch g) m -> results_sizes p m.
Proof.
  intros W A. pose proof (N_pos p W) as NP. unfold results_sizes.
  repeat match goal with |- _ /\ _ => split end; try (apply A).
  - cbn; lia.
  - intros i I. assert (Ie : i <? N p = true) by now apply Nat.ltb_lt.
    repeat match goal with |- _ /\ _ => split end; rewrite (proj2 (A _)) by (cbn; lia); cbn [esz L0].
    + now rewrite nx1_st.
    + now rewrite U_st.
    + now rewrite C_st.
    + now rewrite ndx2_st.
    + rewrite U_st, C_st, ndx2_st, ndx1_st, n2_st; auto.
  - rewrite (proj2 (A _)) by (cbn; lia). cbn [esz]. now rewrite (proj1 (proj2 (end_dims p W))).
  - rewrite (proj2 (A _)) by (cbn; lia). cbn [esz]. now rewrite C_T.
  - rewrite (proj2 (A _)) by (cbn; lia). cbn [esz]. rewrite U_T, n2_T, C_T, (tndx p W). f_equal. lia.
Qed.
Lemma sizes_lq p ch g m : wf p -> agree (elen p) (esz p ch g) m -> lq_sizes p m.
Proof.
  intros W A. pose proof (N_pos p W) as NP. unfold lq_sizes.
  repeat match goal with |- _ /\ _ => split end; try (apply A).
  - intros i I. cbv zeta.
    repeat match goal with |- _ /\ _ => split end; rewrite (proj2 (A _)) by (cbn; lia); cbn [esz L0];
    rewrite ?U_st, ?C_st, ?ndx2_st, ?ndx1_st, ?n2_st; auto.
  - rewrite (proj2 (A _)) by (cbn; lia). cbn [esz]. now rewrite (tndx p W).
  - rewrite (proj2 (A _)) by (cbn; lia). cbn [esz]. now rewrite (tndx p W).
  - rewrite (proj2 (A _)) by (cbn; lia). cbn [esz]. now rewrite (tndx p W), C_T.
  - rewrite (proj2 (A _)) by (cbn; lia). cbn [esz]. now rewrite C_T.
  - rewrite (proj2 (A _)) by (cbn; lia). cbn [esz]. now rewrite (tndx p W).
  - rewrite (proj2 (A _)) by (cbn; lia). cbn [esz]. now rewrite C_T.
  - cbn; lia.
Qed.

(** Setup and then any sequence of the routines of the solver meet no size error,
    and the results, the LQ problem and the step keep the sizes of the problem. *)
Theorem C62_sizes_partial : forall p ch l, wf p ->
  (ch = STAGEDENSE -> ~ In CopyGains l /\ ~ In Rollout l) ->
  exists m, exec (session p ch l) mem0 = Some m /\ results_sizes p m /\ lq_sizes p m.
Proof.
  intros p ch l W Hd. destruct (setup_ok p ch W) as (m & E0 & A).
  destruct (calls_ok p ch W l (i_nr p) m) as (m' & g' & E1 & A'); auto.
  { apply Forall_forall. intros c Hc D. destruct (Hd D) as [H1 H2]. split; intros ->; auto. }
  exists m'. unfold session. rewrite exec_app, E0. split; auto. split.
  - apply (sizes_results p ch g' m' W A').
  - apply (sizes_lq p ch g' m' W A').
Qed.

(** With the dense solver, copying the gains (every iteration does it) and the
    nonlinear rollout stop at the first stage. *)
Theorem C62_dense_refuted : forall p, wf p -> 0 < ndx1 (st p 0) ->
  exec (session p STAGEDENSE [CopyGains]) mem0 = None /\ exec (session p STAGEDENSE [Rollout]) mem0 = None.
Proof.
  intros p W Hn. destruct (setup_ok p STAGEDENSE W) as (m & E0 & A). pose proof (N_pos p W) as NP.
  assert (G : gain_rows p STAGEDENSE 0 = k_nu_ p 0 + ncs p 0 + n p + n p).
  { unfold gain_rows. rewrite (knx2 p W), n2_st by lia. reflexivity. }
  unfold session. rewrite !exec_app, E0. cbn [flat_map code]. rewrite !app_nil_r. split.
  - unfold copy_gains, for_. destruct (N p) as [|k] eqn:Ek; [lia|]. cbn [seq flat_map app exec step].
    rewrite !(size_agree _ _ m _ A). cbn [size]. unfold len, at_, E; cbn [fst snd elen esz].
    rewrite Ek. cbn [Nat.ltb Nat.leb]. rewrite G, n2_st by lia.
    replace (0 + 1 <=? n p + 1) with true by (symmetry; apply Nat.leb_le; lia).
    unfold same. cbn [fst snd]. replace (_ =? _) with false; [reflexivity|].
    symmetry. apply Nat.eqb_neq. unfold n. lia.
  - unfold nonlinear_rollout. rewrite exec_app.
    destruct (step_put_to _ _ m Tlams 0 (Buf Dxs 0) (n p, 1) A) as (m1 & S1 & F1); [cbn; lia|reflexivity|].
    destruct (exec (rollout_first p) m) as [m2|] eqn:E2; auto.
    assert (F : len m2 Fff = len m Fff /\ at_ m2 Fff 0 = at_ m Fff 0).
    { revert E2. unfold rollout_first, integrate, is_vec. cbn [app exec stage_at step].
      repeat match goal with
      | |- (match (if ?c then _ else _) with _ => _ end) = _ -> _ => destruct c; [|discriminate]
      | |- (match (match ?x with _ => _ end) with _ => _ end) = _ -> _ => destruct x; [|discriminate]
      end.
      intros H; injection H as <-. split; reflexivity. }
    destruct F as [F2 F3]. unfold rollout_stages, for_. destruct (N p) as [|k] eqn:Ek; [lia|].
    cbn [seq flat_map app exec]. unfold stage_at at 1. cbn [step]. rewrite Ek. cbn [Nat.ltb Nat.leb].
    cbn [size]. rewrite F2, F3, (proj1 (A Fff)), (proj2 (A Fff)) by (cbn; lia). cbn [elen esz].
    rewrite Ek. cbn [Nat.ltb Nat.leb]. unfold same. cbn [fst snd total fold_right]. rewrite G.
    rewrite U_st, C_st, (ndx2_st p W) by lia.
    replace (_ =? _) with false; [reflexivity|].
    symmetry. apply Nat.eqb_neq. unfold n. lia.
Qed.

(** The checks made by addStage, addConstraint and checkIntegrity do not imply [wf]:
    a constraint on another state space, a cost on another state space, a box of
    another length pass them and pass setup, and stop the first routine that uses them. *)
Definition accepted (p : prob) : Prop :=
  1 <= N p /\ integrity p = true /\ Forall (fun s => stage_accepted s = true) (stages p) /\
  exists m, exec (setup p SERIAL) mem0 = Some m.
Theorem C62_integrity_refuted :
  (exists p, accepted p /\ exec (session p SERIAL [Projected]) mem0 = None) /\
  (exists p, accepted p /\ exec (session p SERIAL [Lagrangian]) mem0 = None) /\
  (exists p, accepted p /\ exec (session p SERIAL [Multipliers false]) mem0 = None).
Proof.
  assert (T : forall o : option mem, (if o then true else false) = true -> exists m, o = Some m).
  { intros [m|]; [eauto|discriminate]. }
  split; [|split].
  - exists (Prob 2 2 None [Stage 2 2 1 2 2 2 1 [Cstr 3 1 1 None]] 2 2 0 []).
    split; [|vm_compute; reflexivity]. split; [cbn; lia|]. split; [reflexivity|]. split; [repeat constructor|].
    apply T. vm_compute. reflexivity.
  - exists (Prob 2 2 None [Stage 2 2 1 2 2 3 1 []] 2 2 0 []).
    split; [|vm_compute; reflexivity]. split; [cbn; lia|]. split; [reflexivity|]. split; [repeat constructor|].
    apply T. vm_compute. reflexivity.
  - exists (Prob 2 2 None [Stage 2 2 1 2 2 2 1 [Cstr 2 1 1 (Some 2)]] 2 2 0 []).
    split; [|vm_compute; reflexivity]. split; [cbn; lia|]. split; [reflexivity|]. split; [repeat constructor|].
    apply T. vm_compute. reflexivity.
Qed.

(** A problem without stages passes checkIntegrity and setup, and the linear step
    reads a stage that is not there. *)
Theorem C62_empty_refuted :
  (forall p, N p = 0 -> integrity p = true) /\
  exists p, N p = 0 /\ (exists m, exec (setup p SERIAL) mem0 = Some m) /\
    exec (session p SERIAL [LqStep false; LinearStep]) mem0 = None /\
    exists m, exec (session p SERIAL [LqStep false]) mem0 = Some m.
Proof.
  split.
  - intros p H. unfold integrity. now rewrite H.
  - assert (T : forall o : option mem, (if o then true else false) = true -> exists m, o = Some m).
    { intros [m|]; [eauto|discriminate]. }
    exists (Prob 2 2 (Some 2) [] 2 2 0 []). split; [reflexivity|]. split; [apply T; vm_compute; reflexivity|].
    split; [vm_compute; reflexivity|apply T; vm_compute; reflexivity].
Qed.

(** Three stages on a space with nx = 4, ndx = 3, with and without constraints. *)
Definition ex_prob : prob :=
  Prob 3 2 None
    [Stage 4 3 2 4 3 3 2 [Cstr 3 2 2 (Some 2); Cstr 3 2 1 None]; Stage 4 3 0 4 3 3 0 []; Stage 4 3 1 4 3 3 1 [Cstr 3 1 1 None]]
    4 3 1 [Cstr 3 1 2 None].
Definition ex_run : list call :=
  [Start true true; Evaluate false; Multipliers false; Merit; Lagrangian; Criterion; Projected; LqStep true;
   CopyGains; CtrlGains; Slope; LinearStep; Multipliers true; Accept; Rollout; Evaluate true; Accept; Outer (Some PRIMAL)].
Lemma ex_wf : wf ex_prob.
Proof.
  split; [cbn; lia|]. split; [reflexivity|]. split; [discriminate|].
  split; repeat constructor.
Qed.
Example C62_example : wf ex_prob /\
  match exec (session ex_prob SERIAL ex_run) mem0 with
  | Some m => map (at_ m Rgain) (seq 0 4) = [(8, 4); (3, 4); (5, 4); (2, 4)] /\ map (at_ m Rlams) (seq 0 4) = [(2, 1); (3, 1); (3, 1); (3, 1)]
  | None => False
  end.
Proof.
  split; [exact ex_wf|]. vm_compute. split; reflexivity.
Qed.
Example C62_dense_example : wf ex_prob /\ 0 < ndx1 (st ex_prob 0) /\
  exec (session ex_prob STAGEDENSE [CopyGains]) mem0 = None.
Proof.
  assert (H : 0 < ndx1 (st ex_prob 0)) by (cbn; lia).
  split; [exact ex_wf|]. split; [exact H|]. exact (proj1 (C62_dense_refuted ex_prob ex_wf H)).
Qed.
