(** C49: infinity norm and finiteness checks. *)
From Coq Require Import QArith Qabs List Bool Lia Lqa.
From Verif Require Import NormModel.
Import ListNotations.
Open Scope Q_scope.

(** Specification: order and magnitudes of non-NaN scalars. *)
Definition fle (a b : fl) : Prop :=
  match a, b with
  | NaN, _ | _, NaN => False
  | MInf, _ => True
  | _, MInf => False
  | _, PInf => True
  | PInf, _ => False
  | Fin x, Fin y => x <= y
  end.
Definition finite (a : fl) : Prop := exists q, a = Fin q.
Definition magnitude (a m : fl) : Prop :=
  match a, m with
  | Fin q, Fin r => r == Qabs q
  | PInf, PInf | MInf, PInf => True
  | _, _ => False
  end.

Lemma fle_refl a : a <> NaN -> fle a a.
Proof. destruct a; simpl; intros; try easy. apply Qle_refl. Qed.

Lemma fle_trans a b c : fle a b -> fle b c -> fle a c.
Proof. destruct a, b, c; simpl; try easy. apply Qle_trans. Qed.

Lemma flt_false a b : a <> NaN -> b <> NaN -> flt a b = false -> fle b a.
Proof.
  destruct a, b; simpl; try easy. intros _ _ H.
  apply negb_false_iff in H. now apply Qle_bool_iff in H.
Qed.

Lemma flt_true a b : flt a b = true -> fle a b.
Proof.
  destruct a, b; simpl; try easy. intros H.
  apply negb_true_iff in H. destruct (Qlt_le_dec q q0) as [L|L].
  - now apply Qlt_le_weak.
  - apply Qle_bool_iff in L. congruence.
Qed.

Lemma stdmax_ub a b : a <> NaN -> b <> NaN ->
  fle a (stdmax a b) /\ fle b (stdmax a b) /\ stdmax a b <> NaN.
Proof.
  intros Ha Hb. unfold stdmax. destruct (flt a b) eqn:E.
  - repeat split; [now apply flt_true|now apply fle_refl|easy].
  - repeat split; [now apply fle_refl|now apply flt_false|easy].
Qed.

Lemma stdmax_nan a : stdmax a NaN = a.
Proof. unfold stdmax. destruct a; reflexivity. Qed.

Lemma stdmax_or a b : stdmax a b = a \/ stdmax a b = b.
Proof. unfold stdmax. destruct (flt a b); auto. Qed.

Lemma stdmax_fold {A} (f : A -> fl) l a :
  a <> NaN ->
  (forall x, In x l -> f x <> NaN) ->
  let r := fold_left (fun m x => stdmax m (f x)) l a in
  r <> NaN /\ fle a r /\ (forall x, In x l -> fle (f x) r) /\
  (r = a \/ exists x, In x l /\ r = f x).
Proof.
  revert a. induction l as [|x l IH]; intros a Ha Hl r; subst r; simpl.
  - repeat split; auto using fle_refl. easy.
  - assert (Hx : f x <> NaN) by (apply Hl; now left).
    destruct (stdmax_ub a (f x) Ha Hx) as (U1 & U2 & U3).
    destruct (IH (stdmax a (f x)) U3) as (I1 & I2 & I3 & I4).
    { intros y Hy. apply Hl. now right. }
    repeat split; auto.
    + eapply fle_trans; eauto.
    + intros y [<-|Hy]; auto. eapply fle_trans; eauto.
    + destruct I4 as [E|(y & Hy & E)].
      * destruct (stdmax_or a (f x)) as [E'|E'].
        -- left. now rewrite E.
        -- right. exists x. split; [now left|now rewrite E].
      * right. exists y. auto.
Qed.

Lemma fabs_nan x : fabs x <> NaN <-> x <> NaN.
Proof. destruct x; simpl; split; easy. Qed.

Lemma fabs_mag x : x <> NaN -> magnitude x (fabs x).
Proof. destruct x; simpl; try easy. Qed.

Lemma mag_fle x m : magnitude x m -> fle (fabs x) m /\ fle m (fabs x).
Proof.
  destruct x, m; simpl; try easy; try (split; easy).
  intros ->; split; apply Qle_refl.
Qed.

Lemma existsb_nan z : existsb isnan z = false <-> ~ In NaN z.
Proof.
  split.
  - intros H Hi. assert (existsb isnan z = true); [|congruence].
    apply existsb_exists. now exists NaN.
  - intros H. destruct (existsb isnan z) eqn:E; auto.
    apply existsb_exists in E. destruct E as (x & Hx & E).
    destruct x; try discriminate. contradiction.
Qed.

Lemma norm_block_max redux z : ~ In NaN z ->
  let r := norm_block redux z in
  r <> NaN /\ fle (Fin 0) r /\ (forall x, In x z -> fle (fabs x) r) /\
  (r = Fin 0 \/ exists x, In x z /\ r = fabs x).
Proof.
  intros Hn. destruct z as [|c z].
  - cbn. repeat split; try easy; auto.
  - unfold norm_block. rewrite (proj2 (existsb_nan (c :: z)) Hn).
    assert (Hc : fabs c <> NaN).
    { apply fabs_nan. intros ->. apply Hn. now left. }
    destruct (stdmax_fold fabs z (fabs c) Hc) as (A & B & C & D).
    { intros x Hx. apply fabs_nan. intros ->. apply Hn. now right. }
    repeat split; auto.
    + eapply fle_trans; [|exact B]. destruct c; simpl in *; try easy.
      apply Qabs_nonneg.
    + intros x [<-|Hx]; auto.
    + right. destruct D as [E|(x & Hx & E)].
      * exists c. split; [now left|exact E].
      * exists x. split; [now right|exact E].
Qed.

(** C49, norms: without NaN the norm of a list of blocks is the largest
    magnitude of their entries (0 if there is none), for whatever Eigen does
    with NaN; in particular it is infinite as soon as an entry is. *)
Theorem C49_norm_partial : forall redux zs,
  (forall z, In z zs -> ~ In NaN z) ->
  let r := norm_blocks redux zs in
  (forall z x m, In z zs -> In x z -> magnitude x m -> fle m r) /\
  (r = Fin 0 \/ exists z x, In z zs /\ In x z /\ magnitude x r) /\
  ((exists z x, In z zs /\ In x z /\ isinf x = true) -> r = PInf).
Proof.
  intros redux zs Hn r.
  destruct (stdmax_fold (norm_block redux) zs (Fin 0)) as (A & B & C & D).
  - easy.
  - intros z Hz. now apply norm_block_max, Hn.
  - fold (norm_blocks redux zs) in A, B, C, D. fold r in A, B, C, D.
    assert (U : forall z x m, In z zs -> In x z -> magnitude x m -> fle m r).
    { intros z x m Hz Hx Hm.
      eapply fle_trans; [apply (proj2 (mag_fle _ _ Hm))|].
      eapply fle_trans; [|apply (C z Hz)].
      now apply norm_block_max; auto. }
    repeat split; auto.
    + destruct D as [E|(z & Hz & E)]; auto.
      destruct (norm_block_max redux z (Hn z Hz)) as (_ & _ & _ & [E'|(x & Hx & E')]).
      * left. congruence.
      * right. exists z, x. repeat split; auto. rewrite E, E'.
        apply fabs_mag. intros ->. now apply (Hn z Hz).
    + intros (z & x & Hz & Hx & Hi).
      assert (F : fle PInf r).
      { apply (U z x); auto. now destruct x. }
      destruct r; easy.
Qed.

Lemma never_nan redux zs : norm_blocks redux zs <> NaN.
Proof.
  unfold norm_blocks.
  assert (H : forall l a, a <> NaN ->
    fold_left (fun out z => stdmax out (norm_block redux z)) l a <> NaN).
  { induction l as [|z l IH]; simpl; auto. intros a Ha. apply IH.
    unfold stdmax. destruct (flt a (norm_block redux z)) eqn:E; auto.
    intros F. rewrite F in E. destruct a; discriminate. }
  now apply H.
Qed.
(** the primal criterion covers both lists, the dual one both vectors *)
Theorem C49_criteria : forall redux cs sl,
  (forall z, In z (cs ++ sl) -> ~ In NaN z) ->
  let r := prim_infeas redux cs sl in
  (forall z x m, In z (cs ++ sl) -> In x z -> magnitude x m -> fle m r) /\
  (r = Fin 0 \/ exists z x, In z (cs ++ sl) /\ In x z /\ magnitude x r).
Proof.
  intros redux cs sl Hn r.
  destruct (C49_norm_partial redux cs) as (A1 & A2 & _); [intros z Hz; apply Hn, in_or_app; auto|].
  destruct (C49_norm_partial redux sl) as (B1 & B2 & _); [intros z Hz; apply Hn, in_or_app; auto|].
  destruct (stdmax_ub (norm_blocks redux cs) (norm_blocks redux sl)) as (U1 & U2 & _); [apply never_nan|apply never_nan|].
  split.
  - intros z x m Hz Hx Hm. apply in_app_or in Hz. destruct Hz as [Hz|Hz].
    + eapply fle_trans; [|exact U1]. eapply A1; eauto.
    + eapply fle_trans; [|exact U2]. eapply B1; eauto.
  - unfold r, prim_infeas. destruct (stdmax_or (norm_blocks redux cs) (norm_blocks redux sl)) as [-> | ->].
    + destruct A2 as [E|(z & x & Hz & Hx & Hm)]; [auto|right]. exists z, x. split; [apply in_or_app; auto|auto].
    + destruct B2 as [E|(z & x & Hz & Hx & Hm)]; [auto|right]. exists z, x. split; [apply in_or_app; auto|auto].
Qed.
Theorem C49_dual_criterion : forall redux st ct, ~ In NaN (st ++ ct) ->
  let r := dual_infeas redux st ct in
  (forall x m, In x (st ++ ct) -> magnitude x m -> fle m r) /\
  (r = Fin 0 \/ exists x, In x (st ++ ct) /\ magnitude x r).
Proof.
  intros redux st ct Hn r.
  assert (Hs : ~ In NaN st) by (intros H; apply Hn, in_or_app; auto).
  assert (Hc : ~ In NaN ct) by (intros H; apply Hn, in_or_app; auto).
  destruct (norm_block_max redux st Hs) as (S1 & _ & S2 & S3).
  destruct (norm_block_max redux ct Hc) as (T1 & _ & T2 & T3).
  destruct (stdmax_ub _ _ S1 T1) as (U1 & U2 & _). split.
  - intros x m Hx Hm. destruct (mag_fle x m Hm) as [_ L]. apply in_app_or in Hx. destruct Hx as [Hx|Hx].
    + eapply fle_trans; [exact L|]. eapply fle_trans; [|exact U1]. auto.
    + eapply fle_trans; [exact L|]. eapply fle_trans; [|exact U2]. auto.
  - unfold r, dual_infeas. destruct (stdmax_or (norm_block redux st) (norm_block redux ct)) as [-> | ->].
    + destruct S3 as [E|(x & Hx & ->)]; [auto|right]. exists x. split; [apply in_or_app; auto|].
      apply fabs_mag. intros ->. contradiction.
    + destruct T3 as [E|(x & Hx & ->)]; [auto|right]. exists x. split; [apply in_or_app; auto|].
      apply fabs_mag. intros ->. contradiction.
Qed.
(** C49 is refuted for NaN: whatever Eigen returns for a block with NaN, the
    norm of a list of blocks is never NaN... *)
Theorem C49_never_nan : forall redux zs, norm_blocks redux zs <> NaN.
Proof. exact never_nan. Qed.

(** ... and if Eigen propagates NaN, exactly the blocks with NaN are ignored,
    so a NaN is never noticed ([prim_infeas] of the solver is such a norm). *)
Theorem C49_norm_refuted : forall redux,
  (forall z, In NaN z -> redux z = NaN) ->
  (forall zs, norm_blocks redux zs =
     norm_blocks redux (filter (fun z => negb (existsb isnan z)) zs)) /\
  (exists zs z, In z zs /\ In NaN z /\ norm_blocks redux zs = Fin 0 /\
     prim_infeas redux zs zs = Fin 0).
Proof.
  intros redux Hr. split.
  - intros zs. unfold norm_blocks. generalize (Fin 0).
    induction zs as [|z zs IH]; intros a; simpl; auto.
    destruct (existsb isnan z) eqn:E; simpl.
    + rewrite <- IH. f_equal. destruct z as [|c z]; [discriminate|].
      unfold norm_block. rewrite E. rewrite Hr, stdmax_nan; auto.
      apply existsb_exists in E. destruct E as (x & Hx & E).
      now destruct x.
    + apply IH.
  - exists [[NaN]], [NaN]. repeat split; try now left.
    + unfold norm_blocks; simpl. rewrite Hr; [|now left]. reflexivity.
    + unfold prim_infeas, norm_blocks; simpl. rewrite Hr; [|now left].
      reflexivity.
Qed.

(** The dual infeasibility keeps a NaN of the state part but loses a NaN of
    the control part. *)
Theorem C49_dual_refuted : forall redux,
  (forall z, In NaN z -> redux z = NaN) ->
  (forall st ct, In NaN st -> dual_infeas redux st ct = NaN) /\
  (forall st ct, In NaN ct -> dual_infeas redux st ct = norm_block redux st).
Proof.
  intros redux Hr.
  assert (N : forall z, In NaN z -> norm_block redux z = NaN).
  { intros z Hz. destruct z as [|c z]; [easy|]. unfold norm_block.
    assert (E : existsb isnan (c :: z) = true).
    { apply existsb_exists. now exists NaN. }
    rewrite E. now apply Hr. }
  split; intros st ct H; unfold dual_infeas; rewrite (N _ H).
  - unfold stdmax. reflexivity.
  - apply stdmax_nan.
Qed.

(** C49, checks: [check_scalar] and [check_value] return true exactly for the
    values which are not finite. *)
Theorem C49_check :
  (forall x, check_scalar x = true <-> ~ finite x) /\
  (forall z, check_block z = true <-> exists x, In x z /\ ~ finite x) /\
  (forall zs, check_blocks zs = true <->
     exists z x, In z zs /\ In x z /\ ~ finite x).
Proof.
  assert (S : forall x, check_scalar x = true <-> ~ finite x).
  { intros x. destruct x; cbn; split; try easy;
      try (intros _ (q' & H); discriminate).
    intros H. exfalso. apply H. now exists q. }
  assert (B : forall z, check_block z = true <-> exists x, In x z /\ ~ finite x).
  { intros z. unfold check_block. rewrite orb_true_iff, negb_true_iff. split.
    - intros [H|H].
      + apply existsb_exists in H. destruct H as (x & Hx & H).
        exists x. split; auto. apply S. unfold check_scalar. now rewrite H.
      + assert (H' : ~ forall x, In x z -> negb (check_scalar x) = true).
        { intros F. apply forallb_forall in F. congruence. }
        clear H. induction z as [|c z IH].
        * exfalso. apply H'. easy.
        * destruct (check_scalar c) eqn:E.
          -- exists c. split; [now left|now apply S].
          -- destruct IH as (x & Hx & Hf).
             { intros F. apply H'. intros x [<-|Hx]; [now rewrite E|auto]. }
             exists x. split; [now right|auto].
    - intros (x & Hx & Hf). right.
      destruct (forallb (fun x => negb (check_scalar x)) z) eqn:E; auto.
      rewrite forallb_forall in E. specialize (E x Hx).
      apply S in Hf. rewrite Hf in E. discriminate. }
  repeat split; try apply S; try apply B.
  - induction zs as [|z zs IH]; simpl; [easy|].
    destruct (check_block z) eqn:E.
    + intros _. apply B in E. destruct E as (x & Hx & Hf).
      exists z, x. auto.
    + intros H. destruct (IH H) as (z' & x & H1 & H2 & H3).
      exists z', x. auto.
  - intros (z & x & Hz & Hx & Hf). induction zs as [|z' zs IH]; [easy|].
    simpl. destruct (check_block z') eqn:E; auto. destruct Hz as [->|Hz]; auto.
    assert (check_block z = true) by (apply B; eauto). congruence.
Qed.

(** The comment above [check_scalar] (math.hpp 168: "Check that a scalar is
    neither inf, nor NaN") states the opposite. *)
Theorem C49_doc_refuted : ~ (forall x, check_scalar x = true <-> finite x).
Proof.
  intros H. assert (F : finite NaN) by (apply H; reflexivity).
  destruct F; discriminate.
Qed.

Example C49_norm_example :
  norm_blocks (fun _ => NaN) [[Fin (1#2); Fin (-3)]; []; [Fin 2]] = Fin (3#1)
  /\ norm_blocks (fun _ => NaN) [[Fin 1]; [MInf; Fin 2]] = PInf.
Proof. split; vm_compute; reflexivity. Qed.

Example C49_nan_example :
  norm_blocks (fun _ => NaN) [[Fin 1]; [NaN; Fin 7]; [Fin (-2)]] = Fin 2.
Proof. vm_compute; reflexivity. Qed.

Example C49_check_example :
  check_blocks [[Fin 1]; [Fin 2; PInf]] = true
  /\ check_blocks [[Fin 1]; []] = false.
Proof. split; reflexivity. Qed.

Print Assumptions C49_norm_partial.
Print Assumptions C49_never_nan.
Print Assumptions C49_norm_refuted.
Print Assumptions C49_dual_refuted.
Print Assumptions C49_check.
Print Assumptions C49_doc_refuted.
