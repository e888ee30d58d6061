From Coq Require Import QArith Qminmax Qround List Bool Arith Lia Lqa.
From Verif Require Import SearchModel.
Import ListNotations.
Local Open Scope Q_scope.

(** ** Geometric decrease *)
Fixpoint qpow (b : Q) (n : nat) : Q := match n with O => 1 | S k => qpow b k * b end.
Definition qn (n : nat) : Q := inject_Z (Z.of_nat n).
Lemma qn_S n : qn (S n) == qn n + 1.
Proof. unfold qn. rewrite Nat2Z.inj_succ, <- Z.add_1_r, inject_Z_plus. reflexivity. Qed.
Lemma qn_pos n : 0 <= qn n.
Proof. unfold qn. change 0 with (inject_Z 0). rewrite <- Zle_Qle. lia. Qed.

Lemma bernoulli b n : 0 < b -> b < 1 -> 0 < qpow b n /\ qpow b n * (1 + qn n * (1 - b)) <= 1.
Proof.
  intros Hb H1. induction n as [|n [IHp IH]]; simpl.
  - split; [lra|]. change (qn 0) with 0. lra.
  - split; [nra|]. rewrite qn_S. pose proof (qn_pos n).
    assert (H2 : 0 <= qn n * ((1 - b) * (1 - b))) by (apply Qmult_le_0_compat; nra).
    assert (H3 : b * (1 + (qn n + 1) * (1 - b)) <= 1 + qn n * (1 - b)) by nra.
    apply Qle_trans with (qpow b n * (1 + qn n * (1 - b))); auto.
    setoid_replace (qpow b n * b * (1 + (qn n + 1) * (1 - b)))
      with (qpow b n * (b * (1 + (qn n + 1) * (1 - b)))) by ring.
    rewrite (Qmult_comm (qpow b n)), (Qmult_comm (qpow b n) (1 + _)).
    apply Qmult_le_compat_r; lra.
Qed.

Lemma arch x : exists n, x <= qn n.
Proof.
  exists (Z.to_nat (Qceiling x)).
  eapply Qle_trans; [apply Qle_ceiling|]. unfold qn. rewrite <- Zle_Qle. lia.
Qed.

Lemma qpow_small b e : 0 < b -> b < 1 -> 0 < e -> exists n, forall m, (n <= m)%nat -> qpow b m <= e.
Proof.
  intros Hb H1 He.
  destruct (arch (/ ((1 - b) * e))) as [n Hn]. exists n. intros m Hm.
  destruct (bernoulli b m Hb H1) as [P B].
  assert (Hd : 0 < (1 - b) * e) by nra.
  assert (Hmn : qn n <= qn m) by (unfold qn; rewrite <- Zle_Qle; lia).
  assert (Hge : 1 <= qn m * ((1 - b) * e)).
  { apply Qle_trans with (/ ((1 - b) * e) * ((1 - b) * e)).
    - apply Qle_lteq. right. field. split; lra.
    - apply Qmult_le_compat_r; lra. }
  apply Qnot_lt_le; intro Hlt.
  assert (qpow b m * (qn m * (1 - b)) <= 1 - qpow b m) by lra.
  assert (e * (qn m * (1 - b)) <= qpow b m * (qn m * (1 - b))).
  { apply Qmult_le_compat_r; [lra|]. pose proof (qn_pos m). nra. }
  lra.
Qed.

(** ** Nonmonotone search *)
Section NmProofs.
  Variables avg_eta beta c1 alpha_min : Q.
  Variable f : Q -> option Q.

  Lemma nm_loop_spec fuel : forall s dphi0 a v a' s',
    0 < beta -> beta <= 1 -> a <= 1 -> alpha_min <= 1 ->
    nm_loop beta c1 alpha_min f fuel s dphi0 a = Returned v a' s' ->
    s' = s /\ f a' = Some v /\ alpha_min <= a' /\ a' <= 1 /\
    (v <= mov_avg s + c1 * a' * dphi0 \/ a' == alpha_min).
  Proof.
    induction fuel as [|n IH]; intros s dphi0 a v a' s' Hb Hb1 Ha Hm H; simpl in H;
      [discriminate|].
    destruct (Qle_bool a alpha_min) eqn:E; simpl in H.
    - apply Qle_bool_iff in E. destruct (f (Qmax a alpha_min)) eqn:Ef; [|discriminate].
      inversion H; subst. assert (Qmax a alpha_min == alpha_min) by (apply Q.max_r; auto).
      split; auto. split; auto. split; [lra|]. split; [lra|]. auto.
    - assert (E' : alpha_min < a).
      { apply Qnot_le_lt. intro L. apply Qle_bool_iff in L. congruence. }
      assert (Hdec : a * beta <= 1) by (destruct (Qlt_le_dec 0 a); nra).
      destruct (f a) as [q|] eqn:Ef; [destruct (Qle_bool q _) eqn:T|].
      + inversion H; subst. apply Qle_bool_iff in T.
        split; auto. split; auto. split; [lra|]. split; auto.
      + apply IH in H; auto.
      + apply IH in H; auto.
  Qed.

  Lemma nm_loop_fuel : forall n s dphi0 a, 0 < beta -> 0 < a ->
    a * qpow beta n <= alpha_min ->
    nm_loop beta c1 alpha_min f (S n) s dphi0 a <> NoFuel.
  Proof.
    induction n as [|n IH]; intros s dphi0 a Hb Ha H.
    - cbn [nm_loop]. simpl in H. assert (E : Qle_bool a alpha_min = true)
        by (apply Qle_bool_iff; lra). rewrite E. simpl.
      destruct (f _); discriminate.
    - assert (K : nm_loop beta c1 alpha_min f (S n) s dphi0 (a * beta) <> NoFuel).
      { apply IH; auto; [nra|]. simpl in H.
        setoid_replace (a * beta * qpow beta n) with (a * (qpow beta n * beta)) by ring. auto. }
      remember (S n) as m eqn:Em. cbn [nm_loop].
      destruct (negb _); [|destruct (f _); discriminate].
      destruct (f a) as [q|]; [destruct (Qle_bool q _); [discriminate|]|]; exact K.
  Qed.

  Lemma nm_terminates s phi0 dphi0 a : 0 < beta -> beta < 1 -> 0 < a -> 0 < alpha_min ->
    exists N, forall fuel, (N <= fuel)%nat ->
      nm_run avg_eta beta c1 alpha_min f fuel s phi0 dphi0 a <> NoFuel.
  Proof.
    intros Hb H1 Ha Hm.
    destruct (qpow_small beta (alpha_min / a) Hb H1) as [n Hn].
    { apply Qlt_shift_div_l; lra. }
    exists (S n). intros fuel Hf. unfold nm_run. destruct fuel as [|k]; [lia|].
    apply nm_loop_fuel; auto. specialize (Hn k ltac:(lia)).
    apply (Qmult_le_compat_r _ _ a) in Hn; [|lra].
    setoid_replace (alpha_min / a * a) with alpha_min in Hn by (field; lra). lra.
  Qed.
End NmProofs.

(** Reference value: history of merit values since the last reset (latest
    first). *)
Inductive nm_op := NmCall (phi0 : Q) | NmReset.
Definition nm_step (eta : Q) (s : nmls) (o : nm_op) : nmls :=
  match o with NmCall p => nm_update eta s p | NmReset => nm_init end.
Fixpoint seen (h : list Q) (ops : list nm_op) : list Q :=
  match ops with
  | [] => h
  | NmCall p :: r => seen (p :: h) r
  | NmReset :: r => seen [] r
  end.
(** Weighted average with weights eta^k, k the age of the value. *)
Fixpoint wsum (eta : Q) (h : list Q) : Q :=
  match h with [] => 0 | x :: r => x + eta * wsum eta r end.
Definition wtot (eta : Q) (h : list Q) : Q := wsum eta (map (fun _ => 1) h).

Definition nm_inv (eta : Q) (h : list Q) (s : nmls) : Prop :=
  avg_weight s == wtot eta h /\ avg_weight s * mov_avg s == wsum eta h.

Lemma wtot_nonneg eta h : 0 <= eta -> 0 <= wtot eta h.
Proof.
  intros He. unfold wtot. induction h as [|x h IH]; simpl; [lra|]. nra.
Qed.

Lemma nm_inv_step eta h s o : 0 <= eta -> nm_inv eta h s ->
  nm_inv eta (match o with NmCall p => p :: h | NmReset => [] end) (nm_step eta s o).
Proof.
  intros He [Hw Hm]. destruct o; simpl.
  - unfold nm_inv, nm_update. simpl. unfold wtot in *. simpl.
    pose proof (wtot_nonneg eta h He) as Hp. unfold wtot in Hp.
    split; [rewrite Hw; ring|].
    rewrite <- Hm. field. rewrite Hw. nra.
  - split; unfold wtot; simpl; ring.
Qed.

Lemma nm_inv_exec eta : 0 <= eta -> forall ops h s, nm_inv eta h s ->
  nm_inv eta (seen h ops) (fold_left (nm_step eta) ops s).
Proof.
  intros He. induction ops as [|o ops IH]; intros h s H; simpl; auto.
  pose proof (nm_inv_step eta h s o He H) as K.
  destruct o; apply IH; exact K.
Qed.

Lemma wsum_bounds eta lo hi h : 0 <= eta -> (forall x, In x h -> lo <= x /\ x <= hi) ->
  lo * wtot eta h <= wsum eta h /\ wsum eta h <= hi * wtot eta h.
Proof.
  intros He. unfold wtot. induction h as [|x h IH]; intros H; simpl; [lra|].
  destruct IH as [A B]; [intros; apply H; right; auto|].
  destruct (H x (or_introl eq_refl)). split; nra.
Qed.

Lemma nm_reference_bounds eta ops lo hi : 0 <= eta -> seen [] ops <> [] ->
  (forall x, In x (seen [] ops) -> lo <= x /\ x <= hi) ->
  let m := mov_avg (fold_left (nm_step eta) ops nm_init) in
  lo <= m /\ m <= hi /\ m * wtot eta (seen [] ops) == wsum eta (seen [] ops).
Proof.
  intros He Hne Hb m.
  assert (I : nm_inv eta (seen [] ops) (fold_left (nm_step eta) ops nm_init)).
  { apply nm_inv_exec; auto. split; unfold wtot; simpl; ring. }
  destruct I as [Iw Im]. fold m in Im.
  destruct (wsum_bounds eta lo hi _ He Hb) as [A B].
  assert (W : 0 < wtot eta (seen [] ops)).
  { destruct (seen [] ops) as [|x h]; [congruence|].
    pose proof (wtot_nonneg eta h He) as P. unfold wtot in *. simpl. nra. }
  rewrite Iw in Im. split; [|split].
  - apply Qnot_lt_le; intro L. nra.
  - apply Qnot_lt_le; intro L. nra.
  - lra.
Qed.

(** ** Goldstein *)
Section GsProofs.
  Variables beta alpha_min eps th_grad th_accept th_neg : Q.
  Variable phi : Q -> option Q.
  Variable model : Q -> Q.
  Variables phi0 d1 : Q.
  Notation loop := (gs_loop beta alpha_min eps th_grad th_accept th_neg phi model phi0 d1).
  Notation acc := (gs_accept th_grad th_accept th_neg model phi0 d1).


  (** General merit: exit by acceptance, or below the minimum with the value of
      the last completed evaluation (or [phi0]). *)
  Lemma gs_loop_spec fuel : forall a p t v a' t',
    0 < beta -> beta < 1 -> 0 <= alpha_min -> alpha_min <= 1 ->
    0 < a -> a <= 1 ->
    loop fuel a p t = Returned v a' t' ->
    0 < a' /\ a' <= 1 /\
    ((alpha_min + eps <= a' /\ phi a' = Some v /\ acc v a' = true /\ t' = Some (a', true)) \/
     (a' < alpha_min + eps /\ (v = p \/ exists b, alpha_min + eps <= b /\ phi b = Some v))).
  Proof.
    induction fuel as [|n IH]; intros a p t v a' t' Hb Hb1 Hm Hm1 Ha Ha1 H; simpl in H;
      [discriminate|].
    destruct (Qle_bool (alpha_min + eps) a) eqn:E; simpl in H.
    - apply Qle_bool_iff in E. destruct (phi a) as [w|] eqn:Ep; [destruct (acc w a) eqn:Ea|].
      + inversion H; subst. split; auto. split; auto.
      + assert (Hmx : Qmax (a * beta) alpha_min <= 1) by (apply Q.max_lub; nra).
        assert (Hmx0 : 0 < Qmax (a * beta) alpha_min).
        { apply Qlt_le_trans with (a * beta); [nra|apply Q.le_max_l]. }
        apply IH in H; auto. destruct H as (A & B & C). split; auto. split; auto.
        destruct C as [C|[C D]]; [left; auto|right; split; auto].
        right. destruct D as [->|D]; eauto.
      + apply IH in H; auto; nra.
    - inversion H; subst. split; auto. split; auto. right. split; auto.
      apply Qnot_le_lt. intro L. apply Qle_bool_iff in L. congruence.
  Qed.

  (** Merit that never raises. *)
  Hypothesis total : forall a, phi a <> None.
  Lemma gs_loop_total fuel : forall a p t v a' t',
    0 < beta -> beta < 1 -> 0 <= alpha_min -> 0 < eps -> alpha_min <= a ->
    (match t with None => p = phi0 | Some (b, c) => c = true /\ phi b = Some p /\
       alpha_min + eps <= b /\ acc p b = false end) ->
    loop fuel a p t = Returned v a' t' ->
    alpha_min <= a' /\
    ((phi a' = Some v /\ acc v a' = true /\ t' = Some (a', true)) \/
     (a' < alpha_min + eps /\
      match t' with None => v = phi0 | Some (b, c) => c = true /\ phi b = Some v /\
       alpha_min + eps <= b /\ acc v b = false end)).
  Proof.
    induction fuel as [|n IH]; intros a p t v a' t' Hb Hb1 Hm He Ha Ht H; simpl in H;
      [discriminate|].
    destruct (Qle_bool (alpha_min + eps) a) eqn:E; simpl in H.
    - apply Qle_bool_iff in E.
      destruct (phi a) as [w|] eqn:Ep; [|exfalso; exact (total a Ep)].
      destruct (acc w a) eqn:Ea.
      + inversion H; subst. split; auto.
      + apply IH in H; auto. apply Q.le_max_r.
    - inversion H; subst. split; auto. right. split.
      + apply Qnot_le_lt. intro L. apply Qle_bool_iff in L. congruence.
      + destruct t' as [[b c]|]; auto.
  Qed.

End GsProofs.

(** termination: every step multiplies by [beta] or stops *)
Lemma gs_loop_fuel beta am eps tg ta tn phi model phi0 d1 : 0 < beta -> beta < 1 -> 0 < eps -> 0 <= am ->
  forall n a p t, 0 < a -> a * qpow beta n < am + eps ->
  gs_loop beta am eps tg ta tn phi model phi0 d1 (S (S n)) a p t <> NoFuel.
Proof.
  intros Hb Hb1 He Hm. induction n as [|n IH]; intros a p t Ha H.
  - cbn [gs_loop]. simpl in H.
    destruct (Qle_bool (am + eps) a) eqn:E; [|discriminate]. apply Qle_bool_iff in E. lra.
  - remember (S (S n)) as m eqn:Em. cbn [gs_loop].
    destruct (Qle_bool (am + eps) a) eqn:E; [|discriminate]. cbn [negb].
    assert (K : a * beta * qpow beta n < am + eps).
    { simpl in H. setoid_replace (a * beta * qpow beta n) with (a * (qpow beta n * beta)) by ring. auto. }
    assert (Hab : 0 < a * beta) by nra.
    destruct (phi a) as [v|]; [destruct (gs_accept _ _ _ _ _ _ _ _); [discriminate|]|].
    + destruct (Q.max_spec (a * beta) am) as [[L M]|[L M]].
      * (* clamped: leaves at once *)
        subst m. cbn [gs_loop].
        assert (E2 : Qle_bool (am + eps) (Qmax (a * beta) am) = false).
        { destruct (Qle_bool (am + eps) (Qmax (a * beta) am)) eqn:E2; auto.
          apply Qle_bool_iff in E2. lra. }
        rewrite E2. discriminate.
      * subst m. apply IH; [lra|]. rewrite M. exact K.
    + subst m. apply IH; auto.
Qed.

Lemma goldstein_terminates beta am eps tg ta tn phi model phi0 d1 :
  0 < beta -> beta < 1 -> 0 < eps -> 0 <= am ->
  exists N, forall fuel, (N <= fuel)%nat -> goldstein beta am eps tg ta tn phi model phi0 d1 fuel <> NoFuel.
Proof.
  intros Hb Hb1 He Hm. destruct (qpow_small beta (eps * (1#2)) Hb Hb1) as [n Hn]; [lra|].
  exists (S (S n)). intros fuel Hf. destruct fuel as [|[|k]]; try lia.
  apply gs_loop_fuel; auto; [lra|]. specialize (Hn k ltac:(lia)). lra.
Qed.

(** ** Newton-Raphson *)
Section NrProofs.
  Variables X V D : Type.
  Variable func : X -> V.
  Variable nrm : V -> option Q.
  Variable dir : X -> V -> D.
  Variable move : X -> Q -> D -> X.
  Variables eps alpha_min ls_beta c1 : Q.
  Notation search := (nr_search X V D func nrm move alpha_min ls_beta c1).
  Notation loop := (nr_loop X V D func nrm dir move eps alpha_min ls_beta c1).

  Definition nr_ok (s : nr X V) : Prop := err s = nrm (func (xout s)).
  (** an iterate and its successor: unchanged, or moved along the direction
      with a residual smaller by the factor 1-c1 *)
  Definition nr_step (dx : D) (s s' : nr X V) : Prop :=
    (xout s' = xout s /\ err s' = err s) \/
    exists alpha e e', alpha_min < alpha /\ alpha <= 1 /\ xout s' = move (xout s) alpha dx /\
      err s = Some e /\ err s' = Some e' /\ e' <= (1 - c1) * e.

  Lemma nr_search_spec fuel : forall s dx alpha s',
    0 < ls_beta -> ls_beta <= 1 -> 0 <= alpha_min -> alpha <= 1 ->
    nr_ok s -> search fuel s dx alpha = Some s' -> nr_ok s' /\ nr_step dx s s'.
  Proof.
    induction fuel as [|n IH]; intros s dx a s' Hb Hb1 Hm Ha Hok H; simpl in H; [discriminate|].
    destruct (Qle_bool a alpha_min) eqn:E; simpl in H.
    - inversion H; subst. split; auto. left; auto.
    - assert (E' : alpha_min < a).
      { apply Qnot_le_lt. intro L. apply Qle_bool_iff in L. congruence. }
      destruct (le_nan _ _) eqn:L.
      + inversion H; subst. split; [reflexivity|]. right.
        unfold le_nan in L. destruct (nrm _) as [e'|] eqn:E1; [|discriminate].
        destruct (err s) as [e|] eqn:E2; simpl in L; [|discriminate].
        apply Qle_bool_iff in L. exists a, e, e'. simpl. auto 10.
      + apply IH in H; auto. nra.
  Qed.

  Fixpoint chain (l : list (nr X V)) : Prop :=
    match l with s :: ((s' :: _) as r) => nr_step (dir (xout s) (f0 s)) s s' /\ chain r | _ => True end.

  Lemma nr_loop_spec fuel n : forall s b r tr,
    0 < ls_beta -> ls_beta <= 1 -> 0 <= alpha_min ->
    nr_ok s -> loop fuel n s = Some (b, r, tr) ->
    nr_ok r /\ (b = true <-> le_nan (err r) (Some eps) = true) /\
    (length tr <= S n)%nat /\ (b = false -> length tr = S n) /\
    chain tr /\ (exists tl, tr = s :: tl) /\ exists l, tr = l ++ [r].
  Proof.
    induction n as [|n IH]; intros s b r tr Hb Hb1 Hm Hok H; cbn [nr_loop] in H;
      destruct (le_nan (err s) (Some eps)) eqn:E.
    - inversion H; subst. rewrite E. simpl. repeat split; auto; try discriminate; exists []; auto.
    - inversion H; subst. rewrite E. simpl. repeat split; auto; try discriminate; exists []; auto.
    - inversion H; subst. rewrite E. simpl. repeat split; auto; try discriminate; try lia; exists []; auto.
    - destruct (search fuel s _ 1) as [s'|] eqn:Es; [|discriminate].
      apply nr_search_spec in Es; auto; [|lra]. destruct Es as [Hok' Hst].
      destruct (loop fuel n s') as [[[b' r'] tr']|] eqn:El; [|discriminate].
      simpl in H. inversion H; subst.
      destruct (IH s' b r tr' Hb Hb1 Hm Hok' El) as (A & B & C & D' & G & [tl F] & l & I).
      subst tr'. split; auto. split; auto. simpl in *. split; [lia|].
      split; [intros; rewrite D'; auto|]. split; auto. split; eauto.
      exists (s :: l). rewrite I. reflexivity.
  Qed.

  Lemma nr_search_fuel : forall n s dx a, 0 < ls_beta -> 0 < a ->
    a * qpow ls_beta n <= alpha_min -> search (S n) s dx a <> None.
  Proof.
    induction n as [|n IH]; intros s dx a Hb Ha H.
    - cbn [nr_search]. simpl in H. assert (E : Qle_bool a alpha_min = true)
        by (apply Qle_bool_iff; lra). rewrite E. discriminate.
    - remember (S n) as m eqn:Em. cbn [nr_search].
      destruct (negb _); [|discriminate]. destruct (le_nan _ _); [discriminate|].
      subst m. apply IH; auto; [nra|]. simpl in H.
      setoid_replace (a * ls_beta * qpow ls_beta n) with (a * (qpow ls_beta n * ls_beta)) by ring.
      auto.
  Qed.
  Lemma nr_terminates max_iters xinit : 0 < ls_beta -> ls_beta < 1 -> 0 < alpha_min ->
    exists N, forall fuel, (N <= fuel)%nat ->
      nr_run X V D func nrm dir move eps alpha_min ls_beta c1 fuel max_iters xinit <> None.
  Proof.
    intros Hb H1 Hm. destruct (qpow_small ls_beta alpha_min Hb H1 Hm) as [n Hn].
    exists (S n). intros fuel Hf. unfold nr_run.
    generalize (Nr xinit (func xinit) (nrm (func xinit))).
    destruct fuel as [|k]; [lia|].
    induction max_iters as [|i IH]; intros s; cbn [nr_loop];
      destruct (le_nan _ _); try discriminate.
    destruct (search (S k) s _ 1) as [s'|] eqn:E.
    - specialize (IH s'). destruct (loop (S k) i s') as [[[? ?] ?]|]; [discriminate|congruence].
    - exfalso. revert E. apply nr_search_fuel; auto; [lra|].
      specialize (Hn k ltac:(lia)). lra.
  Qed.
End NrProofs.

