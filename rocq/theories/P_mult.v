(** C17: multiplier estimates and primal infeasibility. *)
From Coq Require Import Reals List Lra Lia Bool Arith.
From Verif Require Import CSetModel CSetSpec CSetProofs MultModel.
Import ListNotations.
Local Open Scope R_scope.

(** ** Specification *)

(** [v] belongs to the normal cone of the set at [c], coordinate by coordinate. *)
Definition normal_cone (ks : list kind) (c v : list R) : Prop :=
  length v = length ks /\ length c = length ks /\
  forall i, (i < length ks)%nat -> normal_at (nth i ks KFree) (nth i c 0) (nth i v 0).

Definition bounded (e : R) (v : list R) : Prop := Forall (fun x => Rabs x <= e) v.

(** Data of a stage fit together, with closed sets only. *)
Definition well_formed (s : stage_in) (ks : list kind) : Prop :=
  let n := length (concat (i_values s)) in
  layout (i_set s) n = Some ks /\ Forall is_set ks /\
  length (i_vprev s) = n /\ length (i_v s) = n /\ length (i_vbuf s) = n /\
  length (i_abuf s) = n.

(** ** Lists *)
Lemma zip_nth {A B C} (f : A -> B -> C) l l' i da db dc :
  (i < length l)%nat -> (i < length l')%nat ->
  nth i (zip_with f l l') dc = f (nth i l da) (nth i l' db).
Proof.
  revert l' i. induction l as [|a l IH]; intros [|b l'] [|i] H H'; simpl in *;
    try lia; auto. apply IH; lia.
Qed.

Lemma vscale_nth a v i : nth i (vscale a v) 0 = a * nth i v 0.
Proof.
  unfold vscale. rewrite <- (Rmult_0_r a) at 1. apply map_nth.
Qed.

Lemma foldmax_le l : forall a e, fold_left Rmax l a <= e <-> a <= e /\ Forall (fun x => x <= e) l.
Proof.
  induction l as [|x l IH]; intros a e; simpl.
  - split; [split; auto|tauto].
  - rewrite IH. split.
    + intros [H1 H2]. pose proof (Rmax_l a x). pose proof (Rmax_r a x).
      repeat split; [lra|constructor; auto; lra].
    + intros [H1 H2]. inversion H2; subst. split; auto. now apply Rmax_lub.
Qed.

Lemma infty_norm_le v e : 0 <= e -> (infty_norm v <= e <-> bounded e v).
Proof.
  intros He. unfold infty_norm, bounded. rewrite foldmax_le, Forall_map. tauto.
Qed.

Lemma infty_norms_le vs e : 0 <= e ->
  (infty_norms vs <= e <-> Forall (bounded e) vs).
Proof.
  intros He. unfold infty_norms. rewrite foldmax_le, Forall_map. split.
  - intros [_ H]. eapply Forall_impl; [|exact H]. intros v. now apply infty_norm_le.
  - intros H. split; auto. eapply Forall_impl; [|exact H]. intros v.
    now apply infty_norm_le.
Qed.

(** ** One stage *)
Definition estimate (mu : R) (s : stage_in) (ks : list kind) (o : stage_out)
  (p : list R) : Prop :=
  let c := concat (i_values s) in
  length (o_vplus o) = length c /\ length (o_Lv o) = length c /\
  length (o_infeas o) = length c /\ length p = length c /\
  in_set ks p /\ normal_cone ks p (o_vplus o) /\
  forall i, (i < length c)%nat ->
    nth i p 0 + mu * nth i (o_vplus o) 0 = nth i c 0 + mu * nth i (i_vprev s) 0 /\
    nth i (o_infeas o) 0 = nth i c 0 - nth i p 0 /\
    nth i (o_Lv o) 0 = mu * (nth i (o_vplus o) 0 - nth i (i_v s) 0).

Lemma stage_estimate mu s ks : 0 < mu -> well_formed s ks ->
  exists o p, stage_mult mu s = Some o /\ estimate mu s ks o p.
Proof.
  intros Hmu (Hk & Hs & L1 & L2 & L3 & L4). unfold stage_mult.
  set (c := concat (i_values s)) in *. set (n := length c) in *.
  rewrite (same_len_true c (i_vprev s)), (same_len_true c (i_v s)) by (unfold n in *; lia).
  simpl negb. cbn iota.
  set (z := vplus' c (vscale mu (i_vprev s))).
  assert (Lv : length (vscale mu (i_vprev s)) = n).
  { unfold vscale. now rewrite map_length. }
  assert (Lz : length z = n).
  { unfold z, vplus'. rewrite zip_with_length; auto. }
  assert (Lk := layout_length _ _ _ Hk). assert (Hc := is_set_covered ks Hs).
  rewrite (ncp_eq _ n ks) by auto. rewrite (active_eq _ n ks) by auto.
  assert (Lw : length (vncp ks z) = n).
  { unfold vncp. rewrite zip_with_length; congruence. }
  assert (Lp : length (vproj ks z) = n).
  { unfold vproj. rewrite zip_with_length; congruence. }
  eexists. exists (vproj ks z). split; [reflexivity|].
  unfold estimate. fold c. fold n. cbn [o_vplus o_Lv o_infeas o_shifted o_active].
  assert (Lvp : length (vscale (1 / mu) (vncp ks z)) = n).
  { unfold vscale. now rewrite map_length. }
  assert (Lvv : length (vscale mu (i_v s)) = n).
  { unfold vscale. now rewrite map_length. }
  assert (Zn : forall i, (i < n)%nat -> nth i z 0 = nth i c 0 + mu * nth i (i_vprev s) 0).
  { intros i Hi. unfold z, vplus'. rewrite (zip_nth _ _ _ _ 0 0) by (unfold n in *; lia).
    now rewrite vscale_nth. }
  assert (Wn : forall i, (i < n)%nat -> nth i (vncp ks z) 0 = sncp (nth i ks KFree) (nth i z 0)).
  { intros i Hi. unfold vncp. apply zip_nth; lia. }
  assert (Pn : forall i, (i < n)%nat -> nth i (vproj ks z) 0 = sproj (nth i ks KFree) (nth i z 0)).
  { intros i Hi. unfold vproj. apply zip_nth; lia. }
  assert (Sn : forall i, (i < n)%nat -> is_set (nth i ks KFree)).
  { intros i Hi. rewrite Forall_forall in Hs. apply Hs. apply nth_In. lia. }
  assert (Cn : forall i, (i < n)%nat -> nth i ks KFree <> KFree).
  { intros i Hi E. specialize (Sn i Hi). rewrite E in Sn. exact Sn. }
  split; [exact Lvp|]. split.
  { unfold vminus. rewrite zip_with_length; congruence. }
  split.
  { unfold vscale at 1, vminus. rewrite map_length, zip_with_length; congruence. }
  split; [exact Lp|]. split; [apply vproj_in; congruence|]. split.
  { split; [congruence|]. split; [congruence|]. intros i Hi. rewrite Lk in Hi.
    rewrite vscale_nth, Wn, Pn by auto. intros y Hy.
    assert (N := sncp_normal _ (nth i z 0) (Sn i Hi) y Hy).
    assert (0 < 1 / mu) by (apply Rdiv_lt_0_compat; lra). nra. }
  intros i Hi. assert (Sp := sproj_ncp _ (nth i z 0) (Cn i Hi)).
  rewrite <- Wn, <- Pn in Sp by auto. rewrite Zn in Sp by auto.
  rewrite !vscale_nth. unfold vminus. rewrite !(zip_nth _ _ _ _ 0 0) by lia.
  rewrite !vscale_nth.
  assert (M : mu * (1 / mu) = 1) by (field; lra).
  repeat split.
  - replace (mu * (1 / mu * nth i (vncp ks z) 0))
      with (mu * (1 / mu) * nth i (vncp ks z) 0) by ring.
    rewrite M. lra.
  - replace (mu * (1 / mu * nth i (vncp ks z) 0 - nth i (i_vprev s) 0))
      with (mu * (1 / mu) * nth i (vncp ks z) 0 - mu * nth i (i_vprev s) 0) by ring.
    rewrite M. lra.
  - replace (mu * (1 / mu * nth i (vncp ks z) 0 - nth i (i_v s) 0))
      with (mu * (1 / mu) * nth i (vncp ks z) 0 - mu * nth i (i_v s) 0) by ring.
    rewrite M. lra.
Qed.

(** C17, estimates: for sets (no penalty), the new multiplier of every stage is in
    the normal cone of the set at a point [p] of the set; inequality multipliers
    are non-negative, and zero where the shifted constraint is strictly
    satisfied; the infeasibility is the distance from the constraint value
    to [p], coordinate by coordinate. *)
Theorem C17_estimate : forall mu s ks, 0 < mu -> well_formed s ks ->
  exists o p, stage_mult mu s = Some o /\ estimate mu s ks o p /\
    forall i, (i < length ks)%nat -> nth i ks KFree = KNeg ->
      0 <= nth i (o_vplus o) 0 /\
      (nth i (concat (i_values s)) 0 + mu * nth i (i_vprev s) 0 < 0 ->
       nth i (o_vplus o) 0 = 0).
Proof.
  intros mu s ks Hmu Hw. destruct (stage_estimate mu s ks Hmu Hw) as (o & p & E & H).
  exists o, p. split; auto. split; auto. intros i Hi Ki.
  destruct H as (L1 & L2 & L3 & L4 & Hp & (La & Lb & Hn) & Hi').
  specialize (Hn i Hi). rewrite Ki in Hn. unfold normal_at in Hn. simpl in Hn.
  assert (Pi : nth i p 0 <= 0).
  { clear - Hp Hi Ki. revert i Hi Ki. induction Hp as [|k a ks p Hka Hp IH];
      intros [|i] Hi Ki; simpl in *; try lia.
    - rewrite Ki in Hka. exact Hka.
    - apply IH; auto. lia. }
  specialize (Hi' i). assert (Hc : (i < length (concat (i_values s)))%nat) by lia.
  destruct (Hi' Hc) as (A & _ & _).
  assert (V : 0 <= nth i (o_vplus o) 0).
  { assert (X := Hn (nth i p 0 - 1)). lra. }
  split; auto. intros Hneg.
  assert (X := Hn 0 (Rle_refl 0)).
  destruct (Req_dec (nth i p 0) 0) as [Z|Z].
  - rewrite Z in A. nra.
  - nra.
Qed.

(** ** The whole trajectory *)
Lemma stages_estimate mu l kss : 0 < mu -> Forall2 well_formed l kss ->
  exists os ps, stages_mult mu l = Some os /\ length os = length l /\
    length ps = length l /\
    forall i, (i < length l)%nat -> exists s ks o p,
      nth_error l i = Some s /\ nth_error kss i = Some ks /\
      nth_error os i = Some o /\ nth_error ps i = Some p /\ estimate mu s ks o p.
Proof.
  intros Hmu H. induction H as [|s ks l kss Hs Hl IH].
  - exists [], []. repeat split; auto. intros i Hi. simpl in Hi. lia.
  - destruct IH as (os & ps & E & L & L' & G).
    destruct (stage_estimate mu s ks Hmu Hs) as (o & p & E0 & H0).
    exists (o :: os), (p :: ps). simpl. rewrite E0, E. repeat split; simpl; auto.
    intros [|i] Hi; simpl in *.
    + exists s, ks, o, p. auto.
    + apply G. lia.
Qed.

(** C17, certificate: the primal infeasibility is at most [e] exactly when all
    dynamics errors are, and every constraint value is within [e] of a point of
    its set at which the new multiplier is in the normal cone.  (Such a point is
    unique: it is determined by the third clause.) *)
Theorem C17_infeasibility : forall mu lam0 gap0 lams gaps l kss e,
  0 < mu -> 0 <= e -> Forall2 well_formed l kss ->
  exists out, computeMultipliers mu lam0 gap0 lams gaps l = Some out /\
    length (m_stages out) = length l /\
    (m_prim_infeas out <= e <->
       bounded e gap0 /\ Forall (bounded e) gaps /\
       forall i s ks o, nth_error l i = Some s -> nth_error kss i = Some ks ->
         nth_error (m_stages out) i = Some o ->
         let c := concat (i_values s) in
         exists p, in_set ks p /\ normal_cone ks p (o_vplus o) /\
           (forall j, (j < length c)%nat ->
              nth j p 0 + mu * nth j (o_vplus o) 0 = nth j c 0 + mu * nth j (i_vprev s) 0) /\
           forall j, (j < length c)%nat -> Rabs (nth j c 0 - nth j p 0) <= e).
Proof.
  intros mu lam0 gap0 lams gaps l kss e Hmu He Hw.
  destruct (stages_estimate mu l kss Hmu Hw) as (os & ps & E & L & L' & G).
  unfold computeMultipliers. rewrite E. eexists. split; [reflexivity|].
  cbn [m_stages m_prim_infeas]. split; auto.
  assert (Q : forall a b, Rmax a b <= e <-> a <= e /\ b <= e).
  { intros a b. split.
    - intros H. pose proof (Rmax_l a b). pose proof (Rmax_r a b). lra.
    - intros [H1 H2]. now apply Rmax_lub. }
  rewrite Q, !infty_norms_le by auto. rewrite Forall_map. split.
  - intros [H1 H2]. inversion H2; subst. repeat split; auto.
    intros i s ks o Hs Hk Ho. assert (Hi : (i < length l)%nat) by (apply nth_error_Some; congruence).
    destruct (G i Hi) as (s' & ks' & o' & p & A & B & C & D & F).
    rewrite Hs in A. injection A as <-. rewrite Hk in B. injection B as <-.
    rewrite Ho in C. injection C as <-.
    destruct F as (F1 & F2 & F3 & F4 & F5 & F6 & F7). exists p.
    split; auto. split; auto. split; [intros j Hj; now apply F7|].
    intros j Hj. destruct (F7 j Hj) as (_ & F8 & _). rewrite <- F8.
    rewrite Forall_forall in H1. specialize (H1 o (nth_error_In _ _ Ho)).
    unfold bounded in H1. rewrite Forall_forall in H1. apply H1. apply nth_In. lia.
  - intros (H1 & H2 & H3). split; [|now constructor].
    apply Forall_forall. intros o Ho. apply In_nth_error in Ho. destruct Ho as (i & Ho).
    assert (Hi : (i < length l)%nat).
    { rewrite <- L. apply nth_error_Some. congruence. }
    destruct (G i Hi) as (s & ks & o' & p & A & B & C & D & F).
    rewrite Ho in C. injection C as <-.
    destruct (H3 i s ks o A B Ho) as (p' & P1 & P2 & P3 & P4).
    destruct F as (F1 & F2 & F3 & F4 & F5 & F6 & F7).
    unfold bounded. apply Forall_forall. intros x Hx.
    apply (In_nth _ _ 0) in Hx. destruct Hx as (j & Hj & <-). rewrite F3 in Hj.
    destruct (F7 j Hj) as (F8 & F9 & _). rewrite F9.
    replace (nth j p 0) with (nth j p' 0). { now apply P4. }
    specialize (P3 j Hj). lra.
Qed.

(** C17, fixed points: the infeasibility is zero exactly when the initial
    condition and the dynamics hold, every constraint is in its set and the
    previous multipliers are in the normal cone there (complementarity); then
    the estimates are the previous multipliers. *)
Theorem C17_zero : forall mu lam0 gap0 lams gaps l kss,
  0 < mu -> Forall2 well_formed l kss ->
  exists out, computeMultipliers mu lam0 gap0 lams gaps l = Some out /\
    (m_prim_infeas out <= 0 <->
       Forall (fun x => x = 0) gap0 /\ Forall (Forall (fun x => x = 0)) gaps /\
       forall i s ks, nth_error l i = Some s -> nth_error kss i = Some ks ->
         in_set ks (concat (i_values s)) /\
         normal_cone ks (concat (i_values s)) (i_vprev s)) /\
    (m_prim_infeas out <= 0 -> forall i s o,
       nth_error l i = Some s -> nth_error (m_stages out) i = Some o ->
       o_vplus o = i_vprev s).
Proof.
  intros mu lam0 gap0 lams gaps l kss Hmu Hw.
  destruct (C17_infeasibility mu lam0 gap0 lams gaps l kss 0 Hmu (Rle_refl 0) Hw)
    as (out & E & L & H).
  exists out. split; auto.
  assert (B0 : forall v, bounded 0 v <-> Forall (fun x => x = 0) v).
  { intros v. unfold bounded. split; apply Forall_impl; intros x Hx.
    - pose proof (Rabs_pos x). destruct (Req_dec x 0); auto.
      pose proof (Rabs_pos_lt x H1). lra.
    - subst. rewrite Rabs_R0. lra. }
  assert (W : forall i s ks, nth_error l i = Some s -> nth_error kss i = Some ks ->
     well_formed s ks).
  { clear - Hw. induction Hw; intros [|i] s ks A B; simpl in *; try discriminate.
    - injection A as <-. injection B as <-. auto.
    - eapply IHHw; eauto. }
  assert (LK : length kss = length l) by (clear - Hw; induction Hw; simpl; auto).
  assert (Eq : forall i s ks o, nth_error l i = Some s -> nth_error kss i = Some ks ->
     nth_error (m_stages out) i = Some o ->
     length (o_vplus o) = length (concat (i_values s))).
  { intros i s ks o A B C. destruct (stages_estimate mu l kss Hmu Hw)
      as (os & ps & E1 & L1 & L2 & G).
    unfold computeMultipliers in E. rewrite E1 in E. injection E as <-. simpl in C.
    destruct (G i) as (s' & ks' & o' & p & A' & B' & C' & D' & F).
    { apply nth_error_Some. congruence. }
    rewrite A in A'. injection A' as <-. rewrite C in C'. injection C' as <-. apply F. }
  assert (Pt : m_prim_infeas out <= 0 -> forall i s ks o,
     nth_error l i = Some s -> nth_error kss i = Some ks ->
     nth_error (m_stages out) i = Some o ->
     o_vplus o = i_vprev s /\ in_set ks (concat (i_values s)) /\
     normal_cone ks (concat (i_values s)) (i_vprev s)).
  { intros Hz i s ks o A B C. apply H in Hz. destruct Hz as (_ & _ & H3).
    destruct (H3 i s ks o A B C) as (p & P1 & P2 & P3 & P4).
    destruct (W i s ks A B) as (Hk & Hs & L1 & L2 & L3 & L4).
    assert (Lp : length p = length (concat (i_values s))).
    { rewrite <- (layout_length _ _ _ Hk). now apply P2. }
    assert (Pc : p = concat (i_values s)).
    { apply (nth_ext _ _ 0 0); auto. intros j Hj. rewrite Lp in Hj.
      specialize (P4 j Hj). pose proof (Rabs_pos (nth j (concat (i_values s)) 0 - nth j p 0)).
      destruct (Req_dec (nth j (concat (i_values s)) 0 - nth j p 0) 0); [lra|].
      pose proof (Rabs_pos_lt _ H1). lra. }
    assert (Vc : o_vplus o = i_vprev s).
    { apply (nth_ext _ _ 0 0).
      - rewrite L1. eapply Eq; eauto.
      - intros j Hj. rewrite (Eq i s ks o A B C) in Hj. specialize (P3 j Hj).
        rewrite Pc in P3. apply (Rmult_eq_reg_l mu); lra. }
    rewrite <- Vc, <- Pc. auto. }
  split.
  - split.
    + intros Hz. assert (Hz' := Hz). apply H in Hz. destruct Hz as (H1 & H2 & H3).
      split; [now apply B0|]. split.
      { eapply Forall_impl; [|exact H2]. intros v. apply B0. }
      intros i s ks A B. destruct (nth_error (m_stages out) i) as [o|] eqn:C.
      * destruct (Pt Hz' i s ks o A B C) as (_ & P). exact P.
      * apply nth_error_None in C. assert ((i < length l)%nat); [|lia].
        apply nth_error_Some. congruence.
    + intros (H1 & H2 & H3). apply H. split; [now apply B0|]. split.
      { eapply Forall_impl; [|exact H2]. intros v. apply B0. }
      intros i s ks o A B C. destruct (H3 i s ks A B) as (Hin & Hn).
      destruct (W i s ks A B) as (Hk & Hs & L1 & L2 & L3 & L4).
      (* the projection of the shifted value is the value itself *)
      destruct (stages_estimate mu l kss Hmu Hw) as (os & ps & E1 & L1' & L2' & G).
      unfold computeMultipliers in E. rewrite E1 in E. injection E as <-. simpl in C.
      destruct (G i) as (s' & ks' & o' & p & A' & B' & C' & D' & F).
      { apply nth_error_Some. congruence. }
      rewrite A in A'. injection A' as <-. rewrite B in B'. injection B' as <-.
      rewrite C in C'. injection C' as <-.
      destruct F as (F1 & F2 & F3 & F4 & F5 & F6 & F7). exists p.
      split; auto. split; auto. split; [intros j Hj; now apply F7|].
      intros j Hj. destruct (F7 j Hj) as (F8 & _ & _).
      assert (Lks := layout_length _ _ _ Hk).
      destruct F6 as (_ & _ & F6). destruct Hn as (_ & _ & Hn).
      assert (Dp : dom (nth j ks KFree) (nth j p 0) /\
                   dom (nth j ks KFree) (nth j (concat (i_values s)) 0)).
      { assert (Dn : forall y, in_set ks y -> (j < length ks)%nat ->
           dom (nth j ks KFree) (nth j y 0)).
        { intros y Hy. clear - Hy. revert j. induction Hy as [|k a ks y Hka Hy IH];
            intros [|j] Hj; simpl in *; try lia; auto. apply IH. lia. }
        split; apply Dn; auto; lia. }
      destruct Dp as [D1 D2].
      assert (X1 := F6 j ltac:(lia) _ D2). assert (X2 := Hn j ltac:(lia) _ D1).
      (* mu (v+ - v) = c - p; monotonicity gives c = p *)
      set (cj := nth j (concat (i_values s)) 0) in *. set (pj := nth j p 0) in *.
      set (vj := nth j (i_vprev s) 0) in *. set (wj := nth j (o_vplus o) 0) in *.
      assert (cj - pj = 0); [|replace (cj - pj) with 0; rewrite Rabs_R0; lra].
      assert (Sq : (cj - pj) * (cj - pj) <= 0).
      { replace ((cj - pj) * (cj - pj)) with (mu * (wj - vj) * (cj - pj)).
        - replace (mu * (wj - vj) * (cj - pj)) with (mu * ((wj - vj) * (cj - pj))) by ring.
          assert ((wj - vj) * (cj - pj) <= 0) by nra. nra.
        - f_equal. lra. }
      nra.
  - intros Hz i s o A C. destruct (nth_error kss i) as [ks|] eqn:B.
    + now destruct (Pt Hz i s ks o A B C).
    + apply nth_error_None in B. assert ((i < length l)%nat); [|lia].
      apply nth_error_Some. congruence.
Qed.

(** The co-states: lambda + gap / mu (0.1 mu for the dynamics). *)
Theorem C17_costates : forall mu lam0 gap0 lams gaps l out,
  computeMultipliers mu lam0 gap0 lams gaps l = Some out -> 0 < mu ->
  length lam0 = length gap0 -> length lams = length gaps ->
  length (m_lams out) = S (length lams) /\
  (forall j, (j < length gap0)%nat ->
     mu * (nth j (nth 0 (m_lams out) []) 0 - nth j lam0 0) = nth j gap0 0) /\
  (forall i j, (i < length gaps)%nat -> (j < length (nth i gaps []))%nat ->
     length (nth i lams []) = length (nth i gaps []) ->
     mu / 10 * (nth j (nth (S i) (m_lams out) []) 0 - nth j (nth i lams []) 0) =
     nth j (nth i gaps []) 0).
Proof.
  intros mu lam0 gap0 lams gaps l out E Hmu L0 L1. unfold computeMultipliers in E.
  destruct (stages_mult mu l); [|discriminate]. injection E as <-. cbn [m_lams].
  assert (Mp : forall m v j, nth j (map (fun x => x / m) v) 0 = nth j v 0 / m).
  { intros m v j. rewrite <- (map_nth (fun x => x / m)). f_equal. unfold Rdiv. ring. }
  split; [|split].
  - simpl. f_equal. unfold lams_plus. now rewrite zip_with_length.
  - intros j Hj. cbn [nth]. unfold vplus'. rewrite (zip_nth _ _ _ _ 0 0);
      [|lia|now rewrite map_length].
    rewrite Mp. field. lra.
  - intros i j Hi Hj Hl. cbn [nth]. unfold lams_plus.
    rewrite (zip_nth _ _ _ _ [] []) by lia. unfold vplus'.
    rewrite (zip_nth _ _ _ _ 0 0); [|lia|now rewrite map_length].
    rewrite Mp. unfold mu_dyn. field. lra.
Qed.

(** Refuted for the L1 penalty: its proximal parameter is never set by the solver
    (it stays 0), and the estimates are zero for every value, penalty parameter
    and multiplier; zero is not a subgradient of the penalty at a non-zero
    value. *)
Theorem C17_l1_refuted : forall mu c v, 0 < mu ->
  exists o, stage_mult mu {| i_set := SL1 pp_default; i_values := [[c]]; i_vprev := [v];
                            i_v := [v]; i_vbuf := [0]; i_abuf := [false] |} = Some o /\
    o_vplus o = [0] /\
    (c <> 0 -> ~ forall y, Rabs c + 0 * (y - c) <= Rabs y).
Proof.
  intros mu c v Hmu. eexists. split; [reflexivity|]. cbn [o_vplus]. split.
  - simpl. f_equal. rewrite soft_cases by lra.
    destruct (Rlt_dec _ _); [field; lra|]. destruct (Rlt_dec _ _); [field; lra|].
    replace (c + mu * v) with 0 by lra. field. lra.
  - intros Hc H. specialize (H 0). rewrite Rabs_R0 in H. pose proof (Rabs_pos_lt c Hc). lra.
Qed.

Definition ex_stage : stage_in :=
  {| i_set := SProd [SNeg pp_default; SBox [-1] [1] pp_default; SEq pp_default]
                    [2; 1; 1]%nat pp_default;
     i_values := [[-1; 0]; [1]; [0]]; i_vprev := [0; 2; 3; -5]; i_v := [0; 0; 0; 0];
     i_vbuf := [0; 0; 0; 0]; i_abuf := [false; false; false; false] |}.

Example C17_example : exists ks, well_formed ex_stage ks /\
  in_set ks (concat (i_values ex_stage)) /\
  normal_cone ks (concat (i_values ex_stage)) (i_vprev ex_stage).
Proof.
  eexists. split.
  - repeat split; try reflexivity. repeat constructor; simpl; lra.
  - simpl. split.
    + repeat constructor; simpl; lra.
    + split; [reflexivity|]. split; [reflexivity|].
      intros [|[|[|[|i]]]] Hi; simpl; unfold normal_at; simpl; intros y Hy;
        try lra. simpl in Hi. lia.
Qed.

Print Assumptions C17_estimate.
Print Assumptions C17_infeasibility.
Print Assumptions C17_zero.
Print Assumptions C17_costates.
Print Assumptions C17_l1_refuted.
