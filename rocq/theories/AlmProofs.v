From Coq Require Import QArith Qminmax List Bool Arith Lia Lqa.
From Verif Require Import AlmModel.
From Verif Require SearchProofs.
Import ListNotations.
Local Open Scope Q_scope.

Lemma combine_app_same {A B} (l1 l2 : list A) (m1 m2 : list B) : length l1 = length m1 ->
  combine (l1 ++ l2) (m1 ++ m2) = combine l1 m1 ++ combine l2 m2.
Proof.
  revert m1. induction l1 as [|x l1 IH]; intros [|y m1] H; simpl in *; try discriminate; auto.
  f_equal. apply IH. lia.
Qed.

Section AlmProofs.
  Variables X T Rest P C : Type.
  Notation iterate := (iterate X Rest).
  Notation st := (st X Rest P C).
  Variable init_state : X.
  Variable init_res : X -> Q.
  Variable rest_res : Q -> P -> iterate -> option Q.
  Variable dual_of : iterate -> option Q.
  Variable crit_of : st -> option Q.
  Variable ok : st -> bool.
  Variable slope : st -> Q.
  Variable merit_of : st -> Q.
  Variable dx0 : st -> T.
  Variable zero : T.
  Variable integ : X -> Q -> T -> X.
  Variable trial_rest : st -> Q -> Rest.
  Variable ls : st -> list Q * Q * Q.
  Variable new_pv : st -> P.
  Variables pow_pa pow_da pow_pb pow_db : Q -> Q.
  Variable o : opts.
  Variable callbacks : list C.

  Notation fpass := (forward_pass X T Rest P C init_res rest_res dx0 zero integ trial_rest o).
  Notation check := (check X Rest P C dual_of crit_of).
  Notation overall := (overall X Rest P C o).
  Notation stop := (stop X Rest P C o).
  Notation search := (search X T Rest P C init_res rest_res dx0 zero integ trial_rest ls o).
  Notation accept := (accept X Rest P C).
  Notation finish := (finish X Rest P C o callbacks).
  Notation inner_iter := (inner_iter X T Rest P C init_res rest_res dual_of crit_of ok slope dx0 zero
    integ trial_rest ls o callbacks).
  Notation enter := (enter X Rest P C init_res rest_res merit_of).
  Notation inner_loop := (inner_loop X T Rest P C init_res rest_res dual_of crit_of ok slope merit_of
    dx0 zero integ trial_rest ls o callbacks).
  Notation shrink := (shrink_tols X Rest P C pow_pb pow_db).
  Notation after_inner := (after_inner X Rest P C new_pv pow_pa pow_da pow_pb pow_db o).
  Notation on_failure := (on_failure X Rest P C pow_pa pow_da o).
  Notation next_outer := (next_outer X Rest P C o).
  Notation outer := (outer X T Rest P C init_res rest_res dual_of crit_of ok slope merit_of dx0 zero
    integ trial_rest ls new_pv pow_pa pow_da pow_pb pow_db o callbacks).
  Notation start := (start X Rest P C init_state new_pv pow_pa pow_da o).
  Notation run := (run X T Rest P C init_state init_res rest_res dual_of crit_of ok slope merit_of
    dx0 zero integ trial_rest ls new_pv pow_pa pow_da pow_pb pow_db o callbacks).
  Notation init_reg := (init_reg X Rest P C o).
  Notation inc_reg := (inc_reg X Rest P C o).
  Notation measure := (measure X Rest P C rest_res).
  Notation target_dual := (target_dual o).

  (** ** What each step leaves unchanged *)
  Definition frame (s s' : st) : Prop :=
    mu s' = mu s /\ inner_tol s' = inner_tol s /\
    prim_tol s' = prim_tol s /\ al_iter s' = al_iter s /\
    conv s' = conv s /\ pv s' = pv s.
  Lemma frame_refl s : frame s s.
  Proof. repeat split. Qed.
  Lemma frame_trans a b c : frame a b -> frame b c -> frame a c.
  Proof. unfold frame. intuition congruence. Qed.

  (** same loop counters and log *)
  Definition quiet (s s' : st) : Prop :=
    frame s s' /\ num_iters s' = num_iters s /\ log s' = log s.
  Lemma quiet_refl s : quiet s s.
  Proof. split; [apply frame_refl|auto]. Qed.
  Lemma quiet_trans a b c : quiet a b -> quiet b c -> quiet a c.
  Proof.
    intros (A1 & A2 & A3) (B1 & B2 & B3). split; [eapply frame_trans; eauto|].
    split; congruence.
  Qed.

  Lemma quiet_fpass s a : quiet s (fpass s a).
  Proof.
    unfold forward_pass. destruct (rollout_type o); destruct (measure _ _); repeat split.
  Qed.
  Lemma it_fpass s a : it (fpass s a) = it s.
  Proof.
    unfold forward_pass. destruct (rollout_type o); destruct (measure _ _); reflexivity.
  Qed.
  Lemma quiet_check s : quiet s (check s).
  Proof. repeat split. Qed.
  Lemma quiet_init_reg s : quiet s (init_reg s).
  Proof. unfold AlmModel.init_reg. destruct (Qeq_bool _ _); repeat split. Qed.
  Lemma quiet_fold l : forall s, quiet s (fold_left fpass l s) /\
    it (fold_left fpass l s) = it s.
  Proof.
    induction l as [|a l IH]; intros s; simpl; [split; auto; apply quiet_refl|].
    destruct (IH (fpass s a)) as [A B]. split.
    - eapply quiet_trans; [apply quiet_fpass|exact A].
    - rewrite B. apply it_fpass.
  Qed.
  Lemma quiet_accept s v : quiet s (accept s v).
  Proof. repeat split. Qed.
  Lemma finish_fields b s :
    frame s (finish b s) /\ num_iters (finish b s) = S (num_iters s) /\
    log (finish b s) = log s ++ map (fun c => (c, (num_iters s, it s))) callbacks /\
    it (finish b s) = it s /\ prim (finish b s) = prim s /\
    init_val (finish b s) = init_val s.
  Proof.
    unfold AlmModel.finish. destruct b; [unfold AlmModel.inc_reg; destruct (Qeq_bool _ _)|];
      repeat split.
  Qed.
  Lemma quiet_enter s : quiet s (enter s).
  Proof. unfold AlmModel.enter. destruct (measure _ _); repeat split. Qed.
  Lemma it_enter s : it (enter s) = it s.
  Proof. unfold AlmModel.enter. destruct (measure _ _); reflexivity. Qed.

  (** ** Inner loop: bookkeeping *)
  (** the log of [n] iterations numbered from [i]: each iteration, every
      callback once, with the iterate of that iteration *)
  Definition logged (i : nat) (iters : list iterate) : list (C * (nat * iterate)) :=
    concat (map (fun p => map (fun c => (c, p)) callbacks) (combine (seq i (length iters)) iters)).

  Definition res_state (r : inner_result X Rest P C) : st :=
    match r with Returns _ s => s | Raises s => s end.
  (** the only exit with an accepted iterate that is not counted *)
  Definition gave_up (r : inner_result X Rest P C) : Prop :=
    exists s', r = Returns false s' /\ reg_max o <= preg s'.

  Definition inner_post (n : nat) (s : st) (r : inner_result X Rest P C) : Prop :=
    frame s (res_state r) /\
    exists iters, num_iters (res_state r) = (num_iters s + length iters)%nat /\
      (length iters <= n)%nat /\
      log (res_state r) = log s ++ logged (num_iters s) iters /\
      (last iters (it s) = it (res_state r) \/ gave_up r).

  Lemma inner_post_quiet n s r : quiet s (res_state r) ->
    (it (res_state r) = it s \/ gave_up r) -> inner_post n s r.
  Proof.
    intros (A & B & D) E. split; auto. exists []. simpl. unfold logged. simpl.
    rewrite app_nil_r, Nat.add_0_r. repeat split; auto; try lia.
    destruct E; auto.
  Qed.
  Lemma last_cons {A} (l : list A) x d : last (x :: l) d = last l x.
  Proof.
    revert x d. induction l as [|y l IH]; intros x d; auto.
    change (last (x :: y :: l) d) with (last (y :: l) d). now rewrite !IH.
  Qed.

  Ltac quiet_chain :=
    repeat (first [ apply quiet_refl | eassumption
      | eapply quiet_trans; [|apply quiet_accept]
      | eapply quiet_trans; [|apply quiet_init_reg]
      | eapply quiet_trans; [|apply quiet_check] ]).

  Lemma quiet_tick s : quiet s (tick s).
  Proof. repeat split. Qed.
  Lemma quiet_search s : quiet s (search s).
  Proof. unfold AlmModel.search. apply quiet_fold. Qed.

  Lemma it_init_reg s : it (init_reg s) = it s.
  Proof. unfold AlmModel.init_reg. destruct (Qeq_bool _ _); reflexivity. Qed.

  Lemma inner_iter_post n : forall s, inner_post n s (inner_iter n s).
  Proof.
    induction n as [|n IH]; intros s; cbn [AlmModel.inner_iter]; cbv zeta.
    - apply inner_post_quiet; [apply quiet_refl|auto].
    - pose proof (quiet_check s) as Q1.
      pose proof (quiet_trans _ _ _ Q1 (quiet_init_reg _)) as Q2.
      pose proof (quiet_trans _ _ _ Q2 (quiet_tick _)) as Q3.
      pose proof (quiet_trans _ _ _ Q3 (quiet_search _)) as Q4.
      pose proof (it_init_reg (check s)) as I2. change (it (check s)) with (it s) in I2.
      set (s3 := tick (init_reg (check s))) in *.
      assert (I3 : it s3 = it s) by exact I2.
      assert (I4 : it (search s3) = it s)
        by (rewrite <- I3; unfold AlmModel.search; apply quiet_fold).
      pose proof (quiet_trans _ _ _ Q4 (quiet_accept _ (snd (ls s3)))) as Q5.
      set (s5 := accept (search s3) (snd (ls s3))) in *.
      destruct (negb (ok s)); [apply inner_post_quiet; [apply quiet_refl|auto]|].
      destruct (stop _); [apply inner_post_quiet; [exact Q1|left; reflexivity]|].
      destruct (negb (ok (init_reg _))); [apply inner_post_quiet; [exact Q2|left; exact I2]|].
      destruct (Qle_bool (qabs _) _); [apply inner_post_quiet; [exact Q3|left; exact I3]|].
      destruct (negb (ok s3)); [apply inner_post_quiet; [exact Q3|left; exact I3]|].
      destruct (negb (ok (search s3))); [apply inner_post_quiet; [exact Q4|left; exact I4]|].
      destruct (_ && _) eqn:Eg.
      { apply inner_post_quiet; [exact Q5|right]. exists s5. split; auto.
        apply andb_true_iff in Eg. now apply Qle_bool_iff. }
      match goal with |- context [finish ?b s5] => set (bb := b) end.
      destruct (IH (finish bb s5)) as (F & iters & N1 & N2 & N3 & N4).
      destruct (finish_fields bb s5) as (F1 & F2 & F3 & F4 & _).
      destruct Q5 as (F5 & G1 & G2).
      split; [eapply frame_trans; [exact F5|]; eapply frame_trans; [exact F1|exact F]|].
      exists (it s5 :: iters).
      split; [rewrite N1, F2, G1; simpl length; lia|]. split; [simpl length; lia|]. split.
      + rewrite N3, F3, G2, F2, G1. unfold logged. simpl. rewrite <- app_assoc. reflexivity.
      + rewrite last_cons, <- F4. exact N4.
  Qed.

  Lemma inner_loop_post s :
    inner_post (max_iters o - num_iters s) s (inner_loop s).
  Proof.
    unfold AlmModel.inner_loop.
    destruct (negb (ok s)); [apply inner_post_quiet; [apply quiet_refl|auto]|].
    destruct (quiet_enter s) as (F & A & B). pose proof (it_enter s) as I.
    destruct (inner_iter_post (max_iters o - num_iters s) (enter s)) as (F' & iters & N1 & N2 & N3 & N4).
    split; [eapply frame_trans; eauto|]. exists iters.
    rewrite N1, N3, A, B, <- I. auto.
  Qed.

  Lemma inner_returns_post s r : inner_loop s = r ->
    inner_post (max_iters o - num_iters s) s r.
  Proof. intros <-. apply inner_loop_post. Qed.

  (** ** Outer loop *)
  Definition final (r : outcome X Rest P C) : option st :=
    match r with Done _ s => Some s | Threw s => Some s | Diverged => None end.

  Lemma shrink_spec fuel : forall s s', shrink fuel s = Some s' ->
    exists a b, s' = set_tols s a b.
  Proof.
    induction fuel as [|n IH]; intros s s' H; cbn [shrink_tols] in H; [discriminate|].
    destruct (qlt_nan _ _) in H.
    - destruct (IH _ _ H) as (a & b & ->). unfold tols_on_success, set_tols. simpl. eauto.
    - inversion H. unfold tols_on_success. eauto.
  Qed.

  (** fields after a pass of the outer loop *)
  Lemma after_inner_spec fuel s r : after_inner fuel s = Some r ->
    match r with
    | inl s' => overall s = true /\ conv s' = true /\ prim s' = prim s /\
                dual s' = dual s /\ it s' = it s
    | inr s' => conv s' = conv s
    end /\
    let s' := match r with inl s' => s' | inr s' => s' end in
    num_iters s' = num_iters s /\ al_iter s' = al_iter s /\
    log s' = log s /\ it s' = it s.
  Proof.
    unfold AlmModel.after_inner. destruct (Qle_bool _ _).
    - destruct (shrink fuel s) as [s1|] eqn:E; [|discriminate].
      destruct (shrink_spec _ _ _ E) as (a & b & ->).
      destruct (overall _) eqn:O; intros H; inversion H; subst; simpl; auto 10.
    - intros H; inversion H; subst. unfold AlmModel.on_failure.
      destruct (scalar_close _ _); simpl; auto 10.
  Qed.

  Lemma outer_bounds fuel k : forall s r l,
    outer fuel k s = (r, l) -> conv s = false ->
    (num_iters s <= max_iters o)%nat ->
    (length l <= S k)%nat /\
    match r with
    | Done b s' => b = conv s' /\
        (b = true -> exists d, dual s' = Some d /\ d <= target_dual /\
                     prim s' <= target_tol o)
    | Threw s' => conv s' = false
    | Diverged => True
    end /\
    forall s', final r = Some s' ->
      (num_iters s' <= max_iters o)%nat /\
      (al_iter s <= al_iter s' <= al_iter s + k)%nat /\
      exists iters, num_iters s' = (num_iters s + length iters)%nat /\
        log s' = log s ++ logged (num_iters s) iters /\
        (last iters (it s) = it s' \/ (r = Done false s' /\ reg_max o <= preg s')).
  Proof.
    induction k as [|k IH]; intros s r l H Hc Hn; cbn [AlmModel.outer] in H; cbv zeta in H.
    - inversion H; subst; clear H. simpl. split; [lia|]. split; [split; auto; congruence|].
      intros s' E; inversion E; subst. split; auto. split; [lia|].
      exists []. simpl. unfold logged. simpl. rewrite app_nil_r. auto.
    - destruct (Nat.ltb _ _).
      2: { inversion H; subst; clear H. simpl. split; [lia|]. split; [split; auto; congruence|].
           intros s' E; inversion E; subst. split; auto. split; [lia|].
           exists []. simpl. unfold logged. simpl. rewrite app_nil_r. auto. }
      destruct (inner_loop s) as [[|] s1|s1] eqn:Ei.
      + apply inner_returns_post in Ei. destruct Ei as (F & it1 & N1 & N2 & N3 & N4).
        destruct F as (F1 & F2 & F3 & F4 & F5 & F6). cbn [res_state] in *.
        assert (N4' : last it1 (it s) = it s1)
          by (destruct N4 as [|(x & D & _)]; [auto|discriminate]).
        destruct (after_inner fuel s1) as [[s2|s2]|] eqn:Ea.
        * pose proof (after_inner_spec _ _ _ Ea) as ((O & Cv & Pr & Du & It) & A1 & A2 & A3 & _).
          inversion H; subst; clear H. simpl. split; [lia|]. split.
          -- split; auto. intros _. rewrite Du, Pr. unfold AlmModel.overall in O.
             apply andb_true_iff in O. destruct O as [O1 O2]. unfold qle_nan in O1.
             destruct (dual s1) as [d|]; [|discriminate].
             apply Qle_bool_iff in O1, O2. eauto.
          -- intros s' E; inversion E; subst. rewrite A1, A2, A3, N1, N3, F4, It.
             split; [lia|]. split; [lia|]. exists it1. auto.
        * pose proof (after_inner_spec _ _ _ Ea) as (Cv & A1 & A2 & A3 & It).
          destruct (outer fuel k (next_outer s2)) as [r' l'] eqn:Eo.
          simpl in H. inversion H; subst; clear H.
          destruct (IH _ _ _ Eo) as (L1 & L2 & L3).
          { simpl. congruence. }
          { simpl. lia. }
          split; [simpl; lia|]. split; [exact L2|].
          intros s' E. destruct (L3 s' E) as (B1 & B2 & iters & B3 & B4 & B5).
          simpl in B2, B3, B4, B5. split; auto. split; [lia|].
          exists (it1 ++ iters). rewrite app_length. split; [lia|]. split.
          -- rewrite B4, A3, N3, <- app_assoc. f_equal.
             unfold logged. rewrite app_length, seq_app, A1, N1.
             rewrite combine_app_same by (rewrite seq_length; auto).
             rewrite map_app, concat_app. reflexivity.
          -- destruct B5 as [B5|B5]; [left|right; exact B5].
             rewrite <- B5, It, <- N4'. clear. revert it1.
             assert (G : forall l d, last (l ++ iters) d = last iters (last l d)).
             { induction l as [|x l IHl]; intros d; auto.
               rewrite last_cons. simpl app. rewrite last_cons. apply IHl. }
             intros. apply G.
        * inversion H; subst; clear H. simpl. split; [lia|]. split; auto. discriminate.
      + apply inner_returns_post in Ei. destruct Ei as (F & it1 & N1 & N2 & N3 & N4).
        destruct F as (F1 & F2 & F3 & F4 & F5 & F6). cbn [res_state] in *.
        inversion H; subst; clear H. simpl. split; [lia|]. split.
        * split; auto. congruence.
        * intros s' E; inversion E; subst. simpl. rewrite N1, N3, F4. split; [lia|]. split; [lia|].
          exists it1. split; auto. split; auto. destruct N4 as [N4|(x & D & N4)]; [auto|right].
          inversion D; subst. split; auto. now rewrite F5, Hc.
      + apply inner_returns_post in Ei. destruct Ei as (F & it1 & N1 & N2 & N3 & N4).
        destruct F as (F1 & F2 & F3 & F4 & F5 & F6). cbn [res_state] in *.
        inversion H; subst; clear H. simpl. split; [lia|]. split; [congruence|].
        intros s' E; inversion E; subst. rewrite N1, N3, F4. split; [lia|]. split; [lia|].
        exists it1. split; auto. split; auto. destruct N4 as [N4|(x & D & N4)]; [auto|discriminate].
  Qed.

  (** ** Reported residuals are those of the iterate *)
  Section Measured.
    Hypothesis linear : rollout_type o = LINEAR.
    Hypothesis total : forall m p i, rest_res m p i <> None.
    Hypothesis evaluates : forall s, fst (fst (ls s)) <> [].

    (** the stored primal infeasibility is the one of [i] *)
    Definition prim_of (s : st) (i : iterate) : Prop :=
      exists r, rest_res (mu s) (pv s) i = Some r /\ prim s = Qmax (init_res (x0 i)) r.

    Lemma fpass_measured s a : prim_of (fpass s a) (trial (fpass s a)).
    Proof.
      unfold forward_pass. rewrite linear. unfold AlmModel.measure. cbn [mu pv set_init_val set_trial init_val].
      match goal with |- context [rest_res ?m ?p ?i] =>
        destruct (rest_res m p i) as [r|] eqn:E; [|exfalso; exact (total m p i E)] end.
      exists r. split; auto.
    Qed.
    Lemma fold_measured l : l <> [] -> forall s,
      prim_of (fold_left fpass l s) (trial (fold_left fpass l s)).
    Proof.
      induction l as [|a l IH]; intros Hl s; [congruence|]. simpl.
      destruct l as [|b l].
      - apply fpass_measured.
      - apply IH. discriminate.
    Qed.

    Lemma prim_of_quiet s s' i : mu s' = mu s -> pv s' = pv s -> prim s' = prim s ->
      prim_of s i -> prim_of s' i.
    Proof. intros A B D (r & H1 & H2). exists r. rewrite A, B, D. auto. Qed.

    Lemma fields_init_reg s : it (init_reg s) = it s /\ mu (init_reg s) = mu s /\
      pv (init_reg s) = pv s /\ prim (init_reg s) = prim s /\ dual (init_reg s) = dual s /\
      crit (init_reg s) = crit s.
    Proof. unfold AlmModel.init_reg. destruct (Qeq_bool _ _); repeat split. Qed.

    Lemma inner_iter_measured n : forall s s',
      prim_of s (it s) -> inner_iter n s = Returns true s' ->
      prim_of s' (it s') /\ dual s' = dual_of (it s').
    Proof.
      induction n as [|n IH]; intros s s' Hm H; cbn [AlmModel.inner_iter] in H; cbv zeta in H;
        [discriminate|].
      destruct (negb (ok s)); [discriminate|].
      assert (M1 : prim_of (check s) (it (check s))).
      { eapply prim_of_quiet; [| | |exact Hm]; reflexivity. }
      assert (D1 : dual (check s) = dual_of (it (check s))) by reflexivity.
      destruct (stop _); [inversion H; subst; auto|].
      destruct (fields_init_reg (check s)) as (I1 & I2 & I3 & I4 & I5 & I6).
      destruct (negb (ok (init_reg _))); [discriminate|].
      set (s3 := tick (init_reg (check s))) in *.
      assert (M3 : prim_of s3 (it s3) /\ dual s3 = dual_of (it s3)).
      { split.
        - unfold s3. change (it (tick (init_reg (check s)))) with (it (init_reg (check s))).
          rewrite I1. eapply prim_of_quiet; [| | |exact M1]; simpl; auto.
        - unfold s3. change (it (tick (init_reg (check s)))) with (it (init_reg (check s))).
          change (dual (tick (init_reg (check s)))) with (dual (init_reg (check s))).
          rewrite I1, I5. exact D1. }
      destruct (Qle_bool (qabs _) _); [inversion H; subst; auto|].
      destruct (negb (ok s3)); [discriminate|].
      destruct (negb (ok (search s3))); [discriminate|].
      destruct (_ && _); [discriminate|].
      apply IH in H; auto.
      match goal with |- prim_of (finish ?b ?s5) _ =>
        destruct (finish_fields b s5) as ((G1 & _ & _ & _ & _ & G2) & _ & _ & G3 & G4 & _) end.
      rewrite G3. eapply prim_of_quiet; [exact G1|exact G2|exact G4|].
      eapply prim_of_quiet; [| | |exact (fold_measured _ (evaluates s3) s3)]; reflexivity.
    Qed.

    Lemma enter_measured s : prim_of (enter s) (it (enter s)).
    Proof.
      unfold AlmModel.enter, AlmModel.measure. cbn [mu pv set_init_val tick init_val it].
      destruct (rest_res (mu s) (pv s) (it s)) as [r|] eqn:E; [|exfalso; exact (total _ _ _ E)].
      exists r. split; auto.
    Qed.

    Lemma inner_loop_measured s s' : inner_loop s = Returns true s' ->
      prim_of s' (it s') /\ dual s' = dual_of (it s').
    Proof.
      unfold AlmModel.inner_loop. destruct (negb (ok s)); [discriminate|].
      apply inner_iter_measured. apply enter_measured.
    Qed.

    Lemma outer_measured fuel k : forall s r l,
      outer fuel k s = (r, l) -> conv s = false ->
      forall s', r = Done true s' ->
      exists m p q, rest_res m p (it s') = Some q /\
        prim s' = Qmax (init_res (x0 (it s'))) q /\ dual s' = dual_of (it s').
    Proof.
      induction k as [|k IH]; intros s r l H Hc s' Hr; cbn [AlmModel.outer] in H; cbv zeta in H.
      - inversion H; subst. congruence.
      - destruct (Nat.ltb _ _); [|inversion H; subst; congruence].
        destruct (inner_loop s) as [[|] s1|s1] eqn:Ei.
        + pose proof (inner_returns_post _ _ Ei) as ((_ & _ & _ & _ & F5 & _) & _). cbn [res_state] in *.
          apply inner_loop_measured in Ei. destruct Ei as [(q & M1 & M2) D].
          destruct (after_inner fuel s1) as [[s2|s2]|] eqn:Ea.
          * pose proof (after_inner_spec _ _ _ Ea) as ((_ & _ & Pr & Du & It) & _).
            inversion H; subst.
            exists (mu s1), (pv s1), q. clear IH H. intuition congruence.
          * pose proof (after_inner_spec _ _ _ Ea) as (Cv & _).
            destruct (outer fuel k (next_outer s2)) as [r' l'] eqn:Eo.
            simpl in H. inversion H; subst. eapply IH; eauto; simpl; congruence.
          * inversion H; subst; discriminate.
        + pose proof (inner_returns_post _ _ Ei) as ((_ & _ & _ & _ & F5 & _) & _). cbn [res_state] in *.
          inversion H; subst. congruence.
        + inversion H; subst; discriminate.
    Qed.
  End Measured.

  (** ** First state *)
  Section First.
    Hypothesis forced : force_init o = true.
    Hypothesis integ_zero : forall x a, integ x a zero = x.
    Hypothesis evaluates : forall s, fst (fst (ls s)) <> [].

    Lemma fpass_x0 s a : x0 (trial (fpass s a)) = x0 (it s).
    Proof.
      unfold forward_pass. rewrite forced, integ_zero.
      destruct (rollout_type o); destruct (measure _ _); reflexivity.
    Qed.
    Lemma fold_x0 l : l <> [] -> forall s, x0 (trial (fold_left fpass l s)) = x0 (it s).
    Proof.
      induction l as [|a l IH]; intros Hl s; [congruence|]. simpl. destruct l as [|b l].
      - apply fpass_x0.
      - rewrite IH by discriminate. now rewrite it_fpass.
    Qed.
    Lemma inner_iter_x0 n : forall s, x0 (it (res_state (inner_iter n s))) = x0 (it s).
    Proof.
      induction n as [|n IH]; intros s; cbn [AlmModel.inner_iter]; cbv zeta; auto.
      assert (I1 : it (init_reg (check s)) = it s).
      { unfold AlmModel.init_reg. destruct (Qeq_bool _ _); reflexivity. }
      destruct (negb (ok s)); auto. destruct (stop _); auto.
      destruct (negb (ok (init_reg _))); [exact (f_equal (fun i => x0 i) I1)|].
      set (s3 := tick (init_reg (check s))) in *.
      assert (I3 : it s3 = it s) by exact I1.
      destruct (Qle_bool (qabs _) _); [exact (f_equal (fun i => x0 i) I3)|].
      destruct (negb (ok s3)); [exact (f_equal (fun i => x0 i) I3)|].
      assert (I4 : it (search s3) = it s)
        by (rewrite <- I3; unfold AlmModel.search; apply quiet_fold).
      destruct (negb (ok (search s3))); [exact (f_equal (fun i => x0 i) I4)|].
      assert (I5 : x0 (it (accept (search s3) (snd (ls s3)))) = x0 (it s)).
      { rewrite <- I3. change (x0 (trial (search s3)) = x0 (it s3)). unfold AlmModel.search.
        apply fold_x0. apply evaluates. }
      destruct (_ && _); [simpl res_state; exact I5|].
      rewrite IH.
      match goal with |- context [finish ?b ?s5] =>
        destruct (finish_fields b s5) as (_ & _ & _ & G3 & _) end.
      rewrite G3. exact I5.
    Qed.
    Lemma inner_loop_x0 s : x0 (it (res_state (inner_loop s))) = x0 (it s).
    Proof.
      unfold AlmModel.inner_loop. destruct (negb (ok s)); auto.
      rewrite inner_iter_x0, it_enter. reflexivity.
    Qed.
    Lemma outer_x0 fuel k : forall s r l s', outer fuel k s = (r, l) -> final r = Some s' ->
      x0 (it s') = x0 (it s).
    Proof.
      induction k as [|k IH]; intros s r l s' H Hf; cbn [AlmModel.outer] in H; cbv zeta in H.
      - inversion H; subst. now inversion Hf.
      - destruct (Nat.ltb _ _); [|inversion H; subst; now inversion Hf].
        pose proof (inner_loop_x0 s) as K.
        destruct (inner_loop s) as [[|] s1|s1] eqn:Ei; simpl in K.
        + destruct (after_inner fuel s1) as [[s2|s2]|] eqn:Ea.
          * pose proof (after_inner_spec _ _ _ Ea) as ((_ & _ & _ & _ & It) & _).
            inversion H; subst. inversion Hf; subst. congruence.
          * pose proof (after_inner_spec _ _ _ Ea) as (_ & _ & _ & _ & It).
            destruct (outer fuel k (next_outer s2)) as [r' l'] eqn:Eo.
            simpl in H. inversion H; subst. rewrite (IH _ _ _ _ Eo Hf). simpl. congruence.
          * inversion H; subst; discriminate.
        + inversion H; subst. inversion Hf; subst. exact K.
        + inversion H; subst. inversion Hf; subst. exact K.
    Qed.
  End First.

  (** ** Penalty and tolerance schedule *)
  Definition head_ok (s : st) : Prop :=
    mu_lower_bound o <= mu s /\ (1 # 100) * target_dual <= inner_tol s /\
    target_tol o <= prim_tol s.
  (** penalty at the next head of the loop, from the outcome of the inner
      loop started at [s] *)
  Definition mu_next (s s' : st) : Prop :=
    exists s1, inner_loop s = Returns true s1 /\
    (if Qle_bool (prim s1) (prim_tol s1) then mu s' = mu s
     else let m := Qmax (mu s * mu_update_factor o) (mu_lower_bound o) in
          mu s' = if scalar_close m (mu_lower_bound o)
                  then Qmax (mu_init o) (mu_lower_bound o) else m).
  Fixpoint mu_chain (l : list st) : Prop :=
    match l with
    | s :: ((s' :: _) as r) => mu_next s s' /\ mu_chain r
    | _ => True
    end.

  Lemma after_inner_mu fuel s1 s' : after_inner fuel s1 = Some (inr s') ->
    if Qle_bool (prim s1) (prim_tol s1) then mu s' = mu s1
    else let m := Qmax (mu s1 * mu_update_factor o) (mu_lower_bound o) in
         mu s' = if scalar_close m (mu_lower_bound o)
                 then Qmax (mu_init o) (mu_lower_bound o) else m.
  Proof.
    unfold AlmModel.after_inner. destruct (Qle_bool _ _).
    - destruct (shrink fuel s1) as [s2|] eqn:E; [|discriminate].
      destruct (shrink_spec _ _ _ E) as (a & b & ->).
      destruct (overall _); intros H; inversion H; subst; simpl; auto.
    - intros H; inversion H; subst. unfold AlmModel.on_failure.
      match goal with |- context [if scalar_close (mu ?s) ?b then _ else ?s'] =>
        change (scalar_close (mu s) b) with
          (scalar_close (Qmax (mu s1 * mu_update_factor o) (mu_lower_bound o)) (mu_lower_bound o)) end.
      cbv zeta. destruct (scalar_close _ _); reflexivity.
  Qed.
  Lemma mu_rule_lower m m' (b : bool) : mu_lower_bound o <= m ->
    (if b then m' = m
     else let k := Qmax (m * mu_update_factor o) (mu_lower_bound o) in
          m' = if scalar_close k (mu_lower_bound o)
               then Qmax (mu_init o) (mu_lower_bound o) else k) ->
    mu_lower_bound o <= m'.
  Proof.
    intros H. destruct b; [intros ->; exact H|]. cbv zeta.
    destruct (scalar_close _ _); intros ->; apply Q.le_max_r.
  Qed.

  Lemma outer_schedule fuel k : forall s r l, outer fuel k s = (r, l) -> head_ok s ->
    Forall head_ok l /\ mu_chain l /\ exists l', l = s :: l'.
  Proof.
    induction k as [|k IH]; intros s r l H Hs; cbn [AlmModel.outer] in H; cbv zeta in H.
    - inversion H; subst. split; auto. split; simpl; eauto.
    - assert (One : Forall head_ok [s] /\ mu_chain [s] /\ exists l', [s] = s :: l')
        by (split; [auto|split; simpl; eauto]).
      destruct (Nat.ltb _ _); [|inversion H; subst; exact One].
      destruct (inner_loop s) as [[|] s1|s1] eqn:Ei; [|inversion H; subst; exact One..].
      destruct (after_inner fuel s1) as [[s2|s2]|] eqn:Ea; [inversion H; subst; exact One| |inversion H; subst; exact One].
      pose proof (inner_returns_post _ _ Ei) as ((F1 & _) & _). cbn [res_state] in *.
      apply after_inner_mu in Ea. rewrite F1 in Ea.
      destruct (outer fuel k (next_outer s2)) as [r' l'] eqn:Eo. simpl in H.
      inversion H; subst. destruct (IH _ _ _ Eo) as (A & B & l'' & ->).
      + destruct Hs as (H1 & _). split; [simpl; eapply mu_rule_lower; eauto|].
        simpl. split; apply Q.le_max_r.
      + split; [constructor; auto|]. split; [split; auto|eauto].
        exists s1. split; auto.
  Qed.

  (** ** Termination *)
  Section Terminates.
    Hypothesis positive : forall s c, crit_of s = Some c -> 0 < c.
    Hypothesis contracts : forall x, 0 < x -> x <= 99 # 100 -> 0 < pow_db x /\ pow_db x < 1.
    Hypothesis lb_pos : 0 < mu_lower_bound o.

    Lemma inner_iter_crit n : forall s s', inner_iter n s = Returns true s' ->
      exists s0, crit s' = crit_of s0.
    Proof.
      induction n as [|n IH]; intros s s' H; cbn [AlmModel.inner_iter] in H; cbv zeta in H;
        [discriminate|].
      destruct (negb (ok s)); [discriminate|].
      destruct (stop _); [inversion H; subst; simpl; eauto|].
      destruct (negb (ok (init_reg _))); [discriminate|].
      destruct (Qle_bool (qabs _) _).
      { inversion H; subst. simpl. unfold AlmModel.init_reg. destruct (Qeq_bool _ _); simpl; eauto. }
      destruct (negb (ok _)); [discriminate|].
      destruct (negb (ok _)); [discriminate|].
      destruct (_ && _); [discriminate|]. eapply IH; eauto.
    Qed.

    Lemma shrink_fuel n : forall s c, crit s = Some c -> 0 < c ->
      let f := pow_db (Qmin (mu s) (99 # 100)) in 0 < f ->
      inner_tol s * SearchProofs.qpow f n <= c -> inner_tol s * SearchProofs.qpow f (S n) <= c ->
      shrink (S n) s <> None.
    Proof.
      induction n as [|n IH]; intros s c Hc Hp f Hf H0 H1.
      - cbn [shrink_tols]. simpl in H1. unfold qlt_nan.
        change (crit (tols_on_success X Rest P C pow_pb pow_db s)) with (crit s). rewrite Hc.
        change (inner_tol (tols_on_success X Rest P C pow_pb pow_db s)) with (inner_tol s * f).
        assert (E : Qle_bool (inner_tol s * f) c = true) by (apply Qle_bool_iff; lra).
        rewrite E. discriminate.
      - remember (S n) as m eqn:Em. cbn [shrink_tols]. destruct (qlt_nan _ _); [|discriminate].
        subst m. eapply (IH _ c); auto.
        + refine (Qle_trans _ _ _ _ H0). apply Qle_lteq; right.
          change (inner_tol s * f * SearchProofs.qpow f n ==
                  inner_tol s * (SearchProofs.qpow f n * f)). ring.
        + refine (Qle_trans _ _ _ _ H1). apply Qle_lteq; right.
          change (inner_tol s * f * (SearchProofs.qpow f n * f) ==
                  inner_tol s * (SearchProofs.qpow f n * f * f)). ring.
    Qed.
    Lemma shrink_mono n : forall m s s', (n <= m)%nat -> shrink n s = Some s' -> shrink m s = Some s'.
    Proof.
      induction n as [|n IH]; intros m s s' Hm H; [discriminate|].
      destruct m as [|m]; [lia|]. cbn [shrink_tols] in *.
      destruct (qlt_nan _ _); auto. apply IH; auto; lia.
    Qed.

    Lemma shrink_terminates s : 0 < mu s -> (forall c, crit s = Some c -> 0 < c) ->
      exists N s', forall fuel, (N <= fuel)%nat -> shrink fuel s = Some s'.
    Proof.
      intros Hmu Hc. destruct (crit s) as [c|] eqn:E.
      2: { exists 1%nat. eexists. intros fuel Hf. destruct fuel as [|n]; [lia|].
           cbn [shrink_tols]. unfold qlt_nan.
           change (crit (tols_on_success X Rest P C pow_pb pow_db s)) with (crit s). rewrite E.
           reflexivity. }
      specialize (Hc c eq_refl).
      set (f := pow_db (Qmin (mu s) (99 # 100))).
      destruct (contracts (Qmin (mu s) (99 # 100))) as [f0 f1].
      { destruct (Q.min_spec (mu s) (99 # 100)) as [[_ ->]|[_ ->]]; auto; reflexivity. }
      { apply Q.le_min_r. }
      fold f in f0, f1.
      assert (Hsm : exists N, forall m, (N <= m)%nat -> inner_tol s * SearchProofs.qpow f m <= c).
      { destruct (Qlt_le_dec 0 (inner_tol s)) as [L|L].
        - destruct (SearchProofs.qpow_small f (c / inner_tol s) f0 f1) as [N HN].
          { apply Qlt_shift_div_l; lra. }
          exists N. intros m Hm. specialize (HN m Hm).
          apply (Qmult_le_compat_r _ _ (inner_tol s)) in HN; [|lra].
          setoid_replace (c / inner_tol s * inner_tol s) with c in HN by (field; lra). lra.
        - exists 0%nat. intros m _. destruct (SearchProofs.bernoulli f m f0 f1) as [Hp _]. nra. }
      destruct Hsm as [N HN].
      pose proof (shrink_fuel N s c E Hc f0 (HN N ltac:(lia)) (HN (S N) ltac:(lia))) as K.
      destruct (shrink (S N) s) as [s'|] eqn:Es; [|congruence].
      exists (S N), s'. intros fuel Hf. eapply shrink_mono; eauto.
    Qed.

    Lemma outer_terminates k : forall s, mu_lower_bound o <= mu s ->
      exists N, forall fuel, (N <= fuel)%nat -> fst (outer fuel k s) <> Diverged.
    Proof.
      induction k as [|k IH]; intros s Hmu.
      - exists 0%nat. intros; simpl; discriminate.
      - destruct (Nat.ltb (num_iters s) (max_iters o)) eqn:El.
        2: { exists 0%nat. intros. cbn [AlmModel.outer]. rewrite El. discriminate. }
        destruct (inner_loop s) as [[|] s1|s1] eqn:Ei.
        2: { exists 0%nat. intros. cbn [AlmModel.outer]. rewrite El, Ei. discriminate. }
        2: { exists 0%nat. intros. cbn [AlmModel.outer]. rewrite El, Ei. discriminate. }
        pose proof (inner_returns_post _ _ Ei) as ((F1 & _) & _). cbn [res_state] in *.
        assert (Hc : forall c, crit s1 = Some c -> 0 < c).
        { intros c E. unfold AlmModel.inner_loop in Ei. destruct (negb (ok s)); [discriminate|].
          destruct (inner_iter_crit _ _ _ Ei) as [s0 E0]. apply (positive s0). congruence. }
        assert (Hmu1 : 0 < mu s1) by (rewrite F1; lra).
        destruct (shrink_terminates s1 Hmu1 Hc) as (N1 & s' & HN1).
        (* the next state does not depend on the fuel *)
        assert (E : exists r, forall fuel, (N1 <= fuel)%nat -> after_inner fuel s1 = Some r).
        { unfold AlmModel.after_inner. destruct (Qle_bool (prim s1) (prim_tol s1)).
          - destruct (overall (set_pv s' (new_pv s'))) eqn:O.
            + eexists. intros fuel Hf. rewrite (HN1 fuel Hf), O. reflexivity.
            + eexists. intros fuel Hf. rewrite (HN1 fuel Hf), O. reflexivity.
          - eauto. }
        destruct E as [[s2|s2] E].
        + exists N1. intros fuel Hf. cbn [AlmModel.outer]. rewrite El, Ei, (E fuel Hf). discriminate.
        + destruct (IH (next_outer s2)) as [N2 HN2].
          { pose proof (after_inner_mu _ _ _ (E N1 ltac:(lia))) as K.
            simpl. eapply mu_rule_lower; [|exact K]. rewrite F1. exact Hmu. }
          exists (Nat.max N1 N2). intros fuel Hf. cbn [AlmModel.outer].
          rewrite El, Ei, (E fuel ltac:(lia)). simpl. apply HN2. lia.
    Qed.
  End Terminates.

  Lemma start_mu s : mu (start s) = Qmax (mu_init o) (mu_lower_bound o).
  Proof. unfold AlmModel.start. destruct (force_init o); reflexivity. Qed.
  Lemma start_fields s : conv (start s) = false /\ num_iters (start s) = 0%nat /\
    al_iter (start s) = 0%nat /\ log (start s) = log s /\ it (start s) = it s /\
    target_dual <= inner_tol (start s) /\ target_tol o <= prim_tol (start s).
  Proof.
    unfold AlmModel.start. destruct (force_init o); simpl; repeat split; auto; apply Q.le_max_r.
  Qed.
End AlmProofs.
