From Coq Require Import List Arith NArith Bool Lia Permutation.
From Verif Require Import WorkModel P_work RaceModel.
Import ListNotations.

Section Pool.
Variables (loc val : Type).
Notation action := (action loc val).
Notation thread := (thread loc val).
Notation pool := (pool loc val).
Notation store := (store loc val).

(** ** Specification *)
(** the declared footprint is respected *)
Definition wf (a : action) : Prop :=
  (forall s l, writes _ _ a l = false -> run _ _ a s l = s l) /\
  (forall s s', (forall l, reads _ _ a l = true -> s l = s' l) ->
     forall l, writes _ _ a l = true -> run _ _ a s l = run _ _ a s' l).
(** two actions conflict if one writes what the other accesses *)
Definition conflict (a b : action) : Prop := exists l,
  (writes _ _ a l = true /\ (writes _ _ b l = true \/ reads _ _ b l = true)) \/
  (writes _ _ b l = true /\ (writes _ _ a l = true \/ reads _ _ a l = true)).
(** no race: actions of different threads never conflict *)
Fixpoint race_free (P : pool) : Prop :=
  match P with
  | [] => True
  | th :: P' => (forall a th' b, In a th -> In th' P' -> In b th' -> ~ conflict a b) /\ race_free P'
  end.
Definition pool_wf (P : pool) : Prop := forall th a, In th P -> In a th -> wf a.

Lemma conflict_sym a b : conflict a b -> conflict b a.
Proof. intros [l [H|H]]; exists l; tauto. Qed.

Lemma race_free_spec (P : pool) : race_free P <->
  (forall P1 th P2, P = P1 ++ th :: P2 -> forall a th' b,
     In a th -> In th' (P1 ++ P2) -> In b th' -> ~ conflict a b).
Proof.
  induction P as [|th P IH]; simpl; split; auto.
  - intros _ P1 th P2 E. destruct P1; discriminate.
  - intros [H R] P1 th0 P2 E a th' b Ha Hth Hb.
    destruct P1 as [|t1 P1]; simpl in E; inversion E; subst.
    + eapply H; eauto.
    + simpl in Hth. destruct Hth as [<-|Hth].
      * intros C. apply conflict_sym in C. eapply H in C; eauto. apply in_or_app. simpl. auto.
      * eapply (proj1 IH R P1 th0 P2); eauto.
  - intros H. split.
    + intros a th' b Ha Hth Hb. eapply (H [] th P); eauto.
    + apply IH. intros P1 th0 P2 E a th' b Ha Hth Hb.
      eapply (H (th :: P1) th0 P2); eauto; [rewrite E; reflexivity|].
      simpl. auto.
Qed.

(** ** Solo runs *)
Definition thw (th : thread) (l : loc) : Prop := exists a, In a th /\ writes _ _ a l = true.
Definition thr (th : thread) (l : loc) : Prop := exists a, In a th /\ reads _ _ a l = true.
Lemma solo_frame th s l : (forall a, In a th -> wf a) -> (forall a, In a th -> writes _ _ a l = false) ->
  solo _ _ th s l = s l.
Proof.
  revert s. induction th as [|a th IH]; intros s W H; simpl; auto.
  unfold solo in *. simpl. rewrite IH; auto using in_cons, in_eq.
  apply W; auto using in_eq.
Qed.
Lemma solo_ext th : (forall a, In a th -> wf a) -> forall s s',
  (forall l, thr th l \/ thw th l -> s l = s' l) ->
  forall l, thr th l \/ thw th l -> solo _ _ th s l = solo _ _ th s' l.
Proof.
  induction th as [|a th IH]; intros W s s' H l Hl; unfold solo; simpl.
  - apply H; auto.
  - change (solo _ _ th (run _ _ a s) l = solo _ _ th (run _ _ a s') l).
    assert (E : forall l, thr (a :: th) l \/ thw (a :: th) l -> run _ _ a s l = run _ _ a s' l).
    { intros l0 H0. destruct (writes _ _ a l0) eqn:Wl.
      - apply (W a (in_eq _ _)); auto. intros l1 R1. apply H. left. exists a. simpl; auto.
      - rewrite !(proj1 (W a (in_eq _ _))); auto. }
    assert (W' : forall b, In b th -> wf b) by (intros; apply W; simpl; auto).
    assert (Sub : forall l, thr th l \/ thw th l -> thr (a :: th) l \/ thw (a :: th) l).
    { intros l0 [[b [Hb R]]|[b [Hb R]]]; [left|right]; exists b; simpl; auto. }
    assert (D : (thr th l \/ thw th l) \/ (forall b, In b th -> writes _ _ b l = false)).
    { destruct (existsb (fun b => writes _ _ b l) th) eqn:X.
      - left. right. apply existsb_exists in X. destruct X as [b [? ?]]. exists b; auto.
      - right. intros b Hb. destruct (writes _ _ b l) eqn:Y; auto.
        assert (existsb (fun b => writes _ _ b l) th = true) by (apply existsb_exists; eauto). congruence. }
    destruct D as [D|D].
    + apply IH; auto.
    + rewrite !solo_frame; auto.
Qed.

(** ** Main theorem: the result of an execution is determined thread by thread *)
Definition outcome (P : pool) (s s' : store) : Prop :=
  (forall th l, In th P -> thw th l -> s' l = solo _ _ th s l) /\
  (forall l, (forall th, In th P -> ~ thw th l) -> s' l = s l).
Lemma thw_dec th l : thw th l \/ ~ thw th l.
Proof.
  destruct (existsb (fun b => writes _ _ b l) th) eqn:X.
  - left. apply existsb_exists in X. destruct X as [b [? ?]]. exists b; auto.
  - right. intros [b [Hb Y]].
    assert (existsb (fun b => writes _ _ b l) th = true) by (apply existsb_exists; eauto). congruence.
Qed.
Lemma race_free_step P1 a th P2 : race_free (P1 ++ (a :: th) :: P2) -> race_free (P1 ++ th :: P2).
Proof.
  induction P1 as [|t P1 IH]; simpl.
  - intros [H R]. split; auto. intros a0 th' b Ha Hth Hb. apply (H a0 th' b); simpl; auto.
  - intros [H R]. split; auto. intros a0 th' b Ha Hth Hb.
    apply in_app_or in Hth. simpl in Hth. destruct Hth as [Hth|[<-|Hth]].
    + eapply H; eauto. apply in_or_app; auto.
    + eapply H with (th' := a :: th); eauto; [apply in_or_app; simpl; auto|simpl; auto].
    + eapply H; eauto. apply in_or_app; simpl; auto.
Qed.
Lemma pool_wf_step P1 a th P2 : pool_wf (P1 ++ (a :: th) :: P2) -> pool_wf (P1 ++ th :: P2).
Proof.
  intros H t b Ht Hb. apply in_app_or in Ht. simpl in Ht. destruct Ht as [Ht|[<-|Ht]].
  - eapply H; eauto. apply in_or_app; auto.
  - eapply (H (a :: th)); [apply in_or_app; simpl; auto|simpl; auto].
  - eapply H; eauto. apply in_or_app; simpl; auto.
Qed.
Theorem exec_outcome P s s' : pool_wf P -> race_free P -> exec _ _ P s s' -> outcome P s s'.
Proof.
  intros W R E. induction E as [P s F|P s P' s1 s' St E IH].
  - split.
    + intros th l H [a [Ha _]]. unfold finished in F. rewrite Forall_forall in F.
      apply F in H. subst. inversion Ha.
    + auto.
  - inversion St; subst. clear St.
    match type of R with race_free (?A ++ (?a0 :: ?t0) :: ?B) => rename A into P1; rename B into P2;
      rename a0 into a; rename t0 into th end.
    pose proof (race_free_step _ _ _ _ R) as R'. pose proof (pool_wf_step _ _ _ _ W) as W'.
    destruct (IH W' R') as [O1 O2]. clear IH.
    pose proof (proj1 (race_free_spec _) R P1 (a :: th) P2 eq_refl) as NC.
    assert (Wa : wf a) by (apply (W (a :: th)); [apply in_or_app; simpl; auto|simpl; auto]).
    assert (Wth : forall b, In b th -> wf b).
    { intros b Hb. apply (W (a :: th)); [apply in_or_app; simpl; auto|simpl; auto]. }
    split.
    + intros t l Ht Wt.
      assert (Ht' : t = a :: th \/ In t (P1 ++ P2)).
      { apply in_app_or in Ht. simpl in Ht. destruct Ht as [Ht|[Ht|Ht]]; auto; right; apply in_or_app; auto. }
      destruct Ht' as [->|Ht'].
      * change (solo _ _ (a :: th) s l) with (solo _ _ th (run _ _ a s) l).
        destruct (thw_dec th l) as [T|T].
        -- apply O1; auto. apply in_or_app; simpl; auto.
        -- rewrite solo_frame; auto.
           ++ apply O2. intros t' Ht'. apply in_app_or in Ht'. simpl in Ht'.
              assert (D : t' = th \/ In t' (P1 ++ P2)) by (rewrite in_app_iff; destruct Ht' as [|[|]]; auto).
              destruct D as [->|D]; auto.
              intros [b [Hb Wb]]. destruct Wt as [c [[<-|Hc] Wc]].
              ** apply (NC a t' b (in_eq _ _) D Hb). exists l. auto.
              ** apply T. exists c; auto.
           ++ intros b Hb. destruct (writes _ _ b l) eqn:Y; auto. exfalso. apply T. exists b; auto.
      * assert (Hin : In t (P1 ++ th :: P2)).
        { apply in_app_or in Ht'. apply in_or_app. simpl. tauto. }
        rewrite (O1 t l Hin Wt).
        apply solo_ext; auto.
        -- intros b Hb. eapply W; eauto.
        -- intros l0 H0. apply (proj1 Wa).
           destruct (writes _ _ a l0) eqn:Y; auto. exfalso.
           destruct H0 as [[b [Hb Z]]|[b [Hb Z]]]; apply (NC a t b (in_eq _ _) Ht' Hb); exists l0; auto.
    + intros l H. rewrite O2.
      * apply (proj1 Wa). destruct (writes _ _ a l) eqn:Y; auto. exfalso.
        apply (H (a :: th)); [apply in_or_app; simpl; auto|]. exists a. simpl; auto.
      * intros t Ht [b [Hb Y]]. apply in_app_or in Ht. simpl in Ht. destruct Ht as [Ht|[<-|Ht]].
        -- apply (H t); [apply in_or_app; auto|exists b; auto].
        -- apply (H (a :: th)); [apply in_or_app; simpl; auto|exists b; simpl; auto].
        -- apply (H t); [apply in_or_app; simpl; auto|exists b; auto].
Qed.
Lemma pool_thw_dec (P : pool) l : (exists th, In th P /\ thw th l) \/ (forall th, In th P -> ~ thw th l).
Proof.
  induction P as [|th P [[t [? ?]]|IH]].
  - right. auto.
  - left. exists t. simpl; auto.
  - destruct (thw_dec th l).
    + left. exists th. simpl; auto.
    + right. intros t [<-|Ht]; auto.
Qed.
Theorem exec_unique P s s1 s2 : pool_wf P -> race_free P ->
  exec _ _ P s s1 -> exec _ _ P s s2 -> forall l, s1 l = s2 l.
Proof.
  intros W R E1 E2 l.
  destruct (exec_outcome _ _ _ W R E1) as [A1 B1]. destruct (exec_outcome _ _ _ W R E2) as [A2 B2].
  destruct (pool_thw_dec P l) as [[th [H T]]|N].
  - rewrite (A1 th), (A2 th); auto.
  - rewrite B1, B2; auto.
Qed.
(** the sequential run is one of the executions *)
Lemma exec_thread th : forall P s s', exec loc val ([] :: P) (solo _ _ th s) s' -> exec _ _ (th :: P) s s'.
Proof.
  induction th as [|a th IH]; intros P s s' E; simpl in E; auto.
  eapply Next. apply (Step _ _ [] a th P s). simpl. apply IH. exact E.
Qed.
Lemma exec_nil P : forall s s', exec loc val P s s' -> exec loc val ([] :: P) s s'.
Proof.
  intros s s' E. induction E as [P s F|P s P' s1 s' St E IH].
  - apply Done. constructor; auto.
  - inversion St; subst. eapply Next; [|exact IH].
    match goal with |- step _ _ ([] :: ?A ++ (?a :: ?t) :: ?B, _) _ => apply (Step _ _ ([] :: A) a t B) end.
Qed.
Theorem exec_sequential P : forall s, exec loc val P s (sequential _ _ P s).
Proof.
  induction P as [|th P IH]; intros s.
  - apply Done. constructor.
  - apply exec_thread, exec_nil. apply IH.
Qed.
(** an execution can always be finished: no step can block *)
Theorem exec_progress P s : finished loc val P \/ exists P' s', step _ _ (P, s) (P', s').
Proof.
  induction P as [|[|a th] P IH].
  - left. constructor.
  - destruct IH as [F|[P' [s' St]]].
    + left. constructor; auto.
    + right. inversion St; subst.
      match goal with |- exists _ _, step _ _ ([] :: ?A ++ (?a :: ?t) :: ?B, _) _ =>
        exists (([] :: A) ++ t :: B), (run _ _ a s); apply (Step _ _ ([] :: A) a t B) end.
  - right. exists ([] ++ th :: P), (run _ _ a s). apply (Step _ _ [] a th P s).
Qed.

(** ** Parallel for: the iterations are handed out to the threads arbitrarily *)
Fixpoint indep (its : list action) : Prop :=
  match its with
  | [] => True
  | a :: r => (forall b, In b r -> ~ conflict a b) /\ indep r
  end.
Lemma indep_perm its its' : Permutation its its' -> indep its -> indep its'.
Proof.
  induction 1; simpl; auto.
  - intros [A B]. split; auto. intros b Hb. apply A. eapply Permutation_in; [apply Permutation_sym|]; eauto.
  - intros [A [B C]]. split; [|split; auto].
    + intros b [<-|Hb]; auto. intros X. apply (A x (in_eq _ _)). apply conflict_sym; auto.
Qed.
Lemma indep_app l1 l2 : indep (l1 ++ l2) -> indep l1 /\ indep l2 /\ forall a b, In a l1 -> In b l2 -> ~ conflict a b.
Proof.
  induction l1 as [|x l1 IH]; simpl.
  - intros H. repeat split; auto.
  - intros [A B]. destruct (IH B) as [C [D E]]. repeat split; auto.
    + intros b Hb. apply A. apply in_or_app; auto.
    + intros a b [<-|Ha] Hb; auto. apply A. apply in_or_app; auto.
Qed.
Lemma indep_race P : indep (concat P) -> race_free P.
Proof.
  induction P as [|th P IH]; simpl; auto. intros H. apply indep_app in H. destruct H as [A [B C]]. split; auto.
  intros a th' b Ha Hth Hb. apply C; auto. apply in_concat. eauto.
Qed.
Lemma solo_indep th s a l : (forall b, In b th -> wf b) -> indep th -> In a th -> writes _ _ a l = true ->
  solo _ _ th s l = run _ _ a s l.
Proof.
  revert s. induction th as [|b th IH]; intros s W I Ha Wl; [inversion Ha|destruct I as [A B]].
  change (solo _ _ th (run _ _ b s) l = run _ _ a s l).
  assert (W' : forall c, In c th -> wf c) by (intros; apply W; simpl; auto).
  destruct Ha as [->|Ha].
  - apply solo_frame; auto. intros c Hc. destruct (writes _ _ c l) eqn:Y; auto.
    exfalso. apply (A c Hc). exists l; auto.
  - rewrite (IH _ W' B Ha Wl). apply (proj2 (W a (in_cons _ _ _ Ha))); auto.
    intros l0 R0. apply (proj1 (W b (in_eq _ _))). destruct (writes _ _ b l0) eqn:Y; auto.
    exfalso. apply (A a Ha). exists l0; auto.
Qed.
Theorem parallel_for its P s s' : (forall a, In a its -> wf a) -> indep its ->
  Permutation (concat P) its -> exec _ _ P s s' ->
  (forall a l, In a its -> writes _ _ a l = true -> s' l = run _ _ a s l) /\
  (forall l, (forall a, In a its -> writes _ _ a l = false) -> s' l = s l).
Proof.
  intros W I Pm E.
  assert (I' : indep (concat P)) by (eapply indep_perm; [apply Permutation_sym|]; eauto).
  assert (In' : forall a, In a (concat P) <-> In a its).
  { intros a; split; intros H; [exact (Permutation_in a Pm H)|exact (Permutation_in a (Permutation_sym Pm) H)]. }
  assert (PW : pool_wf P).
  { intros th a Ht Ha. apply W. apply In'. apply in_concat. eauto. }
  destruct (exec_outcome P s s' PW (indep_race _ I') E) as [O1 O2]. split.
  - intros a l Ha Wl. apply In' in Ha. apply in_concat in Ha. destruct Ha as [th [Ht Ha]].
    rewrite (O1 th l Ht) by (exists a; auto).
    apply solo_indep; auto.
    + intros b Hb. eapply PW; eauto.
    + clear -I' Ht. induction P as [|t P IH]; [inversion Ht|]. simpl in I'. apply indep_app in I'.
      destruct I' as [A [B C]]. destruct Ht as [->|Ht]; auto.
  - intros l H. apply O2. intros th Ht [a [Ha Y]].
    rewrite H in Y; [discriminate|]. apply In'. apply in_concat. eauto.
Qed.
End Pool.
