(** C50: linear step and nonlinear rollout. *)
From Coq Require Import List Arith Bool Lia ZArith.
From Verif Require Import StepModel.
Import ListNotations.
Set Implicit Arguments.

Lemma zip2_length A B C (f : A -> B -> C) a b :
  length a = length b -> length (zip2 f a b) = length a.
Proof. revert b; induction a; destruct b; simpl; intros; try discriminate; auto. Qed.
Lemma zip2_nth A B C (f : A -> B -> C) a b t x y :
  nth_error a t = Some x -> nth_error b t = Some y -> nth_error (zip2 f a b) t = Some (f x y).
Proof.
  revert b t; induction a; destruct b, t; simpl; intros; try discriminate; auto.
  injection H; injection H0; intros; subst; auto.
Qed.

Section Spec.
Variables F X U TX TU V L : Type.
Variable sx : F -> TX -> TX.
Variable su : F -> TU -> TU.
Variable sv : F -> V -> V.
Variable sl : F -> L -> L.
Variable addu : TU -> TU -> TU.
Variable addv : V -> V -> V.
Variable addl : L -> L -> L.
Variable nanx : X -> bool.
Variable nanu : U -> bool.
Variable nanl : L -> bool.
Notation stage := (stage X U TX TU V).
Notation iterate := (iterate X U V L).
Notation dirs := (dirs TX TU V L).
Notation linear := (@tryLinearStep F X U TX TU V L sx su sv sl addv addl).
Notation rollout := (@tryNonlinearRollout F X U TX TU V L sx su sv sl addu addv addl nanx nanu nanl).

(** sizes of the iterate and of the directions, for N stages (asserts 116-119) *)
Definition sized (N : nat) (r : iterate) :=
  length (xs r) = S N /\ length (us r) = N /\ length (vs r) = S N /\ length (lams r) = S N.
Definition dsized (N : nat) (w : dirs) :=
  length (dxs w) = S N /\ length (dus w) = N /\ length (dvs w) = S N /\ length (dlams w) = S N.

Lemma lin_states_spec alpha st : forall x dx, st <> nil ->
  length x = S (length st) -> length dx = S (length st) ->
  length (lin_states sx st alpha x dx) = S (length st) /\
  (forall t (s : stage) a d, nth_error st t = Some s -> nth_error x t = Some a ->
     nth_error dx t = Some d ->
     nth_error (lin_states sx st alpha x dx) t = Some (xint s a (sx alpha d))) /\
  (forall t (s : stage) a d, nth_error st t = Some s -> S t = length st ->
     nth_error x (S t) = Some a -> nth_error dx (S t) = Some d ->
     nth_error (lin_states sx st alpha x dx) (S t) = Some (xnint s a (sx alpha d))).
Proof.
  induction st as [|s0 st IH]; [congruence|]; intros x dx _ lx ld.
  destruct x as [|x0 x]; [discriminate|]; destruct dx as [|d0 d]; [discriminate|].
  simpl in lx, ld; injection lx; injection ld; clear lx ld; intros ld lx.
  destruct st as [|s1 st].
  - destruct x as [|x1 [|]]; try discriminate; destruct d as [|d1 [|]]; try discriminate.
    split; [reflexivity|split].
    + intros [|[|]]; simpl; intros; try discriminate; congruence.
    + intros [|[|]]; simpl; intros; try discriminate; congruence.
  - destruct (IH x d) as (H1 & H2 & H3); try congruence; try assumption.
    assert (E : lin_states sx (s0 :: s1 :: st) alpha (x0 :: x) (d0 :: d) =
                xint s0 x0 (sx alpha d0) :: lin_states sx (s1 :: st) alpha x d).
    { destruct x; [discriminate|]; destruct d; [discriminate|]; reflexivity. }
    rewrite E; split; [cbn [length]; f_equal; exact H1|split].
    + intros [|t] s a b hs ha hb; [simpl in *; congruence|]; simpl in *; apply H2; auto.
    + intros [|t] s a b hs ht ha hb; [discriminate|]; simpl in hs, ha, hb.
      change (nth_error (lin_states sx (s1 :: st) alpha x d) (S t) = Some (xnint s a (sx alpha b))).
      apply H3; auto; simpl in ht |- *; lia.
Qed.
Lemma lin_controls_spec alpha st : forall u du,
  length u = length st -> length du = length st ->
  length (lin_controls su st alpha u du) = length st /\
  (forall t (s : stage) a d, nth_error st t = Some s -> nth_error u t = Some a ->
     nth_error du t = Some d ->
     nth_error (lin_controls su st alpha u du) t = Some (uint_ s a (su alpha d))).
Proof.
  induction st as [|s0 st IH]; intros [|u0 u] [|d0 d]; simpl; intros lu ld; try discriminate.
  - split; auto; intros [|]; discriminate.
  - destruct (IH u d) as [H1 H2]; try congruence; split; [congruence|].
    intros [|t]; simpl; intros; [congruence|auto].
Qed.

(** C50: the linear step, for every horizon N >= 1. *)
Theorem C50_linear : forall st alpha r w,
  st <> nil -> sized (length st) r -> dsized (length st) w ->
  exists r', linear st alpha r w = Some r' /\ sized (length st) r' /\
  (forall t s a d, nth_error st t = Some s -> nth_error (xs r) t = Some a ->
     nth_error (dxs w) t = Some d -> nth_error (xs r') t = Some (xint s a (sx alpha d))) /\
  (forall t s a d, nth_error st t = Some s -> S t = length st ->
     nth_error (xs r) (S t) = Some a -> nth_error (dxs w) (S t) = Some d ->
     nth_error (xs r') (S t) = Some (xnint s a (sx alpha d))) /\
  (forall t s a d, nth_error st t = Some s -> nth_error (us r) t = Some a ->
     nth_error (dus w) t = Some d -> nth_error (us r') t = Some (uint_ s a (su alpha d))) /\
  (forall t a d, nth_error (vs r) t = Some a -> nth_error (dvs w) t = Some d ->
     nth_error (vs r') t = Some (addv a (sv alpha d))) /\
  (forall t a d, nth_error (lams r) t = Some a -> nth_error (dlams w) t = Some d ->
     nth_error (lams r') t = Some (addl a (sl alpha d))).
Proof.
  intros st alpha r w ne (a1 & a2 & a3 & a4) (b1 & b2 & b3 & b4).
  destruct (lin_states_spec alpha (xs r) (dxs w) ne a1 b1) as (H1 & H2 & H3).
  destruct (lin_controls_spec alpha st (us r) (dus w) a2 b2) as (H4 & H5).
  unfold tryLinearStep; destruct st as [|s st]; [congruence|].
  eexists; split; [reflexivity|]; unfold sized; simpl xs; simpl us; simpl vs; simpl lams.
  repeat split; auto.
  - rewrite zip2_length; congruence.
  - rewrite zip2_length; congruence.
  - intros t a d h1 h2. exact (zip2_nth (fun v d => addv v (sv alpha d)) _ _ _ h1 h2).
  - intros t a d h1 h2. exact (zip2_nth (fun v d => addl v (sl alpha d)) _ _ _ h1 h2).
Qed.

Lemma nth_ext_some A (a b : list A) : length a = length b ->
  (forall t x, nth_error b t = Some x -> nth_error a t = Some x) -> a = b.
Proof.
  revert b; induction a; destruct b; simpl; intros l H; try discriminate; auto.
  f_equal; [generalize (H 0 _ eq_refl); simpl; congruence|].
  apply IHa; [congruence|]; intros t; exact (H (S t)).
Qed.
Lemma nth_some_len A B (a : list A) (b : list B) t x :
  length a = length b -> nth_error a t = Some x -> exists y, nth_error b t = Some y.
Proof.
  intros l H; destruct (nth_error b t) eqn:E; eauto.
  apply nth_error_None in E. assert (t < length a) by (apply nth_error_Some; congruence). lia.
Qed.

(** alpha = 0 gives back the iterate, if zero tangent vectors move nothing. *)
Theorem C50_linear_zero : forall st z r w,
  st <> nil -> sized (length st) r -> dsized (length st) w ->
  (forall s x d, In s st -> xint s x (sx z d) = x) ->
  (forall s x d, In s st -> xnint s x (sx z d) = x) ->
  (forall s u d, In s st -> uint_ s u (su z d) = u) ->
  (forall v d, addv v (sv z d) = v) -> (forall l d, addl l (sl z d) = l) ->
  linear st z r w = Some r.
Proof.
  intros st z r w ne sr sw Hx Hn Hu Hv Hl.
  destruct (C50_linear z ne sr sw) as (r' & E & sr' & P1 & P2 & P3 & P4 & P5).
  rewrite E; f_equal.
  destruct sr as (a1 & a2 & a3 & a4), sw as (b1 & b2 & b3 & b4), sr' as (c1 & c2 & c3 & c4).
  destruct r as [rx ru rv rl], r' as [rx' ru' rv' rl']; cbn [xs us vs lams] in *.
  f_equal; apply nth_ext_some; try congruence; intros t a h.
  - destruct (@nth_some_len _ _ rx (dxs w) t a) as [d hd]; [congruence|assumption|].
    assert (t < S (length st)) by (rewrite <- a1; apply nth_error_Some; congruence).
    destruct (Nat.eq_dec t (length st)) as [->|ne'].
    + destruct (length st) as [|n] eqn:El; [destruct st; [congruence|discriminate]|].
      destruct (nth_error st n) as [s|] eqn:Es.
      * rewrite (P2 n s a d); auto. rewrite Hn; auto. eapply nth_error_In; eauto.
      * apply nth_error_None in Es; lia.
    + destruct (nth_error st t) as [s|] eqn:Es.
      * rewrite (P1 t s a d); auto. rewrite Hx; auto. eapply nth_error_In; eauto.
      * apply nth_error_None in Es; lia.
  - destruct (@nth_some_len _ _ ru (dus w) t a) as [d hd]; [congruence|assumption|].
    destruct (@nth_some_len _ _ ru st t a) as [s hs]; [congruence|assumption|].
    rewrite (P3 t s a d); auto. rewrite Hu; auto. eapply nth_error_In; eauto.
  - destruct (@nth_some_len _ _ rv (dvs w) t a) as [d hd]; [congruence|assumption|].
    rewrite (P4 t a d); auto. rewrite Hv; auto.
  - destruct (@nth_some_len _ _ rl (dlams w) t a) as [d hd]; [congruence|assumption|].
    rewrite (P5 t a d); auto. rewrite Hl; auto.
Qed.

(** ** Nonlinear rollout *)

(** Everything the loop writes, by index. *)
Lemma roll_spec alpha st : forall x dx ru rv rx rl dl o,
  length ru = length st -> length st <= length rv -> length rx = length st ->
  length rl = length st -> length dl = length st ->
  roll su sv sl addu addv addl nanx nanu nanl st alpha x dx ru rv rx rl dl = Some o ->
  length (w_xs o) = length st /\ length (w_us o) = length st /\ length (w_vs o) = length st /\
  length (w_lams o) = length st /\ length (w_dxs o) = length st /\ length (w_dus o) = length st /\
  length (w_dvs o) = length st /\
  forall t (s : stage), nth_error st t = Some s ->
  exists xt dxt u v x1 dx1 l1 dl1 u0 v0 x0,
    nth_error (x :: w_xs o) t = Some xt /\ nth_error (dx :: w_dxs o) t = Some dxt /\
    nth_error ru t = Some u0 /\ nth_error rv t = Some v0 /\ nth_error rx t = Some x0 /\
    nth_error rl t = Some l1 /\ nth_error dl t = Some dl1 /\
    nth_error (w_us o) t = Some u /\ nth_error (w_vs o) t = Some v /\
    nth_error (w_xs o) t = Some x1 /\ nth_error (w_dxs o) t = Some dx1 /\
    nth_error (w_lams o) t = Some (addl l1 (sl alpha dl1)) /\
    nth_error (w_dus o) t = Some (addu (su alpha (kff s)) (Kfb s dxt)) /\
    nth_error (w_dvs o) t = Some (addv (sv alpha (zff s)) (Zfb s dxt)) /\
    u = uint_ s u0 (addu (su alpha (kff s)) (Kfb s dxt)) /\
    v = addv v0 (addv (sv alpha (zff s)) (Zfb s dxt)) /\
    x1 = dyn s xt u /\ dx1 = xndiff s x0 x1.
Proof.
  induction st as [|s0 st IH]; intros x dx ru rv rx rl dl o hu hv hx hl hd.
  - simpl; intros E; injection E; intros <-; simpl.
    repeat (split; [reflexivity|]). intros [|]; discriminate.
  - destruct ru as [|u0 ru]; [discriminate|]; destruct rv as [|v0 rv]; [simpl in hv; lia|].
    destruct rx as [|x0 rx]; [discriminate|]; destruct rl as [|l0 rl]; [discriminate|].
    destruct dl as [|dl0 dl]; [discriminate|].
    simpl in hu, hv, hx, hl, hd. cbn [roll].
    match goal with |- context [if ?b then _ else _] => destruct b end; [discriminate|].
    match goal with |- context [match ?r with Some _ => _ | None => _ end] => destruct r as [o'|] eqn:Er end;
      [|discriminate].
    intros E; injection E; intros <-; clear E.
    apply IH in Er; try lia.
    destruct Er as (l1 & l2 & l3 & l4 & l5 & l6 & l7 & P).
    cbn [w_xs w_us w_vs w_lams w_dxs w_dus w_dvs length].
    do 7 (split; [congruence|]).
    intros [|t] s hs.
    + simpl in hs; injection hs; intros <-. cbn [nth_error]. repeat eexists.
    + simpl in hs. destruct (P t s hs) as (xt & dxt & u & v & x1 & dx1 & ll & dll & uu & vv & xx & Q).
      cbn [nth_error]. exists xt, dxt, u, v, x1, dx1, ll, dll, uu, vv, xx.
      exact Q.
Qed.

(** C50: what the nonlinear rollout returns, for every horizon N >= 1: the
    dynamics hold at every stage, and controls, multipliers and directions are as
    announced.  The direction at the first node is the one of the LQ solver, at
    the other nodes it is the difference of the new state and the old one. *)
Theorem C50_rollout : forall st tg alpha r w prev r' w',
  st <> nil -> sized (length st) r -> dsized (length st) w -> sized (length st) prev ->
  rollout st tg alpha r w prev = Some (r', w') ->
  sized (length st) r' /\ dsized (length st) w' /\ dlams w' = dlams w /\
  (forall t s x u, nth_error st t = Some s -> nth_error (xs r') t = Some x ->
     nth_error (us r') t = Some u -> nth_error (xs r') (S t) = Some (dyn s x u)) /\
  (forall t s u d, nth_error st t = Some s -> nth_error (us r) t = Some u ->
     nth_error (dxs w') t = Some d ->
     nth_error (us r') t = Some (uint_ s u (addu (su alpha (kff s)) (Kfb s d)))) /\
  (forall t s v d, nth_error st t = Some s -> nth_error (vs r) t = Some v ->
     nth_error (dxs w') t = Some d ->
     nth_error (vs r') t = Some (addv v (addv (sv alpha (zff s)) (Zfb s d)))) /\
  (forall t l d, nth_error (lams r) t = Some l -> nth_error (dlams w) t = Some d ->
     nth_error (lams r') t = Some (addl l (sl alpha d))) /\
  (forall s x d, nth_error st 0 = Some s -> nth_error (xs r) 0 = Some x ->
     nth_error (dxs w) 0 = Some d ->
     nth_error (xs r') 0 = Some (xint s x (sx alpha d)) /\ nth_error (dxs w') 0 = Some d) /\
  (forall t s x x', nth_error st t = Some s -> nth_error (xs r) (S t) = Some x ->
     nth_error (xs r') (S t) = Some x' -> nth_error (dxs w') (S t) = Some (xndiff s x x')) /\
  (forall z Z v d, tg = Some (z, Z) -> nth_error (vs r) (length st) = Some v ->
     nth_error (dxs w') (length st) = Some d ->
     nth_error (vs r') (length st) = Some (addv v (addv (sv alpha z) (Z d)))) /\
  (tg = None -> nth_error (vs r') (length st) = nth_error (vs prev) (length st)).
Proof.
  intros st tg alpha r w prev r' w' ne sr sw sp.
  destruct sr as (a1 & a2 & a3 & a4), sw as (b1 & b2 & b3 & b4), sp as (p1 & p2 & p3 & p4).
  destruct r as [rx ru rv rl], w as [wx wu wv wl], prev as [px pu pv pl]; cbn [xs us vs lams dxs dus dvs dlams] in *.
  unfold tryNonlinearRollout; cbn [xs us vs lams dxs dus dvs dlams].
  destruct st as [|s0 st]; [congruence|]; set (sts := s0 :: st) in *.
  destruct rx as [|x0 rx]; [discriminate|]; destruct wx as [|d0 wx]; [discriminate|].
  destruct rl as [|l0 rl]; [discriminate|]; destruct wl as [|dl0 wl]; [discriminate|].
  simpl in a1, a4, b1, b4.
  match goal with |- context [if ?b then _ else _] => destruct b end; [discriminate|].
  match goal with |- context [match ?r with Some _ => _ | None => _ end] => destruct r as [o|] eqn:Er end;
    [|discriminate].
  apply roll_spec in Er; [|simpl in *; lia ..].
  destruct Er as (l1 & l2 & l3 & l4 & l5 & l6 & l7 & P).
  assert (Hdyn : forall t s x u, nth_error sts t = Some s ->
     nth_error (xint s0 x0 (sx alpha d0) :: w_xs o) t = Some x ->
     nth_error (w_us o) t = Some u -> nth_error (w_xs o) t = Some (dyn s x u)).
  { intros t s x u hs hx hu. destruct (P t s hs) as (xt & dxt & u' & v & x1 & dx1 & ll & dll & uu & vv & xx & Q).
    intuition congruence. }
  assert (Hu : forall t s u d, nth_error sts t = Some s -> nth_error ru t = Some u ->
     nth_error (d0 :: w_dxs o) t = Some d ->
     nth_error (w_us o) t = Some (uint_ s u (addu (su alpha (kff s)) (Kfb s d)))).
  { intros t s u d hs hx hu. destruct (P t s hs) as (xt & dxt & u' & v & x1 & dx1 & ll & dll & uu & vv & xx & Q).
    intuition congruence. }
  assert (Hv : forall k t s v d, nth_error sts t = Some s -> nth_error rv t = Some v ->
     nth_error (d0 :: w_dxs o) t = Some d ->
     nth_error (w_vs o ++ k) t = Some (addv v (addv (sv alpha (zff s)) (Zfb s d)))).
  { intros k t s v d hs hx hu. destruct (P t s hs) as (xt & dxt & u' & v' & x1 & dx1 & ll & dll & uu & vv & xx & Q).
    rewrite nth_error_app1; [intuition congruence|].
    rewrite l3. apply nth_error_Some; congruence. }
  assert (Hl : forall t l d, nth_error (l0 :: rl) t = Some l -> nth_error (dl0 :: wl) t = Some d ->
     nth_error (addl l0 (sl alpha dl0) :: w_lams o) t = Some (addl l (sl alpha d))).
  { intros [|t] l d hl hd; simpl in *; [congruence|].
    destruct (@nth_some_len _ _ rl sts t l) as [s hs]; [simpl; lia|assumption|].
    destruct (P t s hs) as (xt & dxt & u' & v' & x1 & dx1 & ll & dll & uu & vv & xx & Q).
    intuition congruence. }
  assert (Hd : forall t s x x', nth_error sts t = Some s -> nth_error (x0 :: rx) (S t) = Some x ->
     nth_error (xint s0 x0 (sx alpha d0) :: w_xs o) (S t) = Some x' ->
     nth_error (d0 :: w_dxs o) (S t) = Some (xndiff s x x')).
  { intros t s x x' hs hx hx'; cbn [nth_error] in *.
    destruct (P t s hs) as (xt & dxt & u' & v' & x1 & dx1 & ll & dll & uu & vv & xx & Q).
    intuition congruence. }
  assert (Hlast : nth_error (d0 :: w_dxs o) (length sts) = Some (last (w_dxs o) d0)).
  { rewrite <- l5. clear. generalize (w_dxs o) as l, d0 as d.
    induction l as [|a l IH]; intros d; [reflexivity|].
    cbn [length nth_error]. rewrite (IH a). destruct l; [reflexivity|]. f_equal.
    clear; revert a; induction l; intros; [reflexivity|]. simpl in *. destruct l; auto. }
  destruct tg as [[z Z]|]; intros E; injection E; intros <- <-;
    cbn [xs us vs lams dxs dus dvs dlams]; unfold sized, dsized;
    cbn [xs us vs lams dxs dus dvs dlams].
  - assert (Esk : exists vN, skipn (length sts) rv = [vN] /\ nth_error rv (length sts) = Some vN).
    { clear - a3. revert rv a3; generalize (length sts).
      induction n; intros [|v rv]; simpl; intros; try discriminate.
      - destruct rv; [eauto|discriminate].
      - apply IHn; congruence. }
    destruct Esk as (vN & Esk & EN). change (match rv with [] => [] | _ :: l => skipn (length st) l end) with (skipn (length sts) rv).
    rewrite Esk. cbn [zip2].
    split; [|split; [|split; [reflexivity|split; [|split; [|split; [|split; [|split; [|split; [|split]]]]]]]]].
    + rewrite app_length; simpl in *; lia.
    + rewrite app_length; simpl in *; lia.
    + exact Hdyn.
    + exact Hu.
    + intros; eapply Hv; eauto.
    + exact Hl.
    + intros s x d hs hx hd; simpl in *; split; congruence.
    + exact Hd.
    + intros z' Z' v d hz hv hd. injection hz; intros <- <-.
      rewrite nth_error_app2 by (rewrite l3; lia). rewrite l3, Nat.sub_diag.
      cbn [nth_error] in *. congruence.
    + discriminate.
  - assert (Esk : exists vN, skipn (length sts) pv = [vN] /\ nth_error pv (length sts) = Some vN).
    { clear - p3. revert pv p3; generalize (length sts).
      induction n; intros [|v rv]; simpl; intros; try discriminate.
      - destruct rv; [eauto|discriminate].
      - apply IHn; congruence. }
    destruct Esk as (vN & Esk & EN).
    change (match pv with [] => [] | _ :: l => skipn (length st) l end) with (skipn (length sts) pv).
    change (match wv with [] => [] | _ :: l => skipn (length st) l end) with (skipn (length sts) wv).
    rewrite Esk.
    split; [|split; [|split; [reflexivity|split; [|split; [|split; [|split; [|split; [|split; [|split]]]]]]]]].
    + rewrite app_length; simpl in *; lia.
    + rewrite app_length, skipn_length; simpl in *; lia.
    + exact Hdyn.
    + exact Hu.
    + intros; eapply Hv; eauto.
    + exact Hl.
    + intros s x d hs hx hd; simpl in *; split; congruence.
    + exact Hd.
    + discriminate.
    + intros _. rewrite nth_error_app2 by (rewrite l3; lia). rewrite l3, Nat.sub_diag.
      cbn [nth_error] in *. congruence.
Qed.

(** The rollout does not depend on the directions left by an earlier trial, apart
    from those of the first node and of the co-states, nor on the trial buffers
    if there are terminal constraints. *)
Theorem C50_rollout_fresh : forall st tg alpha r w w2 prev prev2 r' w',
  hd_error (dxs w) = hd_error (dxs w2) -> dlams w = dlams w2 -> tg <> None ->
  rollout st tg alpha r w prev = Some (r', w') ->
  rollout st tg alpha r w2 prev2 = Some (r', w').
Proof.
  intros st [[z Z]|] alpha [rx ru rv rl] [wx wu wv wl] [wx2 wu2 wv2 wl2] [px pu pv pl] [qx qu qv ql] r' w';
    [|congruence].
  unfold tryNonlinearRollout; cbn [xs us vs lams dxs dus dvs dlams hd_error].
  intros H <- _. destruct st; [discriminate|]. destruct rx; [discriminate|].
  destruct wx; [discriminate|]. destruct wx2; [discriminate|].
  injection H; intros ->. exact (fun h => h).
Qed.

(** Linear dynamics, full step: both trial points are the same.  [one] scales
    nothing; the direction of the linear step is the one of the Riccati solver
    (controls and multipliers by the gains, linearised dynamics: C21).
    [lin] is the derivative of the dynamics. *)
Theorem C50_coincide : forall st tg one r w prev r1 r2 w2 (lin : stage -> TX -> TU -> TX) (addx : TX -> TX -> TX),
  st <> nil -> sized (length st) r -> dsized (length st) w -> sized (length st) prev ->
  (forall d, sx one d = d) -> (forall d, su one d = d) -> (forall d, sv one d = d) ->
  (* the spaces: the next space of a stage is the space of the next one, and
     [difference] inverts [integrate] *)
  (forall t s s', nth_error st t = Some s -> nth_error st (S t) = Some s' ->
     forall x d, xint s' x d = xnint s x d) ->
  (forall s x d, In s st -> xndiff s x (xnint s x d) = d) ->
  (* affine dynamics on these spaces, and gaps *)
  (forall s x u dx du, In s st ->
     dyn s (xint s x dx) (uint_ s u du) = xnint s (dyn s x u) (lin s dx du)) ->
  (forall s x y d, In s st -> xnint s x (addx d (xndiff s x y)) = xnint s y d) ->
  (* the LQ solution *)
  (forall t s x x1 u dx dx1 du, nth_error st t = Some s ->
     nth_error (xs r) t = Some x -> nth_error (xs r) (S t) = Some x1 -> nth_error (us r) t = Some u ->
     nth_error (dxs w) t = Some dx -> nth_error (dxs w) (S t) = Some dx1 -> nth_error (dus w) t = Some du ->
     dx1 = addx (lin s dx du) (xndiff s x1 (dyn s x u))) ->
  (forall t s dx du, nth_error st t = Some s -> nth_error (dxs w) t = Some dx ->
     nth_error (dus w) t = Some du -> du = addu (kff s) (Kfb s dx)) ->
  (forall t s dx dv, nth_error st t = Some s -> nth_error (dxs w) t = Some dx ->
     nth_error (dvs w) t = Some dv -> dv = addv (zff s) (Zfb s dx)) ->
  (forall z Z dx dv, tg = Some (z, Z) -> nth_error (dxs w) (length st) = Some dx ->
     nth_error (dvs w) (length st) = Some dv -> dv = addv z (Z dx)) ->
  (* without terminal constraints the last multiplier block is empty *)
  (tg = None -> nth_error (vs prev) (length st) = nth_error (vs r1) (length st)) ->
  linear st one r w = Some r1 ->
  rollout st tg one r w prev = Some (r2, w2) ->
  r2 = r1 /\ dxs w2 = dxs w.
Proof.
  intros st tg one r w prev r1 r2 w2 lin addx ne sr sw sp H1 H2 H3 Hsp Hinv Hdyn Hgap Hlq Hdu Hdv HdvN Hprev El Er.
  destruct (C50_linear one ne sr sw) as (r1' & E & s1 & P1 & P2 & P3 & P4 & P5).
  rewrite El in E; injection E; intros <-; clear E.
  destruct (C50_rollout _ _ ne sr sw sp Er) as
    (s2 & t2 & Q0 & Q1 & Q2 & Q3 & Q4 & Q5 & Q6 & Q7 & Q8).
  destruct sr as (a1 & a2 & a3 & a4), sw as (b1 & b2 & b3 & b4), s1 as (c1 & c2 & c3 & c4),
    s2 as (d1 & d2 & d3 & d4), t2 as (e1 & e2 & e3 & e4).
  assert (get : forall A (l : list A) n t, length l = n -> t < n -> exists x, nth_error l t = Some x).
  { intros A l n t hl ht. destruct (nth_error l t) eqn:E; eauto. apply nth_error_None in E; lia. }
  assert (Hx1 : forall t s x1 dx1, nth_error st t = Some s -> nth_error (xs r) (S t) = Some x1 ->
    nth_error (dxs w) (S t) = Some dx1 -> nth_error (xs r1) (S t) = Some (xnint s x1 dx1)).
  { intros t s x1 dx1 hs hx hd.
    assert (t < length st) by (apply nth_error_Some; congruence).
    destruct (Nat.eq_dec (S t) (length st)) as [e|e].
    - rewrite (P2 t s x1 dx1); auto. rewrite H1; reflexivity.
    - destruct (get _ st (length st) (S t)) as [s' hs']; auto; [lia|].
      rewrite (P1 (S t) s' x1 dx1); auto. rewrite H1. f_equal. apply (Hsp t); auto. }
  assert (Hu : forall t s dx du u, nth_error st t = Some s -> nth_error (dxs w) t = Some dx ->
    nth_error (dxs w2) t = Some dx -> nth_error (dus w) t = Some du -> nth_error (us r) t = Some u ->
    nth_error (us r2) t = Some (uint_ s u du)).
  { intros t s dx du u hs hd hd2 hdu hu. rewrite (Q2 t s u dx); auto. rewrite H2.
    rewrite <- (Hdu t s dx du); auto. }
  assert (M : forall t, t <= length st ->
    nth_error (xs r2) t = nth_error (xs r1) t /\ nth_error (dxs w2) t = nth_error (dxs w) t).
  { induction t as [|t IH]; intros lt.
    - destruct (get _ st (length st) 0) as [s hs]; auto; [destruct st; [congruence|simpl; lia]|].
      destruct (get _ (xs r) _ 0 a1) as [x hx]; [lia|]. destruct (get _ (dxs w) _ 0 b1) as [d hd]; [lia|].
      destruct (Q5 s x d hs hx hd) as [-> ->]. rewrite (P1 0 s x d); auto.
    - destruct IH as [I1 I2]; [lia|].
      destruct (get _ st (length st) t) as [s hs]; auto.
      assert (ins : In s st) by (eapply nth_error_In; eauto).
      destruct (get _ (xs r) _ t a1) as [x hx]; [lia|]. destruct (get _ (dxs w) _ t b1) as [d hd]; [lia|].
      destruct (get _ (xs r) _ (S t) a1) as [x1 hx1]; [lia|].
      destruct (get _ (dxs w) _ (S t) b1) as [dx1 hdx1]; [lia|].
      destruct (get _ (us r) _ t a2) as [u hu]; [lia|]. destruct (get _ (dus w) _ t b2) as [du hdu]; [lia|].
      assert (I3 : nth_error (xs r2) t = Some (xint s x d)).
      { rewrite I1, (P1 t s x d); auto. rewrite H1; reflexivity. }
      assert (I4 : nth_error (us r2) t = Some (uint_ s u du)) by (apply (Hu t s d du u); congruence).
      assert (I5 : nth_error (xs r2) (S t) = Some (xnint s x1 dx1)).
      { rewrite (Q1 t s _ _ hs I3 I4), Hdyn by assumption.
        rewrite (Hlq t s x x1 u d dx1 du) by assumption. rewrite Hgap by assumption. reflexivity. }
      split.
      + rewrite I5. symmetry; apply Hx1; assumption.
      + rewrite (Q6 t s x1 _ hs hx1 I5), Hinv by assumption. symmetry; assumption. }
  assert (Ed : dxs w2 = dxs w).
  { apply nth_ext_some; [congruence|]. intros t x h. destruct (M t) as [_ ->]; auto.
    assert (t < S (length st)) by (rewrite <- b1; apply nth_error_Some; congruence). lia. }
  split; [|assumption].
  destruct r1 as [x1 u1 v1 l1], r2 as [x2 u2 v2 l2]; cbn [xs us vs lams] in *.
  f_equal; apply nth_ext_some; try congruence; intros t a h.
  - destruct (M t) as [-> _]; auto.
    assert (t < S (length st)) by (rewrite <- c1; apply nth_error_Some; congruence). lia.
  - assert (lt : t < length st) by (rewrite <- c2; apply nth_error_Some; congruence).
    destruct (get _ st (length st) t) as [s hs]; auto.
    destruct (get _ (dxs w) _ t b1) as [d hd]; [lia|].
    destruct (get _ (us r) _ t a2) as [u hu]; [lia|]. destruct (get _ (dus w) _ t b2) as [du hdu]; [lia|].
    rewrite (Hu t s d du u); try congruence. rewrite (P3 t s u du) in h by assumption.
    rewrite H2 in h. assumption.
  - assert (lt : t < S (length st)) by (rewrite <- c3; apply nth_error_Some; congruence).
    destruct (get _ (dxs w) _ t b1) as [d hd]; [lia|].
    destruct (get _ (vs r) _ t a3) as [v hv]; [lia|]. destruct (get _ (dvs w) _ t b3) as [dv hdv]; [lia|].
    assert (h' := h). rewrite (P4 t v dv hv hdv), H3 in h.
    destruct (Nat.eq_dec t (length st)) as [->|e].
    + destruct tg as [[z Z]|]; [|rewrite Q8, Hprev; auto].
      rewrite (HdvN z Z d dv eq_refl hd hdv) in h.
      rewrite (Q7 z Z v d eq_refl hv), H3; congruence.
    + destruct (get _ st (length st) t) as [s hs]; auto; [lia|].
      rewrite (Q3 t s v d hs hv), H3 by congruence.
      rewrite <- (Hdv t s d dv hs hd hdv). congruence.
  - assert (lt : t < S (length st)) by (rewrite <- c4; apply nth_error_Some; congruence).
    destruct (get _ (lams r) _ t a4) as [v hv]; [lia|]. destruct (get _ (dlams w) _ t b4) as [dv hdv]; [lia|].
    rewrite (P5 t v dv hv hdv) in h. rewrite (Q4 t v dv hv hdv). assumption.
Qed.

(** A rollout with step 0 gives back the iterate if the direction of the first
    state is zero and the iterate is dynamically feasible. *)
Theorem C50_rollout_zero : forall st tg z r w prev r' w' zx,
  st <> nil -> sized (length st) r -> dsized (length st) w -> sized (length st) prev ->
  (forall s x d, In s st -> xint s x (sx z d) = x) ->
  (forall s x, In s st -> xndiff s x x = zx) ->
  (forall s u, In s st -> uint_ s u (addu (su z (kff s)) (Kfb s zx)) = u) ->
  (forall s v, In s st -> addv v (addv (sv z (zff s)) (Zfb s zx)) = v) ->
  (forall y Y v, tg = Some (y, Y) -> addv v (addv (sv z y) (Y zx)) = v) ->
  (tg = None -> nth_error (vs prev) (length st) = nth_error (vs r) (length st)) ->
  (forall l d, addl l (sl z d) = l) ->
  hd_error (dxs w) = Some zx ->
  (forall t s x u, nth_error st t = Some s -> nth_error (xs r) t = Some x ->
     nth_error (us r) t = Some u -> nth_error (xs r) (S t) = Some (dyn s x u)) ->
  rollout st tg z r w prev = Some (r', w') -> r' = r.
Proof.
  intros st tg z r w prev r' w' zx ne sr sw sp Hx Hd Hu Hv Ht Hp Hl H0 Hf Er.
  destruct (C50_rollout _ _ ne sr sw sp Er) as
    (s2 & t2 & Q0 & Q1 & Q2 & Q3 & Q4 & Q5 & Q6 & Q7 & Q8).
  destruct sr as (a1 & a2 & a3 & a4), sw as (b1 & b2 & b3 & b4),
    s2 as (d1 & d2 & d3 & d4), t2 as (e1 & e2 & e3 & e4).
  assert (get : forall A (l : list A) n t, length l = n -> t < n -> exists x, nth_error l t = Some x).
  { intros A l n t hl ht. destruct (nth_error l t) eqn:E; eauto. apply nth_error_None in E; lia. }
  assert (M : forall t, t <= length st ->
    nth_error (xs r') t = nth_error (xs r) t /\ nth_error (dxs w') t = Some zx).
  { induction t as [|t IH]; intros lt.
    - destruct (get _ st (length st) 0) as [s hs]; auto; [destruct st; [congruence|simpl; lia]|].
      destruct (get _ (xs r) _ 0 a1) as [x hx]; [lia|].
      assert (h0 : nth_error (dxs w) 0 = Some zx) by (destruct (dxs w); simpl in *; congruence).
      destruct (Q5 s x zx hs hx h0) as [-> ->]. rewrite Hx; [auto|eapply nth_error_In; eauto].
    - destruct IH as [I1 I2]; [lia|].
      destruct (get _ st (length st) t) as [s hs]; auto.
      assert (ins : In s st) by (eapply nth_error_In; eauto).
      destruct (get _ (xs r) _ t a1) as [x hx]; [lia|].
      destruct (get _ (us r) _ t a2) as [u hu]; [lia|].
      assert (I3 : nth_error (us r') t = Some u) by (rewrite (Q2 t s u zx), Hu; auto).
      assert (I4 : nth_error (xs r') (S t) = Some (dyn s x u)) by (apply (Q1 t s x u); congruence).
      assert (I5 := Hf t s x u hs hx hu).
      split; [congruence|]. rewrite (Q6 t s _ _ hs I5 I4), Hd by assumption. reflexivity. }
  destruct r as [x1 u1 v1 l1], r' as [x2 u2 v2 l2]; cbn [xs us vs lams] in *.
  f_equal; apply nth_ext_some; try congruence; intros t a h.
  - destruct (M t) as [-> _]; auto.
    assert (t < S (length st)) by (rewrite <- a1; apply nth_error_Some; congruence). lia.
  - assert (lt : t < length st) by (rewrite <- a2; apply nth_error_Some; congruence).
    destruct (get _ st (length st) t) as [s hs]; auto.
    assert (ins : In s st) by (eapply nth_error_In; eauto).
    destruct (M t) as [_ I]; [lia|]. rewrite (Q2 t s a zx), Hu; auto.
  - assert (lt : t < S (length st)) by (rewrite <- a3; apply nth_error_Some; congruence).
    destruct (M t) as [_ I]; [lia|].
    destruct (Nat.eq_dec t (length st)) as [->|e].
    + destruct tg as [[y Y]|].
      * rewrite (Q7 y Y a zx eq_refl h I), (Ht y Y a eq_refl); reflexivity.
      * rewrite Q8, Hp; auto.
    + destruct (get _ st (length st) t) as [s hs]; auto; [lia|].
      assert (ins : In s st) by (eapply nth_error_In; eauto).
      rewrite (Q3 t s a zx), Hv; auto.
  - assert (lt : t < S (length st)) by (rewrite <- a4; apply nth_error_Some; congruence).
    destruct (get _ (dlams w) _ t b4) as [dv hdv]; [lia|].
    rewrite (Q4 t a dv h hdv), Hl. reflexivity.
Qed.
End Spec.

(** ** Instances: scalar states x' = 2x + u, over Z. *)
Definition zst (k K : Z) : stage Z Z Z Z Z :=
  Stage Z.add Z.add Z.add (fun x y => y - x)%Z (fun x u => 2 * x + u)%Z k (fun d => K * d)%Z 1%Z (fun d => d).
Definition zlin := @tryLinearStep Z Z Z Z Z Z Z Z.mul Z.mul Z.mul Z.mul Z.add Z.add.
Definition zroll := @tryNonlinearRollout Z Z Z Z Z Z Z Z.mul Z.mul Z.mul Z.mul Z.add Z.add Z.add
  (fun _ => false) (fun _ => false) (fun _ => false).
Definition zst2 := [zst 1 (-2); zst 3 (-1)].
(** an iterate with gaps, and the direction of the gains from dx0 = 1: du = (-1, 3 - 1*dx1) *)
Definition zr : iterate Z Z Z Z := Iterate [1; 1; 1]%Z [0; 1]%Z [0; 0; 0]%Z [5; 6; 7]%Z.
(* dx1 = 2*1 + (-1) + (2 - 1) = 2, du1 = 3 - 2 = 1, dx2 = 4 + 1 + (3 - 1) = 7; dv = 1 + dx *)
Definition zw : dirs Z Z Z Z := Dirs [1; 2; 7]%Z [-1; 1]%Z [2; 3; 8]%Z [1; 1; 1]%Z.
Example C50_example :
  zlin zst2 1%Z zr zw = Some (Iterate [2; 3; 8]%Z [-1; 2]%Z [2; 3; 8]%Z [6; 7; 8]%Z) /\
  zroll zst2 (Some (1%Z, fun d => d)) 1%Z zr zw zr =
    Some (Iterate [2; 3; 8]%Z [-1; 2]%Z [2; 3; 8]%Z [6; 7; 8]%Z, zw).
Proof. split; vm_compute; reflexivity. Qed.
(** with a step of 2 the linear step and the rollout differ *)
Example C50_example_step :
  zlin zst2 2%Z zr zw = Some (Iterate [3; 5; 15]%Z [-2; 3]%Z [4; 6; 16]%Z [7; 8; 9]%Z) /\
  option_map (fun p => xs (fst p)) (zroll zst2 (Some (1%Z, fun d => d)) 2%Z zr zw zr) = Some [3; 6; 14]%Z.
Proof. split; vm_compute; reflexivity. Qed.

(** The feedback at the first node is applied to the whole direction dx0, the
    state only moves by alpha dx0: from a dynamically feasible iterate, the
    rollout with step 0 does not give back the iterate. *)
Theorem C50_rollout_zero_refuted : exists st r w prev r' w',
  st <> nil /\ sized (length st) r /\ dsized (length st) w /\ sized (length st) prev /\
  (forall t s x u, nth_error st t = Some s -> nth_error (xs r) t = Some x ->
     nth_error (us r) t = Some u -> nth_error (xs r) (S t) = Some (dyn s x u)) /\
  zroll st None 0%Z r w prev = Some (r', w') /\ r' <> r.
Proof.
  exists [zst 1 (-2)], (Iterate [1; 2]%Z [0]%Z [0; 0]%Z [0; 0]%Z),
    (Dirs [1; 1]%Z [-1]%Z [0; 0]%Z [0; 0]%Z), (Iterate [1; 2]%Z [0]%Z [0; 0]%Z [0; 0]%Z).
  eexists _, _. split; [discriminate|].
  split; [unfold sized; simpl; auto|]. split; [unfold dsized; simpl; auto|]. split; [unfold sized; simpl; auto|].
  split; [|split; [vm_compute; reflexivity|discriminate]].
  intros [|[|]]; simpl; intros s x u hs hx hu; try discriminate.
  injection hs; injection hx; injection hu; intros <- <- <-; reflexivity.
Qed.

Print Assumptions C50_linear.
Print Assumptions C50_linear_zero.
Print Assumptions C50_rollout.
Print Assumptions C50_rollout_fresh.
Print Assumptions C50_coincide.
Print Assumptions C50_rollout_zero.
Print Assumptions C50_rollout_zero_refuted.
