(** Lemmas on the cycling model. *)
From Coq Require Import QArith List Bool Arith Lia.
From Verif Require Import CycleModel.
Import ListNotations.
Open Scope nat_scope.

(** A bounded queue: drop the oldest, append the newest. *)
Definition push {A} (l : list A) (a : A) : list A := tl (l ++ [a]).

Lemma push_length {A} (l : list A) a : length (push l a) = length l.
Proof. unfold push. destruct l; simpl; auto. rewrite app_length. simpl. lia. Qed.

Lemma skipn_S_tl {A} n (l : list A) : skipn (S n) l = tl (skipn n l).
Proof.
  revert l. induction n as [|n IH]; intros [|a l]; auto.
  change (skipn (S (S n)) (a :: l)) with (skipn (S n) l). rewrite IH. reflexivity.
Qed.

Lemma push_skipn {A} (l new : list A) a :
  push (skipn (length new) (l ++ new)) a =
  skipn (length (new ++ [a])) (l ++ new ++ [a]).
Proof.
  unfold push. rewrite app_length, app_assoc. simpl.
  rewrite Nat.add_1_r, skipn_S_tl. f_equal.
  rewrite (skipn_app (length new) (l ++ new) [a]).
  f_equal. rewrite app_length.
  replace (length new - (length l + length new)) with 0 by lia. reflexivity.
Qed.

Lemma set_nth_length {A} i a (l l' : list A) : set_nth i a l = Ok l' ->
  length l' = length l /\ i < length l.
Proof.
  revert i l'. induction l as [|b l IH]; intros [|i] l'; simpl; try discriminate.
  - intros E. injection E as <-. simpl. lia.
  - destruct (set_nth i a l) eqn:E; simpl; try discriminate.
    intros F. injection F as <-. destruct (IH _ _ E). simpl. lia.
Qed.

Lemma set_nth_app {A} a b (l t : list A) :
  set_nth (length l) a (l ++ b :: t) = Ok (l ++ a :: t).
Proof. induction l as [|c l IH]; simpl; auto. now rewrite IH. Qed.

Lemma set_nth_last {A} a b (l : list A) :
  set_nth (length l) a (l ++ [b]) = Ok (l ++ [a]).
Proof. apply set_nth_app. Qed.

Lemma last_indep {A} (l : list A) a d : l <> [] -> last l a = last l d.
Proof.
  induction l as [|b l IH]; [easy|]. intros _. destruct l as [|c l]; auto.
  change (last (c :: l) a = last (c :: l) d). now apply IH.
Qed.

Lemma front_back_ok {A} (l : list A) (d : A) : l <> [] ->
  front_gets_back l = Ok (last l d :: tl l).
Proof.
  destruct l as [|a l]; [easy|]. intros H. unfold front_gets_back.
  now rewrite (last_indep (a :: l) a d H).
Qed.

Lemma rotate00 {A} (a : A) l : rotate_vec_left (a :: l) 0 0 = Ok (l ++ [a]).
Proof.
  unfold rotate_vec_left. simpl. rewrite firstn_all, skipn_all. simpl.
  now rewrite app_nil_r.
Qed.

Lemma rotate01 {A} (a b : A) l :
  rotate_vec_left (a :: l ++ [b]) 0 1 = Ok (l ++ [a] ++ [b]).
Proof.
  unfold rotate_vec_left. simpl length. rewrite app_length. simpl length.
  assert (E : (0 + 1 <? S (length l + 1)) = true) by (apply Nat.ltb_lt; lia).
  rewrite E. simpl skipn at 1.
  replace (S (length l + 1) - 0 - 1) with (S (length l)) by lia.
  cbn [firstn app]. rewrite firstn_app, firstn_all, Nat.sub_diag. simpl firstn.
  rewrite app_nil_r. f_equal.
  replace (S (length l + 1) - 1) with (S (length l)) by lia. cbn [skipn].
  rewrite skipn_app, skipn_all, Nat.sub_diag. simpl.
  now rewrite <- app_assoc.
Qed.

Lemma rotate10 {A} (h a : A) l :
  rotate_vec_left (h :: a :: l) 1 0 = Ok (h :: l ++ [a]).
Proof.
  unfold rotate_vec_left. cbn. rewrite ?Nat.sub_0_r, firstn_all.
  rewrite skipn_all. now rewrite app_nil_r.
Qed.

(** A list [l] of length [S n] seen as body and terminal element. *)
Lemma split_last {A} n (l : list A) : length l = S n ->
  exists b t, l = b ++ [t] /\ length b = n.
Proof.
  intros H. destruct (exists_last (l := l)) as (b & t & ->).
  - intros ->. discriminate.
  - exists b, t. split; auto. rewrite app_length in H. simpl in H. lia.
Qed.

(** Rotation of the body followed by overwriting of its last element is a
    push. *)
Lemma rotate_body {A} n (l : list A) c : 0 < n -> length l = S n ->
  exists b t, l = b ++ [t] /\ length b = n /\
    bind (rotate_vec_left l 0 1) (set_nth (n - 1) c) = Ok (push b c ++ [t]).
Proof.
  intros Hn Hl. destruct (split_last n l Hl) as (b & t & -> & Hb).
  exists b, t. repeat split; auto. destruct b as [|a b]; [simpl in Hb; lia|].
  simpl app. rewrite rotate01. cbn [bind]. simpl in Hb.
  replace (n - 1) with (length b) by lia. simpl app at 1.
  rewrite set_nth_app. unfold push. simpl. now rewrite <- app_assoc.
Qed.

Lemma rotate_full {A} n (l : list A) c : 0 < n -> length l = n ->
  bind (rotate_vec_left l 0 0) (set_nth (n - 1) c) = Ok (push l c).
Proof.
  intros Hn Hl. destruct l as [|a l]; [simpl in Hl; lia|].
  rewrite rotate00. cbn [bind]. simpl in Hl.
  replace (n - 1) with (length l) by lia. now rewrite set_nth_last.
Qed.

(** replaceStageCircular is a queue operation for every horizon. *)
Lemma replace_push p m : exists old,
  replaceStageCircular p m =
  Ok (old, {| p_x0 := p_x0 p; p_init_nr := p_init_nr p; p_init_ndx := p_init_ndx p;
         p_stages := push (p_stages p) m; p_term_nc := p_term_nc p;
         p_term_nx := p_term_nx p; p_term_ndx := p_term_ndx p |}) /\
  p_stages p ++ [m] = old :: push (p_stages p) m.
Proof.
  unfold replaceStageCircular, push. destruct (p_stages p) as [|a l].
  - simpl app. rewrite rotate00. cbn. eexists. split; reflexivity.
  - simpl app. rewrite rotate00. cbn [bind]. rewrite removelast_last.
    exists a. split; [|reflexivity]. now rewrite last_last.
Qed.

(** The warm start after a cycle, given by its lists. *)
Lemma results_push p x0 r n :
  0 < n -> length (p_stages p) = n ->
  length (xs r) = S n -> length (us r) = n -> length (vs r) = S n ->
  length (lams r) = S n -> length (gains r) = S n ->
  exists sm vb vt gb gt l0 lt,
    last (p_stages p) sm = sm /\ In sm (p_stages p) /\
    vs r = vb ++ [vt] /\ length vb = n /\
    gains r = gb ++ [gt] /\ length gb = n /\ lams r = l0 :: lt /\
    results_cycle p x0 r = Ok
     {| xs := x0 :: tl (push (xs r) (last (xs r) []));
        us := push (us r) (last (us r) []);
        vs := push vb (zerov (s_nc sm)) ++
              [match p_term_nc p with None => vt | Some nc => zerov nc end];
        lams := zerov (p_init_nr p) :: push lt (zerov (s_ndx2 sm));
        gains := push gb (zerom (s_nu sm + s_nc sm + s_ndx2 sm) (s_ndx1 sm + 1)) ++
              [match p_term_nc p with None => gt
               | Some nc => zerom nc (p_term_ndx p + 1) end] |}.
Proof.
  intros Hn Hs Hx Hu Hv Hl Hg.
  destruct (exists_last (l := p_stages p)) as (sts & sm & Es).
  { intros E. rewrite E in Hs. simpl in Hs. lia. }
  destruct (rotate_body n (vs r) (zerov (s_nc sm)) Hn Hv) as (vb & vt & Ev & Hvb & Rv).
  destruct (rotate_body n (gains r)
     (zerom (s_nu sm + s_nc sm + s_ndx2 sm) (s_ndx1 sm + 1)) Hn Hg)
     as (gb & gt & Eg & Hgb & Rg).
  destruct (lams r) as [|l0 lt] eqn:El; [discriminate|].
  exists sm, vb, vt, gb, gt, l0, lt.
  split; [rewrite Es; apply last_last|].
  split; [rewrite Es; apply in_or_app; right; now left|].
  do 5 (split; auto).
  unfold results_cycle.
  rewrite (front_back_ok (xs r) []) by (intros E; rewrite E in Hx; discriminate).
  rewrite (front_back_ok (us r) []) by (intros E; rewrite E in Hu; simpl in Hu; lia).
  cbn [bind]. rewrite !rotate00. cbn [bind].
  destruct (rotate_vec_left (vs r) 0 1) as [vs2| |] eqn:E1; try discriminate Rv.
  cbn [bind]. rewrite El, rotate00. cbn [bind].
  destruct (rotate_vec_left (gains r) 0 1) as [g2| |] eqn:E2; try discriminate Rg.
  cbn [bind] in *.
  destruct (xs r) as [|x xt] eqn:Exs; [discriminate|].
  destruct xt as [|x' xt]; [simpl in Hx; lia|].
  destruct (us r) as [|u ut] eqn:Eus; [simpl in Hu; lia|].
  assert (Es' : rev (p_stages p) = sm :: rev sts).
  { rewrite Es, rev_app_distr. reflexivity. }
  rewrite Es', Hs, Rg, Rv. cbn [bind tl app set_nth].
  simpl in Hl.
  assert (Elt : set_nth n (zerov (s_ndx2 sm)) (lt ++ [l0]) =
                Ok (lt ++ [zerov (s_ndx2 sm)])).
  { replace n with (length lt) by lia. apply set_nth_last. }
  rewrite Elt. cbn [bind].
  destruct lt as [|l1 lt]; [simpl in Hl; lia|].
  cbn [set_nth app bind].
  assert (U1 : ut ++ [last (u :: ut) []] = push (u :: ut) (last (u :: ut) [])).
  { reflexivity. }
  assert (X1 : xt ++ [last (x :: x' :: xt) []] =
     tl (push (x :: x' :: xt) (last (x :: x' :: xt) []))).
  { reflexivity. }
  destruct (p_term_nc p) as [nc|].
  - assert (B : forall A (b : list A) c t a, length b = n ->
      set_nth n a (push b c ++ [t]) = Ok (push b c ++ [a])).
    { intros A b c t a Hb. rewrite <- (push_length b c) in Hb. rewrite <- Hb.
      apply set_nth_last. }
    unfold last_ndx. rewrite B by auto. cbn [bind]. rewrite B by auto.
    reflexivity.
  - reflexivity.
Qed.

Lemma bind_ok {A B} (r : res A) (f : A -> res B) b :
  bind r f = Ok b -> exists a, r = Ok a /\ f a = Ok b.
Proof. destruct r; simpl; try discriminate. eauto. Qed.

Section Step.

Variables (sdata knot pset pjac factor : Type).
Variable mk_knot : stage -> knot.
Variable mk_pset : stage -> pset.
Variable mk_pjac : stage -> pjac.
Variable mk_factor : knot -> factor.

Local Notation workspace := (workspace sdata knot pset pjac).
Local Notation state := (state sdata knot pset pjac factor).
Local Notation cycle := (cycle sdata knot pset pjac factor mk_knot mk_pset mk_pjac mk_factor).
Local Notation cycles := (cycles sdata knot pset pjac factor mk_knot mk_pset mk_pjac mk_factor).
Local Notation workspace_cycle :=
  (workspace_cycle sdata knot pset pjac mk_knot mk_pset mk_pjac).

(** The sizes set up by the constructors (results.hxx 15-41, workspace.hxx
    17-95, proximal-riccati.hxx 20-30) for a horizon [n]. *)
Definition sized (n : nat) (s : state) : Prop :=
  length (p_stages (prob _ _ _ _ _ s)) = n /\
  length (xs (rs _ _ _ _ _ s)) = S n /\ length (us (rs _ _ _ _ _ s)) = n /\
  length (vs (rs _ _ _ _ _ s)) = S n /\ length (lams (rs _ _ _ _ _ s)) = S n /\
  length (gains (rs _ _ _ _ _ s)) = S n /\
  let w := ws _ _ _ _ _ s in
  nsteps _ _ _ _ w = n /\ length (stage_data _ _ _ _ w) = n /\
  length (trial_xs _ _ _ _ w) = S n /\ length (trial_us _ _ _ _ w) = n /\
  length (trial_vs _ _ _ _ w) = S n /\ length (trial_lams _ _ _ _ w) = S n /\
  length (prev_xs _ _ _ _ w) = S n /\ length (prev_us _ _ _ _ w) = n /\
  length (prev_vs _ _ _ _ w) = S n /\ length (knots _ _ _ _ w) = S n /\
  length (psets _ _ _ _ w) = S n /\ length (pjacs _ _ _ _ w) = S n /\
  length (active _ _ _ _ w) = S n /\ length (datas _ _ _ _ _ s) = S n.

(** Circular shift of everything after the first [h] elements. *)
Definition rot1 {A} (l : list A) : list A :=
  match l with [] => [] | a :: t => t ++ [a] end.
Definition rot_tail {A} (l : list A) : list A :=
  match l with [] => [] | a :: t => a :: rot1 t end.

(** The list with its body pushed and its terminal element kept. *)
Definition push_body {A} (l : list A) (a : A) : list A :=
  match rev l with [] => [] | t :: b => push (rev b) a ++ [t] end.

Lemma push_body_app {A} (b : list A) t a : push_body (b ++ [t]) a = push b a ++ [t].
Proof. unfold push_body. rewrite rev_app_distr. simpl. now rewrite rev_involutive. Qed.

Lemma push_body_length {A} (l : list A) a : length (push_body l a) = length l.
Proof.
  destruct (rev l) as [|t b] eqn:E.
  - unfold push_body. rewrite E. assert (l = []) as ->; auto.
    apply (f_equal (@rev A)) in E. rewrite rev_involutive in E. exact E.
  - apply (f_equal (@rev A)) in E. rewrite rev_involutive in E. simpl in E. subst l.
    rewrite push_body_app, !app_length, push_length. reflexivity.
Qed.

Lemma rotate_push_body {A} n (l : list A) c : 0 < n -> length l = S n ->
  bind (rotate_vec_left l 0 1) (set_nth (n - 1) c) = Ok (push_body l c).
Proof.
  intros Hn Hl. destruct (rotate_body n l c Hn Hl) as (b & t & -> & Hb & E).
  now rewrite push_body_app.
Qed.

Lemma rotate_tail {A} (l : list A) : 2 <= length l ->
  rotate_vec_left l 1 0 = Ok (rot_tail l).
Proof.
  destruct l as [|a [|b l]]; simpl; try lia. intros _. apply rotate10.
Qed.

Lemma rotate_rot1 {A} (l : list A) : 1 <= length l ->
  rotate_vec_left l 0 0 = Ok (rot1 l).
Proof. destruct l as [|a l]; simpl; try lia. intros _. apply rotate00. Qed.

Lemma rot1_length {A} (l : list A) : length (rot1 l) = length l.
Proof. destruct l; simpl; auto. rewrite app_length. simpl. lia. Qed.

Lemma rot_tail_length {A} (l : list A) : length (rot_tail l) = length l.
Proof. destruct l; simpl; auto. now rewrite rot1_length. Qed.

Definition pushed_workspace (st : stage) (d : sdata) (w : workspace) : workspace :=
  {| nsteps := nsteps _ _ _ _ w;
     stage_data := push (stage_data _ _ _ _ w) d;
     trial_xs := rot_tail (trial_xs _ _ _ _ w);
     trial_us := rot_tail (trial_us _ _ _ _ w);
     trial_vs := push_body (trial_vs _ _ _ _ w) (zerov (s_nc st));
     trial_lams := rot_tail (trial_lams _ _ _ _ w);
     prev_xs := rot1 (prev_xs _ _ _ _ w);
     prev_us := rot1 (prev_us _ _ _ _ w);
     prev_vs := push_body (prev_vs _ _ _ _ w) (zerov (s_nc st));
     knots := push_body (knots _ _ _ _ w) (mk_knot st);
     psets := push_body (psets _ _ _ _ w) (mk_pset st);
     pjacs := push_body (pjacs _ _ _ _ w) (mk_pjac st);
     active := push_body (active _ _ _ _ w) (repeat false (s_nc st)) |}.

Definition pushed_results (p : problem) (st : stage) (x0 : vec) (r : results) : results :=
  {| xs := x0 :: tl (push (xs r) (last (xs r) []));
     us := push (us r) (last (us r) []);
     vs := removelast (push_body (vs r) (zerov (s_nc st))) ++
           [match p_term_nc p with None => last (vs r) [] | Some nc => zerov nc end];
     lams := zerov (p_init_nr p) :: push (tl (lams r)) (zerov (s_ndx2 st));
     gains := removelast (push_body (gains r)
                (zerom (s_nu st + s_nc st + s_ndx2 st) (s_ndx1 st + 1))) ++
           [match p_term_nc p with None => last (gains r) []
            | Some nc => zerom nc (p_term_ndx p + 1) end] |}.

Definition pushed_problem (p : problem) (m : stage) (x0 : vec) : problem :=
  {| p_x0 := Some x0; p_init_nr := p_init_nr p; p_init_ndx := p_init_ndx p;
     p_stages := push (p_stages p) m; p_term_nc := p_term_nc p;
     p_term_nx := p_term_nx p; p_term_ndx := p_term_ndx p |}.

Lemma push_last {A} (l : list A) a d : l <> [] -> last (push l a) d = a.
Proof. destruct l as [|b l]; [easy|]. intros _. unfold push. simpl. apply last_last. Qed.

Lemma nth_error_push {A} (l : list A) a : l <> [] ->
  nth_error (push l a) (length l - 1) = Some a.
Proof.
  destruct l as [|b l]; [easy|]. intros _. unfold push. simpl.
  rewrite Nat.sub_0_r, nth_error_app2, Nat.sub_diag; auto.
Qed.

Lemma workspace_push p m d x0 w n :
  2 <= n -> length (p_stages p) = n -> nsteps _ _ _ _ w = n ->
  checkIntegrity (pushed_problem p m x0) = true ->
  length (stage_data _ _ _ _ w) = n ->
  length (trial_xs _ _ _ _ w) = S n -> length (trial_us _ _ _ _ w) = n ->
  length (trial_vs _ _ _ _ w) = S n -> length (trial_lams _ _ _ _ w) = S n ->
  length (prev_xs _ _ _ _ w) = S n -> length (prev_us _ _ _ _ w) = n ->
  length (prev_vs _ _ _ _ w) = S n -> length (knots _ _ _ _ w) = S n ->
  length (psets _ _ _ _ w) = S n -> length (pjacs _ _ _ _ w) = S n ->
  length (active _ _ _ _ w) = S n ->
  workspace_cycle (pushed_problem p m x0) d w = Ok (pushed_workspace m d w).
Proof.
  intros Hn Hp Hw Hi L1 L2 L3 L4 L5 L6 L7 L8 L9 L10 L11 L12.
  assert (H0 : 0 < n) by lia.
  unfold CycleModel.workspace_cycle, pushed_workspace. rewrite Hw.
  pose proof (rotate_full n _ d H0 L1) as R1. apply bind_ok in R1.
  destruct R1 as (a1 & -> & R1). cbn [bind]. rewrite R1. cbn [bind].
  rewrite Hi.
  assert (En : nth_error (p_stages (pushed_problem p m x0)) (n - 1) = Some m).
  { simpl. rewrite <- Hp. apply nth_error_push. intros E. rewrite E in Hp.
    simpl in Hp. lia. }
  rewrite En. cbn [negb].
  rewrite !rotate_tail by lia. cbn [bind].
  pose proof (rotate_push_body n _ (zerov (s_nc m)) H0 L4) as R. apply bind_ok in R.
  destruct R as (a2 & -> & R2). cbn [bind]. rewrite R2. cbn [bind].
  rewrite !rotate_rot1 by lia. cbn [bind].
  pose proof (rotate_push_body n _ (zerov (s_nc m)) H0 L8) as R. apply bind_ok in R.
  destruct R as (a3 & -> & R3). cbn [bind]. rewrite R3. cbn [bind].
  pose proof (rotate_push_body n _ (mk_knot m) H0 L9) as R. apply bind_ok in R.
  destruct R as (a4 & -> & R4). cbn [bind]. rewrite R4. cbn [bind].
  pose proof (rotate_push_body n _ (mk_pset m) H0 L10) as R. apply bind_ok in R.
  destruct R as (a5 & -> & R5). cbn [bind]. rewrite R5. cbn [bind].
  pose proof (rotate_push_body n _ (mk_pjac m) H0 L11) as R. apply bind_ok in R.
  destruct R as (a6 & -> & R6). cbn [bind]. rewrite R6. cbn [bind].
  pose proof (rotate_push_body n _ (repeat false (s_nc m)) H0 L12) as R. apply bind_ok in R.
  destruct R as (a7 & -> & R7). cbn [bind]. rewrite R7. reflexivity.
Qed.

(** One full cycle: either an exception, because the initial condition is not
    a state error or the new problem is not well linked, or the pushed state. *)
Lemma cycle_push n (s : state) m d x0 : 2 <= n -> sized n s ->
  let p := prob _ _ _ _ _ s in
  let p' := pushed_problem p m x0 in
  (cycle s m d x0 = Throw /\ (p_x0 p = None \/ checkIntegrity p' = false)) \/
  (checkIntegrity p' = true /\ p_x0 p <> None /\ cycle s m d x0 = Ok
    {| prob := p'; rs := pushed_results p m x0 (rs _ _ _ _ _ s);
       ws := pushed_workspace m d (ws _ _ _ _ _ s);
       datas := push_body (datas _ _ _ _ _ s) (mk_factor (mk_knot m)) |}).
Proof.
  intros Hn Hs p p'.
  destruct Hs as (L1 & L2 & L3 & L4 & L5 & L6 & W0 & W1 & W2 & W3 & W4 & W5 &
                  W6 & W7 & W8 & W9 & W10 & W11 & W12 & L7).
  assert (H0 : 0 < n) by lia. fold p in L1.
  unfold CycleModel.cycle. destruct (replace_push p m) as (old & E & _).
  fold p. rewrite E. cbn [bind snd]. unfold setInitState. cbn [p_x0].
  destruct (p_x0 p) as [x|] eqn:Ex; [|left; split; [reflexivity|now left]].
  cbn [bind]. cbn [p_x0].
  change {| p_x0 := Some x0; p_init_nr := _ |} with p'.
  assert (Hr : results_cycle p' x0 (rs _ _ _ _ _ s) =
               Ok (pushed_results p m x0 (rs _ _ _ _ _ s))).
  { destruct (results_push p' x0 (rs _ _ _ _ _ s) n H0) as
      (sm & vb & vt & gb & gt & l0 & lt & A1 & A2 & A3 & A4 & A5 & A6 & A7 & A8);
      auto.
    { simpl. now rewrite push_length. }
    rewrite A8. unfold pushed_results.
    assert (Em : sm = m).
    { rewrite <- A1. simpl. apply push_last. intros F. rewrite F in L1.
      simpl in L1. lia. }
    subst sm. rewrite A3, A5, A7, !push_body_app, !removelast_last, !last_last.
    reflexivity. }
  rewrite Hr. cbn [bind].
  destruct (checkIntegrity p') eqn:Ei.
  - right. split; auto. split; [discriminate|].
    pose proof (workspace_push p m d x0 (ws _ _ _ _ _ s) n Hn L1 W0 Ei W1 W2 W3
      W4 W5 W6 W7 W8 W9 W10 W11 W12) as Hw.
    fold p' in Hw. rewrite Hw. cbn [bind].
    cbn [knots pushed_workspace nsteps]. rewrite W0.
    destruct (split_last n _ W9) as (b & t & Eb & Hb).
    rewrite Eb, push_body_app.
    assert (Eq : nth_error (push b (mk_knot m) ++ [t]) (n - 1) = Some (mk_knot m)).
    { rewrite nth_error_app1 by (rewrite push_length; lia). rewrite <- Hb.
      apply nth_error_push. intros ->. simpl in Hb. lia. }
    rewrite Eq. unfold solver_cycle.
    rewrite app_length, push_length, Hb. simpl length.
    replace (n + 1 - 1 - 1) with (n - 1) by lia.
    pose proof (rotate_push_body n _ (mk_factor (mk_knot m)) H0 L7) as R.
    unfold bind in R |- *. rewrite R. reflexivity.
  - left. split; [|now right]. unfold CycleModel.workspace_cycle. rewrite W0.
    pose proof (rotate_full n _ d H0 W1) as R1. apply bind_ok in R1.
    destruct R1 as (a1 & -> & R1). cbn [bind]. rewrite R1. cbn [bind].
    assert (En : nth_error (p_stages p') (n - 1) = Some m).
    { simpl. rewrite <- L1. apply nth_error_push. intros F.
      rewrite F in L1. simpl in L1. lia. }
    rewrite En, Ei. reflexivity.
Qed.

Lemma pushed_sized n (s : state) p m d x0 f : 2 <= n -> sized n s ->
  sized n {| prob := pushed_problem (prob _ _ _ _ _ s) m x0;
       rs := pushed_results p m x0 (rs _ _ _ _ _ s);
       ws := pushed_workspace m d (ws _ _ _ _ _ s);
       datas := push_body (datas _ _ _ _ _ s) f |}.
Proof.
  intros Hn (L1 & L2 & L3 & L4 & L5 & L6 & W0 & W1 & W2 & W3 & W4 & W5 &
             W6 & W7 & W8 & W9 & W10 & W11 & W12 & L7).
  assert (B : forall A (l : list A) a t, length l = S n ->
    length (removelast (push_body l a) ++ [t]) = S n).
  { intros A l a t H. destruct (split_last n l H) as (b & t' & -> & Hb).
    rewrite push_body_app, removelast_last, app_length, push_length. simpl. lia. }
  unfold sized; cbn.
  rewrite !push_length, !push_body_length, !rot_tail_length, !rot1_length.
  repeat split; auto.
  - destruct (xs (rs _ _ _ _ _ s)) as [|a l]; [discriminate|]. unfold push. simpl.
    simpl in L2. destruct l as [|b l]; [simpl in L2; lia|]. simpl in *.
    rewrite app_length. simpl. lia.
  - destruct (lams (rs _ _ _ _ _ s)) as [|a l]; [discriminate|]. simpl in *. lia.
Qed.

Lemma cycles_app s l m d x0 :
  cycles s (l ++ [(m, d, x0)]) = bind (cycles s l) (fun s' => cycle s' m d x0).
Proof.
  revert s. induction l as [|[[m' d'] x'] l IH]; intros s.
  - simpl. now destruct (cycle s m d x0).
  - simpl. destruct (cycle s m' d' x') as [s1| |]; simpl; auto.
Qed.

End Step.
