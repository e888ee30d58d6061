(** C34: receding-horizon cycling behaves as a queue. *)
From Coq Require Import QArith List Bool Arith Lia.
From Verif Require Import CycleModel CycleProofs.
Import ListNotations.
Open Scope nat_scope.

Lemma removelast_push_body {A} (l : list A) a : l <> [] ->
  removelast (push_body l a) = push (removelast l) a.
Proof.
  intros H. destruct (exists_last H) as (b & t & ->).
  now rewrite push_body_app, !removelast_last.
Qed.

Lemma last_push_body {A} (l : list A) a d : l <> [] ->
  last (push_body l a) d = last l d.
Proof.
  intros H. destruct (exists_last H) as (b & t & ->).
  now rewrite push_body_app, !last_last.
Qed.

Lemma last_queue {A} (l : list A) d k : l <> [] ->
  last (skipn k (l ++ repeat (last l d) k)) d = last l d.
Proof.
  intros H. destruct k as [|k].
  - simpl. now rewrite app_nil_r.
  - replace (S k) with (k + 1) at 2 by lia. rewrite repeat_app. simpl repeat at 2.
    rewrite app_assoc.
    assert (L : S k <= length (l ++ repeat (last l d) k)).
    { rewrite app_length, repeat_length. destruct l; [easy|]. simpl. lia. }
    rewrite skipn_app.
    replace (S k - length (l ++ repeat (last l d) k)) with 0 by lia.
    simpl skipn at 2. apply last_last.
Qed.

Lemma repeat_snoc {A} (a : A) k : repeat a k ++ [a] = repeat a (S k).
Proof. induction k; simpl; auto. now rewrite IHk. Qed.

Lemma push_queue {A} (l new : list A) k a : length new = k ->
  push (skipn k (l ++ new)) a = skipn (S k) (l ++ new ++ [a]).
Proof.
  intros <-. rewrite push_skipn, app_length. simpl. now rewrite Nat.add_1_r.
Qed.

Lemma rot_tail_nth {A} (l : list A) i : 1 <= i -> S i < length l ->
  nth_error (rot_tail l) i = nth_error l (S i).
Proof.
  intros Hi Hl. destruct l as [|h [|a l]]; simpl in Hl; try lia.
  destruct i as [|i]; [lia|]. simpl. rewrite nth_error_app1; auto. lia.
Qed.

Lemma rot1_nth {A} (l : list A) i : S i < length l ->
  nth_error (rot1 l) i = nth_error l (S i).
Proof.
  intros Hl. destruct l as [|a l]; simpl in Hl; try lia. simpl.
  rewrite nth_error_app1; auto. lia.
Qed.

Section Queue.

Variables (sdata knot pset pjac factor : Type).
Variable mk_knot : stage -> knot.
Variable mk_pset : stage -> pset.
Variable mk_pjac : stage -> pjac.
Variable mk_factor : knot -> factor.

Local Notation state := (state sdata knot pset pjac factor).
Local Notation cycle := (cycle sdata knot pset pjac factor mk_knot mk_pset mk_pjac mk_factor).
Local Notation cycles := (cycles sdata knot pset pjac factor mk_knot mk_pset mk_pjac mk_factor).
Local Notation sized := (sized sdata knot pset pjac factor).
Local Notation prob := (prob sdata knot pset pjac factor).
Local Notation rs := (rs sdata knot pset pjac factor).
Local Notation ws := (ws sdata knot pset pjac factor).
Local Notation datas := (datas sdata knot pset pjac factor).
Local Notation stage_data := (stage_data sdata knot pset pjac).
Local Notation knots := (knots sdata knot pset pjac).
Local Notation psets := (psets sdata knot pset pjac).
Local Notation pjacs := (pjacs sdata knot pset pjac).
Local Notation active := (active sdata knot pset pjac).
Local Notation trial_xs := (trial_xs sdata knot pset pjac).
Local Notation trial_us := (trial_us sdata knot pset pjac).
Local Notation trial_lams := (trial_lams sdata knot pset pjac).
Local Notation prev_xs := (prev_xs sdata knot pset pjac).
Local Notation prev_us := (prev_us sdata knot pset pjac).

(** The window of a sequence after [k] shifts. *)
Definition window {A} (k : nat) (old new : list A) : list A := skipn k (old ++ new).

(** C34, queue: after any sequence of cycles (stages [m], data [d], initial
    states [x0]) which raises nothing, for any horizon [n >= 2] and whatever the
    dimensions: the horizon is unchanged, the stages are the last [n] of the old
    and new ones in order, and so are the stage data, multipliers and gains
    (zero for the new stages), Riccati knots, constraint sets and factors;
    states and controls are shifted with the last one held, the first state is
    the new initial state. *)
Theorem C34_queue : forall n (s s' : state) l,
  2 <= n -> sized n s -> cycles s l = Ok s' ->
  let k := length l in
  let ms := map (fun c => fst (fst c)) l in
  let ds := map (fun c => snd (fst c)) l in
  let x0s := map snd l in
  sized n s' /\
  p_stages (prob s') = window k (p_stages (prob s)) ms /\
  stage_data (ws s') = window k (stage_data (ws s)) ds /\
  us (rs s') = window k (us (rs s)) (repeat (last (us (rs s)) []) k) /\
  tl (xs (rs s')) = window k (tl (xs (rs s))) (repeat (last (xs (rs s)) []) k) /\
  hd [] (xs (rs s')) = last x0s (hd [] (xs (rs s))) /\
  removelast (vs (rs s')) =
    window k (removelast (vs (rs s))) (map (fun m => zerov (s_nc m)) ms) /\
  tl (lams (rs s')) =
    window k (tl (lams (rs s))) (map (fun m => zerov (s_ndx2 m)) ms) /\
  removelast (gains (rs s')) =
    window k (removelast (gains (rs s)))
      (map (fun m => zerom (s_nu m + s_nc m + s_ndx2 m) (s_ndx1 m + 1)) ms) /\
  removelast (knots (ws s')) = window k (removelast (knots (ws s))) (map mk_knot ms) /\
  removelast (psets (ws s')) = window k (removelast (psets (ws s))) (map mk_pset ms) /\
  removelast (pjacs (ws s')) = window k (removelast (pjacs (ws s))) (map mk_pjac ms) /\
  removelast (active (ws s')) = window k (removelast (active (ws s)))
      (map (fun m => repeat false (s_nc m)) ms) /\
  removelast (datas s') = window k (removelast (datas s))
      (map (fun m => mk_factor (mk_knot m)) ms).
Proof.
  intros n s s' l Hn Hs. revert s'.
  induction l as [|[[m d] x0] l IH] using rev_ind; intros s' E.
  - simpl in E. injection E as <-. cbn. rewrite !app_nil_r. repeat split; auto;
      apply Hs.
  - rewrite cycles_app in E. apply bind_ok in E. destruct E as (s1 & E1 & E).
    specialize (IH s1 E1). cbv zeta in IH |- *.
    destruct IH as (S1 & I1 & I2 & I3 & I4 & I5 & I6 & I7 & I8 & I9 & I10 & I11 &
                    I12 & I13).
    destruct (cycle_push _ _ _ _ _ mk_knot mk_pset mk_pjac mk_factor n s1 m d x0 Hn S1)
      as [[F _]|(_ & _ & F)]; [rewrite F in E; discriminate|].
    rewrite F in E. injection E as <-.
    assert (S2 := pushed_sized _ _ _ _ _ mk_knot mk_pset mk_pjac n s1
      (prob s1) m d x0 (mk_factor (mk_knot m)) Hn S1).
    split; [exact S2|].
    assert (Z : forall s : state, sized n s ->
      us (rs s) <> [] /\ xs (rs s) <> [] /\ tl (xs (rs s)) <> [] /\ vs (rs s) <> [] /\
      lams (rs s) <> [] /\ gains (rs s) <> [] /\ knots (ws s) <> [] /\
      psets (ws s) <> [] /\ pjacs (ws s) <> [] /\ active (ws s) <> [] /\
      datas s <> []).
    { clear -Hn. intros s (L1 & L2 & L3 & L4 & L5 & L6 & W0 & W1 & W2 & W3 & W4 & W5 &
             W6 & W7 & W8 & W9 & W10 & W11 & W12 & L7).
      repeat split; try (intros E; rewrite E in *; simpl in *; lia).
      intros E. destruct (xs (rs s)) as [|a [|b t]]; simpl in *; try lia.
      discriminate. }
    destruct (Z s1 S1) as (Z1 & Z2 & Z3 & Z4 & Z5 & Z6 & Z7 & Z8 & Z9 & Z10 & Z11).
    destruct (Z s Hs) as (Y1 & Y2 & Y3 & _). clear Z.
    cbn [CycleModel.prob CycleModel.rs CycleModel.ws CycleModel.datas
         pushed_problem pushed_workspace pushed_results p_stages
         CycleModel.stage_data CycleModel.knots CycleModel.psets CycleModel.pjacs
         CycleModel.active us xs vs lams gains tl hd].
    rewrite !removelast_last, !removelast_push_body by assumption.
    rewrite I1, I2, I6, I7, I8, I9, I10, I11, I12, I13. unfold window.
    rewrite !map_app, !app_length. simpl length. rewrite Nat.add_1_r. simpl map.
    rewrite !push_queue by (rewrite ?map_length; reflexivity).
    do 2 (split; [reflexivity|]).
    split.
    { rewrite I3. unfold window. rewrite last_queue by assumption.
      rewrite push_queue by apply repeat_length. now rewrite repeat_snoc. }
    split.
    { assert (X : last (xs (rs s1)) [] = last (xs (rs s)) []).
      { destruct (xs (rs s1)) as [|a t]; [easy|].
        destruct t as [|b t]; [easy|].
        change (last (b :: t) [] = last (xs (rs s)) []). simpl tl in I4.
        rewrite I4. unfold window.
        assert (Q : last (xs (rs s)) [] = last (tl (xs (rs s))) []).
        { destruct (xs (rs s)) as [|c [|e q]]; try easy. }
        rewrite Q at 1. rewrite last_queue by assumption. now rewrite Q. }
      rewrite X.
      assert (T : tl (push (xs (rs s1)) (last (xs (rs s)) [])) =
                  push (tl (xs (rs s1))) (last (xs (rs s)) [])).
      { destruct (xs (rs s1)) as [|a t]; [easy|]. reflexivity. }
      rewrite T, I4. unfold window. rewrite push_queue by apply repeat_length.
      now rewrite repeat_snoc. }
    split; [now rewrite last_last|].
    repeat split; reflexivity.
Qed.

(** ... read entry by entry: the warm start of every retained stage [i + k]
    moves to position [i]. *)
Theorem C34_shift : forall n (s s' : state) l i,
  2 <= n -> sized n s -> cycles s l = Ok s' -> i + length l < n ->
  let k := length l in
  nth_error (p_stages (prob s')) i = nth_error (p_stages (prob s)) (i + k) /\
  nth_error (us (rs s')) i = nth_error (us (rs s)) (i + k) /\
  nth_error (xs (rs s')) (S i) = nth_error (xs (rs s)) (S (i + k)) /\
  nth_error (vs (rs s')) i = nth_error (vs (rs s)) (i + k) /\
  nth_error (lams (rs s')) (S i) = nth_error (lams (rs s)) (S (i + k)) /\
  nth_error (gains (rs s')) i = nth_error (gains (rs s)) (i + k).
Proof.
  intros n s s' l i Hn Hs E Hi k.
  destruct (C34_queue n s s' l Hn Hs E) as (S1 & I1 & _ & I3 & I4 & _ & I6 & I7 & I8 & _).
  assert (W : forall A (o new : list A), length o = n ->
    nth_error (window (length l) o new) i = nth_error o (i + k)).
  { intros A o new Ho. unfold window.
    rewrite skipn_app, nth_error_app1.
    - rewrite <- (firstn_skipn (length l) o) at 2. rewrite nth_error_app2.
      + rewrite firstn_length. f_equal. unfold k. lia.
      + rewrite firstn_length. unfold k. lia.
    - rewrite skipn_length. lia. }
  assert (R : forall A (o : list A) j, j < length o - 1 ->
    nth_error (removelast o) j = nth_error o j).
  { intros A o j Hj. destruct o as [|a o]; [simpl in Hj; lia|].
    destruct (exists_last (l := a :: o)) as (b & t & Eb); [discriminate|].
    rewrite Eb in *. rewrite removelast_last, nth_error_app1; auto.
    rewrite app_length in Hj. simpl in Hj. lia. }
  assert (T : forall A (o : list A) j, nth_error (tl o) j = nth_error o (S j)).
  { intros A [|a o] j; simpl; auto. now destruct j. }
  assert (TL : forall A (o : list A), length (tl o) = length o - 1).
  { intros A [|a o]; simpl; lia. }
  assert (RL : forall A (o : list A), length (removelast o) = length o - 1).
  { intros A o. destruct o as [|a o]; auto.
    destruct (exists_last (l := a :: o)) as (b & t & Eb); [discriminate|].
    rewrite Eb, removelast_last, app_length. simpl. lia. }
  destruct Hs as (L1 & L2 & L3 & L4 & L5 & L6 & _).
  destruct S1 as (M1 & M2 & M3 & M4 & M5 & M6 & _).
  repeat split.
  - rewrite I1. now apply W.
  - rewrite I3. now apply W.
  - rewrite <- !T, I4. apply W. rewrite TL. lia.
  - rewrite <- (R _ (vs (rs s'))) by lia. rewrite I6, W by (rewrite RL; lia).
    apply R. unfold k. lia.
  - rewrite <- !T, I7. apply W. rewrite TL. lia.
  - rewrite <- (R _ (gains (rs s'))) by lia. rewrite I8, W by (rewrite RL; lia).
    apply R. unfold k. lia.
Qed.

(** The trial and proximal points kept in the workspace are shifted too. *)
Theorem C34_workspace : forall n (s s' : state) l,
  2 <= n -> sized n s -> cycles s l = Ok s' ->
  let k := length l in
  (forall i, 1 <= i -> i + k <= n ->
    nth_error (trial_xs (ws s')) i = nth_error (trial_xs (ws s)) (i + k) /\
    nth_error (trial_lams (ws s')) i = nth_error (trial_lams (ws s)) (i + k)) /\
  (forall i, i + k <= n ->
    nth_error (prev_xs (ws s')) i = nth_error (prev_xs (ws s)) (i + k)) /\
  (forall i, 1 <= i -> i + k < n ->
    nth_error (trial_us (ws s')) i = nth_error (trial_us (ws s)) (i + k)) /\
  (forall i, i + k < n ->
    nth_error (prev_us (ws s')) i = nth_error (prev_us (ws s)) (i + k)).
Proof.
  intros n s s' l Hn Hs. revert s'.
  induction l as [|[[m d] x0] l IH] using rev_ind; intros s' E.
  - simpl in E. injection E as <-. simpl. repeat split; intros;
      now rewrite Nat.add_0_r.
  - assert (E' := E). rewrite cycles_app in E. apply bind_ok in E.
    destruct E as (s1 & E1 & E).
    destruct (C34_queue n s s1 l Hn Hs E1) as (S1 & _).
    specialize (IH s1 E1). cbv zeta in IH |- *. destruct IH as (J1 & J2 & J3 & J4).
    destruct (cycle_push _ _ _ _ _ mk_knot mk_pset mk_pjac mk_factor n s1 m d x0 Hn S1)
      as [[F _]|(_ & _ & F)]; [rewrite F in E; discriminate|].
    rewrite F in E. injection E as <-.
    destruct S1 as (L1 & L2 & L3 & L4 & L5 & L6 & W0 & W1 & W2 & W3 & W4 & W5 &
             W6 & W7 & _).
    rewrite app_length. simpl length.
    cbn [CycleModel.ws pushed_workspace CycleModel.trial_xs CycleModel.trial_us
         CycleModel.trial_lams CycleModel.prev_xs CycleModel.prev_us].
    repeat split; intros.
    + rewrite rot_tail_nth by lia. rewrite (proj1 (J1 (S i) ltac:(lia) ltac:(lia))).
      f_equal. lia.
    + rewrite rot_tail_nth by lia. rewrite (proj2 (J1 (S i) ltac:(lia) ltac:(lia))).
      f_equal. lia.
    + rewrite rot1_nth by lia. rewrite (J2 (S i) ltac:(lia)). f_equal. lia.
    + rewrite rot_tail_nth by lia. rewrite (J3 (S i) ltac:(lia) ltac:(lia)). f_equal. lia.
    + rewrite rot1_nth by lia. rewrite (J4 (S i) ltac:(lia)). f_equal. lia.
Qed.

(** The hypotheses of C34_queue are met whenever all stages share the state
    dimensions: no cycle then raises or reads out of range. *)
Definition square (nx ndx : nat) (m : stage) : Prop :=
  s_nx1 m = nx /\ s_nx2 m = nx /\ s_ndx1 m = ndx /\ s_ndx2 m = ndx.

Lemma linked_square nx ndx s l : square nx ndx s -> Forall (square nx ndx) l ->
  linked s l nx ndx = true.
Proof.
  revert s. induction l as [|t l IH]; intros s (H1 & H2 & H3 & H4) F; simpl.
  - rewrite H2, H4, !Nat.eqb_refl. reflexivity.
  - inversion F as [|? ? Ht Fl]; subst. destruct Ht as (K1 & K2 & K3 & K4).
    rewrite H2, H4, K1, K3, !Nat.eqb_refl. simpl. apply IH; auto.
    repeat split; auto.
Qed.

Theorem C34_runs : forall n nx ndx (s : state) l,
  2 <= n -> sized n s -> p_x0 (prob s) <> None ->
  p_init_ndx (prob s) = ndx -> p_term_nx (prob s) = nx -> p_term_ndx (prob s) = ndx ->
  Forall (square nx ndx) (p_stages (prob s)) ->
  Forall (fun c => square nx ndx (fst (fst c))) l ->
  exists s', cycles s l = Ok s'.
Proof.
  intros n nx ndx s l Hn. revert s. induction l as [|[[m d] x0] l IH];
    intros s Hs Hx Hi Ht Htd Hp Hl.
  - now exists s.
  - inversion Hl as [|? ? Hm Hl']; subst l0 x. simpl in Hm.
    simpl. destruct (cycle_push _ _ _ _ _ mk_knot mk_pset mk_pjac mk_factor n s m d x0 Hn Hs)
      as [[F [G|G]]|(_ & _ & F)].
    + contradiction.
    + exfalso.
      assert (P : Forall (square nx ndx) (push (p_stages (prob s)) m)).
      { unfold push.
        assert (P' : Forall (square nx ndx) (p_stages (prob s) ++ [m])).
        { apply Forall_app. split; auto. }
        destruct (p_stages (prob s) ++ [m]); auto. now inversion P'. }
      revert G. unfold checkIntegrity, pushed_problem. simpl.
      destruct (push (p_stages (prob s)) m) as [|a t]; [discriminate|].
      inversion P as [|? ? Pa Pt]; subst x l0.
      rewrite Ht, Htd, (linked_square nx ndx a t Pa Pt).
      destruct Pa as (_ & _ & -> & _). rewrite Hi, Nat.eqb_refl. discriminate.
    + rewrite F. simpl. apply IH; auto.
      * now apply pushed_sized.
      * simpl. discriminate.
      * simpl. unfold push.
        assert (P' : Forall (square nx ndx) (p_stages (prob s) ++ [m])).
        { apply Forall_app. split; auto. }
        destruct (p_stages (prob s) ++ [m]); auto. now inversion P'.
Qed.

End Queue.

(** replaceStageCircular alone is the queue operation for every horizon,
    including 0 and 1, and returns the stage dropped. *)
Theorem C34_replace : forall p m, exists old p',
  replaceStageCircular p m = Ok (old, p') /\
  old :: p_stages p' = p_stages p ++ [m] /\
  length (p_stages p') = length (p_stages p) /\
  p_x0 p' = p_x0 p /\ p_term_nc p' = p_term_nc p.
Proof.
  intros p m. destruct (replace_push p m) as (old & E & H).
  exists old. eexists. split; [exact E|]. simpl. repeat split; auto.
  apply push_length.
Qed.

(** The base workspace (FDDP): the new stage data enters at the end and the first leaves,
    states and controls rotate by one, the gaps too except the first, which stays. *)
Theorem C34_base : forall (sdata : Type) (d : sdata) sd x u f w', 1 <= length x -> 1 <= length u -> 2 <= length f ->
  base_cycle sdata d (sd, x, u, f) = Ok w' ->
  let '(sd', x', u', f') := w' in
  sd' = tl (sd ++ [d]) /\
  x' = tl x ++ [hd [] x] /\ u' = tl u ++ [hd [] u] /\
  f' = hd [] f :: tl (tl f) ++ [hd [] (tl f)].
Proof.
  intros sdata d sd x u f w' Hx Hu Hf. unfold base_cycle.
  destruct x as [|a x]; [simpl in Hx; lia|]. destruct u as [|b u]; [simpl in Hu; lia|].
  destruct f as [|c [|e f]]; try (simpl in Hf; lia).
  assert (E : rotate_vec_left (sd ++ [d]) 0 0 = Ok (rot1 (sd ++ [d]))) by (apply rotate_rot1; rewrite app_length; simpl; lia).
  rewrite E, !rotate00, rotate10. cbn [bind]. intros H. injection H as <-.
  repeat split. destruct sd as [|s sd]; [reflexivity|]. simpl. now rewrite removelast_last.
Qed.
Theorem C34_base_runs : forall (sdata : Type) (d : sdata) sd x u f, 1 <= length x -> 1 <= length u -> 2 <= length f ->
  exists w', base_cycle sdata d (sd, x, u, f) = Ok w'.
Proof.
  intros sdata d sd x u f Hx Hu Hf. unfold base_cycle.
  rewrite (rotate_rot1 (sd ++ [d])) by (rewrite app_length; simpl; lia).
  rewrite (rotate_rot1 x), (rotate_rot1 u), (rotate_tail f) by assumption. eexists. reflexivity.
Qed.
Example C34_base_example :
  base_cycle nat 9 ([1; 2], [[1%Q]; [2%Q]; [3%Q]], [[4%Q]; [5%Q]], [[6%Q]; [7%Q]; [8%Q]]) =
  Ok ([2; 9], [[2%Q]; [3%Q]; [1%Q]], [[5%Q]; [4%Q]], [[6%Q]; [8%Q]; [7%Q]]).
Proof. reflexivity. Qed.

(** Witness: three stages, two cycles. *)
Definition ex_stage (id nu : nat) : stage :=
  {| sid := id; s_nx1 := 1; s_nx2 := 1; s_ndx1 := 1; s_ndx2 := 1;
     s_nu := nu; s_nc := 1 |}.
Definition ex_v (q : Q) : vec := [q].
Definition ex_state (n : nat) (nu : nat -> nat) : state nat nat nat nat nat :=
  let seqv := fun k => map (fun i => ex_v (inject_Z (Z.of_nat i))) (seq 0 k) in
  {| prob := {| p_x0 := Some (ex_v 0); p_init_nr := 1; p_init_ndx := 1;
        p_stages := map (fun i => ex_stage i (nu i)) (seq 0 n);
        p_term_nc := None; p_term_nx := 1; p_term_ndx := 1 |};
     rs := {| xs := seqv (S n);
              us := map (fun i => repeat (inject_Z (Z.of_nat i)) (nu i)) (seq 0 n);
              vs := seqv (S n); lams := seqv (S n);
              gains := map (fun v => [v]) (seqv (S n)) |};
     ws := {| nsteps := n; stage_data := seq 0 n; trial_xs := seqv (S n);
        trial_us := map (fun i => repeat (inject_Z (Z.of_nat i)) (nu i)) (seq 0 n);
        trial_vs := seqv (S n);
        trial_lams := seqv (S n); prev_xs := seqv (S n);
        prev_us := map (fun i => repeat (inject_Z (Z.of_nat i)) (nu i)) (seq 0 n);
        prev_vs := seqv (S n); knots := seq 0 (S n); psets := seq 0 (S n);
        pjacs := seq 0 (S n); active := repeat [true] (S n) |};
     datas := seq 0 (S n) |}.
Definition ex_cycles n nu nu' l :=
  cycles nat nat nat nat nat sid sid sid (fun k => k + 100) (ex_state n nu)
    (map (fun i => (ex_stage i nu', i, ex_v (inject_Z (Z.of_nat i)))) l).

Example C34_example :
  sized nat nat nat nat nat 3 (ex_state 3 (fun _ => 1)) /\
  match ex_cycles 3 (fun _ => 1) 1 [7; 8] with
  | Ok s => map sid (p_stages (prob _ _ _ _ _ s)) = [2; 7; 8] /\
      us (rs _ _ _ _ _ s) = [[2%Q]; [2%Q]; [2%Q]] /\
      xs (rs _ _ _ _ _ s) = [[8%Q]; [3%Q]; [3%Q]; [3%Q]] /\
      vs (rs _ _ _ _ _ s) = [[2%Q]; [0%Q]; [0%Q]; [3%Q]] /\
      lams (rs _ _ _ _ _ s) = [[0%Q]; [3%Q]; [0%Q]; [0%Q]]
  | _ => False
  end.
Proof. split; [vm_compute; repeat split|vm_compute; repeat split; reflexivity]. Qed.

(** Refuted for a horizon of one stage: cycleProblem rotates an empty range of
    [trial_us] (workspace.hxx 108). *)
Theorem C34_one_refuted : forall l, l <> [] ->
  ex_cycles 1 (fun _ => 1) 1 l = UB.
Proof.
  intros [|i l] H; [easy|].
  assert (F : forall j, cycle nat nat nat nat nat sid sid sid (fun k => k + 100)
     (ex_state 1 (fun _ => 1)) (ex_stage j 1) j (ex_v (inject_Z (Z.of_nat j))) = UB).
  { intros j. reflexivity. }
  unfold ex_cycles. simpl map. cbn [cycles]. rewrite F. reflexivity.
Qed.

(** Refuted when control dimensions differ between stages: although nothing
    raises, the last control of the warm start has the dimension of the stage
    before it, and the first trial control that of the stage dropped. *)
Theorem C34_dims_refuted :
  match ex_cycles 2 (fun i => if i =? 0 then 3 else 2) 1 [9] with
  | Ok s =>
      map s_nu (p_stages (prob _ _ _ _ _ s)) = [2; 1] /\
      map (@length Q) (us (rs _ _ _ _ _ s)) = [2; 2] /\
      map (@length Q) (trial_us _ _ _ _ (ws _ _ _ _ _ s)) = [3; 2]
  | _ => False
  end.
Proof. vm_compute. repeat split. Qed.

Print Assumptions C34_queue.
Print Assumptions C34_shift.
Print Assumptions C34_workspace.
Print Assumptions C34_runs.
Print Assumptions C34_replace.
Print Assumptions C34_one_refuted.
Print Assumptions C34_dims_refuted.
