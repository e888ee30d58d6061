(** C71: sizes in the dense Riccati solver. *)
From Coq Require Import List Arith Bool Lia.
From Verif Require Import KnotModel DenseShapeModel.
Import ListNotations.
Open Scope nat_scope.

(** ** Specification *)
Definition zero_dims : dims := Dims 0 0 0 0 0.
Definition first (p : lqp) : dims := hd zero_dims (stages p).
(** a problem with a horizon of one or more, where every knot ends in the state space of the
    next, with one number of parameters, and an initial condition on the first state *)
Definition wf (p : lqp) : Prop :=
  2 <= length (stages p) /\
  (forall i d d', nth_error (stages p) i = Some d -> nth_error (stages p) (S i) = Some d' -> nx2 d = nx d') /\
  (forall d, In d (stages p) -> nth d = nth (first p)) /\
  snd (g0 p) = 1 /\ G0 p = (fst (g0 p), nx (first p)).
(** the sizes a solution has *)
Definition solution (p : lqp) : sizes :=
  Sizes (map nx (stages p)) (map (fun d => if nu d =? 0 then None else Some (nu d)) (stages p))
        (map nc (stages p)) (fst (g0 p) :: map nx (tl (stages p))).
(** what forward may be given: the vectors the asserts ask for, and one for every knot with
    controls; a parameter of the right size, if any *)
Definition accepted (p : lqp) (g : given) (th : option nat) : Prop :=
  let N := horizon p in
  g_xs g = N + 1 /\ g_vs g = N + 1 /\ g_ls g = N + 1 /\ N <= g_us g /\
  (nu (last (stages p) zero_dims) <> 0 -> N + 1 <= g_us g) /\
  (th = None \/ th = Some (nth (first p))).
(** a new knot that has the dimensions of the one that leaves, where the next knot has as many
    states *)
Definition keeps (p : lqp) (d : dims) : Prop := d = first p /\ nx (first (cycled p d)) = nx (first p).
Fixpoint legal (p : lqp) (l : list event) : Prop :=
  match l with
  | [] => True
  | Backward :: l' => legal p l'
  | Forward g th :: l' => accepted p g th /\ legal p l'
  | Cycle d :: l' => wf (cycled p d) /\ keeps p d /\ legal (cycled p d) l'
  end.
Fixpoint expected (p : lqp) (l : list event) : list sizes :=
  match l with
  | [] => []
  | Backward :: l' => expected p l'
  | Forward _ _ :: l' => solution p :: expected p l'
  | Cycle d :: l' => expected (cycled p d) l'
  end.
(** the buffers of a solver have the sizes of the problem *)
Definition fits (p : lqp) (s : dense) : Prop :=
  s = Dense (map new_data (stages p)) (map new_value (stages p)) (nx (first p), fst (g0 p)) (nth (first p))
            (nth (first p), 1) (nth (first p), nth (first p)).

(** ** One stage *)
Lemma same_refl a : same a a = true.
Proof. unfold same. now rewrite !Nat.eqb_refl. Qed.
Lemma same_eq a b : same a b = true -> a = b.
Proof.
  unfold same. intro H. apply andb_true_iff in H as [H1 H2]. apply Nat.eqb_eq in H1, H2.
  destruct a, b; cbn in *; congruence.
Qed.
Lemma fit_eq a b : fit (Some a) (Some b) = true -> a = b.
Proof. apply same_eq. Qed.
Ltac sizes := repeat (rewrite Nat.eqb_refl || cbn).
Lemma stage_ok d w : nx2 d = nx w -> nth d = nth w ->
  all (stage_checks d (new_data d) (new_value d) (new_value w)) = true.
Proof.
  destruct d as [a b c e t], w as [a' b' c' e' t']. cbn [nx nu nc nx2 nth]. intros <- <-.
  cbv [stage_checks all fit add mul tr option_map same K kkt ff fb ft row new_data new_value shape
       nx nu nc nx2 nth blk fbc ftc Pxx Pxt Ptt px pt List.nth fst snd forallb].
  now sizes.
Qed.
Lemma terminal_ok d : all (terminal_checks d (new_data d) (new_value d)) = true.
Proof.
  destruct d as [a b c e t].
  cbv [terminal_checks all fit add mul tr option_map same K kkt ff fb ft row new_data new_value shape
       nx nu nc nx2 nth blk fbc ftc Pxx Pxt Ptt px pt List.nth fst snd forallb].
  now sizes.
Qed.
Lemma all_in l b : all l = true -> In b l -> b = true.
Proof. unfold all. intros H I. rewrite forallb_forall in H. exact (H b I). Qed.
Lemma stage_only d a v w : all (stage_checks d (new_data a) v w) = true ->
  nx d = nx a /\ nu d = nu a /\ nc d = nc a /\ nx2 d = nx2 a.
Proof.
  intro H.
  assert (E1 : fit (kkt (new_data a) 0 0) (K d 2) = true) by (apply (all_in _ _ H); left; reflexivity).
  assert (E2 : fit (kkt (new_data a) 1 0) (K d 9) = true) by (apply (all_in _ _ H); right; left; reflexivity).
  assert (E3 : fit (kkt (new_data a) 2 0) (K d 6) = true) by (apply (all_in _ _ H); do 3 right; left; reflexivity).
  assert (E4 : fit (fb (new_data a) 0) (tr (K d 1)) = true) by (apply (all_in _ _ H); do 10 right; left; reflexivity).
  apply fit_eq in E1, E2, E3, E4. cbn in E1, E2, E3, E4.
  injection E1; injection E2; injection E3; injection E4; intros; repeat split; congruence.
Qed.

(** ** Backward *)
Lemma nth_error_map' {A B} (f : A -> B) l i : nth_error (map f l) i = option_map f (nth_error l i).
Proof. revert i. induction l; destruct i; cbn; auto. Qed.
Lemma first_in p : stages p <> [] -> nth_error (stages p) 0 = Some (first p).
Proof. unfold first. now destruct (stages p). Qed.
Lemma backward_ok p s : wf p -> fits p s -> backward p s = Some s.
Proof.
  intros (HN & HC & HT & Hg & HG) ->. unfold backward, horizon.
  destruct (Nat.eqb_spec (length (stages p) - 1) 0) as [E|_]; [lia|].
  assert (T : terminal_runs p (Dense (map new_data (stages p)) (map new_value (stages p)) (nx (first p), fst (g0 p))
     (nth (first p)) (nth (first p), 1) (nth (first p), nth (first p))) = true).
  { unfold terminal_runs. cbn [fac vals]. rewrite !nth_error_map'.
    destruct (nth_error (stages p) (horizon p)) as [d|] eqn:E; cbn [option_map]; [apply terminal_ok|].
    apply nth_error_None in E. unfold horizon in E. lia. }
  rewrite T. cbn [andb].
  rewrite (proj2 (forallb_forall _ _)).
  2:{ intros i Hi. apply in_seq in Hi. unfold stage_runs. cbn [fac vals]. rewrite !nth_error_map'.
      destruct (nth_error (stages p) i) as [d|] eqn:E; [|apply nth_error_None in E; lia].
      destruct (nth_error (stages p) (S i)) as [d'|] eqn:E'; [|apply nth_error_None in E'; lia].
      cbn [option_map]. apply stage_ok; [exact (HC i d d' E E')|].
      rewrite (HT d) by (eapply nth_error_In; eassumption).
      rewrite (HT d') by (eapply nth_error_In; eassumption). reflexivity. }
  cbn [vals fac k0 k0c]. rewrite nth_error_map', first_in by (intro X; rewrite X in HN; cbn in HN; lia).
  cbn [option_map]. rewrite HG. destruct (g0 p) as [m o]. cbn [fst snd] in *. subst o.
  set (d := first p). destruct d as [a b c e t].
  cbv [all fit add mul tr option_map same new_value nx nu nc nx2 nth Pxx Pxt Ptt px pt fst snd forallb].
  now sizes.
Qed.

(** ** Forward *)
Lemma forward_from_ok l : forall i nus th t,
  (forall j d d', nth_error l j = Some d -> nth_error l (S j) = Some d' -> nx2 d = nx d') ->
  (forall d, In d l -> nth d = t) -> (th = None \/ th = Some t) -> l <> [] ->
  (forall j d, nth_error l j = Some d -> nu d <> 0 -> i + j < nus) ->
  forward_from l (map new_data l) i (nx (hd zero_dims l)) nus th =
  Some (Sizes (map nx l) (map (fun d => if nu d =? 0 then None else Some (nu d)) l) (map nc l) (map nx (tl l))).
Proof.
  induction l as [|d l IH]; intros i nus th t HC HT Hth HE HU; [easy|].
  cbn [forward_from map hd].
  assert (A : affine (fbc (new_data d)) (nx d) (ftc (new_data d)) th = true).
  { unfold affine. cbn [new_data fbc ftc]. rewrite Nat.eqb_refl. cbn [andb].
    destruct Hth as [->| ->]; [reflexivity|]. apply Nat.eqb_eq. apply HT. now left. }
  rewrite A. cbn [andb].
  assert (U : (nu d =? 0) || (i <? nus) = true).
  { destruct (Nat.eqb_spec (nu d) 0) as [|N]; [reflexivity|]. apply Nat.ltb_lt.
    specialize (HU 0 d eq_refl N). lia. }
  rewrite U. destruct l as [|d' l]; [reflexivity|].
  change (row (new_data d) 3) with (nx2 d). rewrite (HC 0 d d' eq_refl eq_refl).
  specialize (IH (S i) nus th t). cbn [hd] in IH. rewrite IH.
  - cbn [xs us vs ls tl map hd]. change (row (new_data d) 2) with (nx2 d). now rewrite (HC 0 d d' eq_refl eq_refl).
  - intros j x x'. exact (HC (S j) x x').
  - intros x Hx. apply HT. now right.
  - exact Hth.
  - easy.
  - intros j x Hx Nx. specialize (HU (S j) x Hx Nx). lia.
Qed.
Lemma last_nth_error {A} (l : list A) z j : length l = S j -> nth_error l j = Some (last l z).
Proof.
  intro H. destruct l as [|a l] using rev_ind; [discriminate|]. rewrite app_length in H. cbn in H.
  rewrite last_last, nth_error_app2 by lia. now replace (j - length l) with 0 by lia.
Qed.
Lemma forward_ok p s g th : wf p -> fits p s -> accepted p g th -> forward p s g th = Some (solution p).
Proof.
  intros (HN & HC & HT & Hg & HG) -> (G1 & G2 & G3 & G4 & G5 & Hth). unfold forward. cbn [fac vals k0 k0c fst snd].
  rewrite G1, G2, G3, Nat.eqb_refl. rewrite (proj2 (Nat.leb_le _ _) G4). cbn [andb].
  replace (match th with Some t => nth (first p) =? t | None => true end) with true
    by (destruct Hth as [->| ->]; [reflexivity|now rewrite Nat.eqb_refl]).
  assert (Q := forward_from_ok (stages p) 0 (g_us g) th (nth (first p)) HC HT Hth). fold (first p) in Q.
  rewrite Q; [reflexivity| |].
  - intro X. rewrite X in HN. cbn in HN. lia.
  - intros j d E N. assert (L : j < length (stages p)) by (apply nth_error_Some; congruence).
    unfold horizon in *. destruct (Nat.eq_dec (S j) (length (stages p))) as [J|J]; [|lia].
    rewrite (last_nth_error (stages p) zero_dims j) in E by lia. injection E as E. rewrite <- E in N.
    specialize (G5 N). lia.
Qed.

(** ** cycleAppend *)
Lemma removelast_map {A B} (f : A -> B) l : removelast (map f l) = map f (removelast l).
Proof. induction l as [|a [|b l] IH]; cbn in *; congruence. Qed.
Lemma last_map {A B} (f : A -> B) l z : last (map f l) (f z) = f (last l z).
Proof. induction l as [|a [|b l] IH]; cbn in *; auto. Qed.
Lemma rotate_map {A B} (f : A -> B) l : rotate (map f l) = map f (rotate l).
Proof. destruct l as [|a t]; [reflexivity|]. cbn [map rotate]. now rewrite removelast_map, last_map, map_app. Qed.
Lemma length_removelast {A} (l : list A) : length (removelast l) = length l - 1.
Proof. induction l as [|a [|b l] IH]; cbn in *; lia. Qed.
Lemma set_nth_app {A} (l r : list A) a b : set_nth (l ++ a :: r) (length l) b = l ++ b :: r.
Proof. induction l; cbn; congruence. Qed.
Lemma cycle_state p s a t d : fits p s -> stages p = a :: t -> t <> [] ->
  cycle_append (cycled p d) s d =
  Some (Dense (map new_data (removelast t ++ [a; last t a])) (map new_value (stages (cycled p d)))
              (nx a, fst (g0 p)) (nth a) (nth a, 1) (nth a, nth a)).
Proof.
  intros -> E T. unfold cycle_append, cycled, first, horizon. rewrite E. cbn [stages fac vals k0 k0c thG thH hd].
  assert (L : length (removelast t ++ [d; last t a]) - 1 = S (length (removelast t)))
    by (rewrite app_length; cbn [length]; lia).
  rewrite L. cbn [Nat.eqb]. f_equal. rewrite !rotate_map. cbn [rotate].
  replace (S (length (removelast t)) - 1) with (length (map new_value (removelast t)))
    by (rewrite map_length; lia).
  rewrite !map_app. cbn [map]. now rewrite set_nth_app.
Qed.
Lemma cycle_keeps p s d : wf p -> fits p s -> wf (cycled p d) -> keeps p d ->
  exists s', cycle_append (cycled p d) s d = Some s' /\ fits (cycled p d) s'.
Proof.
  intros W F W' (Kd & Kn). assert (HN := proj1 W).
  destruct (stages p) as [|a [|b t]] eqn:E; cbn [length] in HN; try lia.
  eexists. split; [apply (cycle_state p s a (b :: t) d F E); easy|].
  unfold fits. rewrite Kn. assert (Fa : first p = a) by (unfold first; now rewrite E).
  assert (Da : d = a) by congruence. subst d.
  assert (C : stages (cycled p (first p)) = removelast (b :: t) ++ [a; last (b :: t) a]).
  { unfold cycled. rewrite E. cbn [stages]. now rewrite Fa. }
  assert (Ci : In a (stages (cycled p (first p)))) by (rewrite C; apply in_or_app; right; now left).
  assert (Na : nth a = nth (first (cycled p (first p)))) by (apply W'; exact Ci).
  rewrite C, Fa in *. rewrite <- Na.
  replace (g0 (cycled p a)) with (g0 p) by (unfold cycled; now rewrite E). reflexivity.
Qed.

(** ** Theorem: on a consistent problem, whatever the sequence of calls, every statement finds
    the sizes it needs, and every solution has the sizes of the problem.  cycleAppend is in
    the sequence only for knots with the dimensions of the one that leaves. *)
Theorem C71_sessions_partial : forall p, wf p ->
  exists s, construct p = Some s /\ fits p s /\
  forall l, legal p l ->
  exists p' s', session p s l = Some (expected p l, (p', s')) /\ fits p' s'.
Proof.
  intros p W. assert (E : exists s, construct p = Some s /\ fits p s).
  { destruct W as (HN & _). unfold construct, fits, first. destruct (stages p) as [|a t] eqn:E; [cbn in HN; lia|].
    eexists. split; reflexivity. }
  destruct E as (s & E & F). exists s. split; [exact E|]. split; [exact F|]. clear E.
  intro l. revert p s W F. induction l as [|[|g th|d] l IH]; intros p s W F L; cbn [session legal expected] in *.
  - exists p, s. now split.
  - rewrite (backward_ok p s W F). now apply IH.
  - destruct L as [A L]. rewrite (forward_ok p s g th W F A).
    destruct (IH p s W F L) as (p' & s' & R & F'). exists p', s'. now rewrite R.
  - destruct L as (W' & Kd & L). destruct (cycle_keeps p s d W F W' Kd) as (s1 & R1 & F1). rewrite R1.
    now apply IH.
Qed.

(** whatever knot is appended, cycleAppend gives the value function of every stage the size it
    has in the new problem; the factors are those of the problem with the old knot at the end *)
Theorem C71_cycle_buffers : forall p s d, wf p -> fits p s ->
  exists s', cycle_append (cycled p d) s d = Some s' /\
    vals s' = map new_value (stages (cycled p d)) /\ fac s' = map new_data (stages (cycled p (first p))) /\
    k0 s' = (nx (first p), fst (g0 p)) /\ k0c s' = nth (first p).
Proof.
  intros p s d W F. assert (HN := proj1 W).
  destruct (stages p) as [|a [|b t]] eqn:E; cbn [length] in HN; try lia.
  eexists. split; [apply (cycle_state p s a (b :: t) d F E); easy|].
  cbn [vals fac k0 k0c]. unfold first, cycled. rewrite E. now repeat split.
Qed.

(** ** Counterexamples *)
(** after cycleAppend, for a consistent problem, backward runs exactly if the new knot has the
    dimensions of the one that left and the first state keeps its dimension *)
Theorem C71_cycle_refuted : forall p s d, wf p -> fits p s -> wf (cycled p d) ->
  exists s', cycle_append (cycled p d) s d = Some s' /\
  (backward (cycled p d) s' <> None <-> keeps p d).
Proof.
  intros p s d W F W'. assert (HN := proj1 W).
  destruct (stages p) as [|a [|b t]] eqn:E; cbn [length] in HN; try lia.
  assert (Fa : first p = a) by (unfold first; now rewrite E).
  eexists. split; [apply (cycle_state p s a (b :: t) d F E); easy|].
  split.
  2:{ intro Kd. destruct (cycle_keeps p s d W F W' Kd) as (s' & R & F').
      rewrite (cycle_state p s a (b :: t) d F E) in R by easy.
      assert (R' : forall x, Some x = Some s' -> backward (cycled p d) x <> None).
      { intros x X. assert (x = s') by congruence. subst x. now rewrite (backward_ok _ _ W' F'). }
      exact (R' _ R). }
  intro B. assert (C : stages (cycled p d) = removelast (b :: t) ++ [d; last (b :: t) a]).
  { unfold cycled. now rewrite E. }
  set (q := removelast (b :: t)) in *. set (z := last (b :: t) a) in *. clearbody q z.
  assert (HZ : horizon (cycled p d) = S (length q)) by (unfold horizon; rewrite C, app_length; cbn [length]; lia).
  unfold backward in B. rewrite HZ in B. cbn [Nat.eqb] in B.
  match type of B with context [if ?x && ?y then _ else _] => destruct x; cbn [andb] in B; [|easy];
    destruct y eqn:R; [|easy] end.
  rewrite forallb_forall in R. specialize (R (length q)).
  assert (I : In (length q) (seq 0 (S (length q)))) by (apply in_seq; lia). specialize (R I).
  unfold stage_runs in R. cbn [fac vals] in R. rewrite C, !nth_error_map' in R.
  rewrite !nth_error_app2, Nat.sub_diag in R by lia. cbn [nth_error option_map] in R.
  replace (S (length q) - length q) with 1 in R by lia. cbn [nth_error option_map] in R.
  apply stage_only in R. destruct R as (R1 & R2 & R3 & R4).
  assert (Fq : nth_error (stages (cycled p d)) 0 = Some (first (cycled p d))).
  { apply first_in. rewrite C. now destruct q. }
  cbn [vals fac k0 k0c] in B. rewrite nth_error_map', Fq in B. cbn [option_map fst snd] in B.
  match type of B with context [if all ?x then _ else _] => destruct (all x) eqn:A; [|easy] end.
  assert (A1 := all_in _ _ A (or_introl eq_refl)). apply fit_eq in A1. cbn in A1. injection A1 as A1.
  assert (Nt : nth d = nth a).
  { assert (Hd : nth d = nth (first (cycled p d))).
    { apply W'. rewrite C. apply in_or_app. right. now left. }
    assert (X : exists x, In x (stages p) /\ In x (stages (cycled p d))).
    { exists z. split.
      - unfold cycled in C. rewrite E in C. cbn [stages] in C.
        change [d; last (b :: t) a] with ([d] ++ [last (b :: t) a]) in C. change [d; z] with ([d] ++ [z]) in C.
        rewrite !app_assoc in C. apply app_inj_tail in C as [_ <-]. rewrite E. right.
        rewrite (app_removelast_last a (l := b :: t)) at 2 by easy. apply in_or_app. right. now left.
      - rewrite C. apply in_or_app. right. right. now left. }
    destruct X as (x & X1 & X2). destruct W as (_ & _ & HT & _). destruct W' as (_ & _ & HT' & _).
    rewrite Hd, <- (HT' x X2), (HT x X1). now rewrite Fa. }
  unfold keeps. rewrite Fa. split; [|congruence].
  destruct d, a. cbn in *. congruence.
Qed.
(** with one knot only backward reads stages[4294967295] *)
Theorem C71_horizon_refuted : forall d m s, let p := Lqp [d] (m, nx d) (m, 1) in
  construct p = Some s -> backward p s = None.
Proof. reflexivity. Qed.
(** the asserts of forward admit N vectors of controls: if the terminal knot has controls,
    us[N] is read *)
Theorem C71_controls_refuted : forall p s th, wf p -> fits p s -> nu (last (stages p) zero_dims) <> 0 ->
  let N := horizon p in forward p s (Given (N + 1) N (N + 1) (N + 1)) th = None.
Proof.
  intros p s th (HN & _) -> Hu. unfold forward. cbn [fac vals k0 k0c fst snd g_xs g_us g_vs g_ls].
  match goal with |- context [if ?x then _ else _] => destruct x; [|reflexivity] end.
  match goal with |- match ?x with _ => _ end = _ => replace x with (@None sizes); [reflexivity|] end. symmetry.
  assert (G : forall l i x, l <> [] -> nu (last l zero_dims) <> 0 ->
    forward_from l (map new_data l) i x (i + (length l - 1)) th = None).
  { induction l as [|d l IH]; intros i x Hl Hn; [easy|]. cbn [forward_from map].
    destruct l as [|d' l].
    - cbn [last length Nat.sub] in *. rewrite Nat.add_0_r, Nat.ltb_irrefl.
      destruct (Nat.eqb_spec (nu d) 0); [contradiction|]. now rewrite andb_false_r.
    - match goal with |- context [if ?x then _ else _] => destruct x; [|reflexivity] end.
      replace (i + (length (d :: d' :: l) - 1)) with (S i + (length (d' :: l) - 1)) by (cbn; lia).
      now rewrite (IH (S i)). }
  apply (G (stages p) 0); [|exact Hu]. intro X. rewrite X in HN. cbn in HN. lia.
Qed.

(** ** Examples *)
Definition ka : dims := Dims 3 2 1 3 2.
Definition kT : dims := Dims 3 0 2 0 2.
Definition ex_p : lqp := Lqp [ka; Dims 3 1 0 3 2; kT] (3, 3) (3, 1).
Definition ex_l : list event :=
  [Backward; Forward (Given 3 2 3 3) (Some 2); Cycle ka; Backward; Forward (Given 3 3 3 3) None].
Example C71_sessions_example : wf ex_p /\ legal ex_p ex_l /\
  expected ex_p ex_l =
  [Sizes [3; 3; 3] [Some 2; Some 1; None] [1; 0; 2] [3; 3; 3];
   Sizes [3; 3; 3] [Some 1; Some 2; None] [0; 1; 2] [3; 3; 3]].
Proof.
  assert (W : forall k k', nx k = 3 -> nx2 k = 3 -> nth k = 2 -> nx k' = 3 -> nx2 k' = 3 -> nth k' = 2 ->
    wf (Lqp [k; k'; kT] (3, 3) (3, 1))).
  { intros k k' H1 H2 H3 H4 H5 H6. repeat split; cbn [stages G0 g0 fst snd length first hd]; try lia.
    - intros [|[|[|i]]] d d' E E'; cbn in E, E'; try discriminate.
      all: try (injection E as <-; injection E' as <-; cbn; congruence).
    - unfold first. cbn. intros d [<-|[<-|[<-|[]]]]; cbn; congruence.
    - unfold first. cbn. now rewrite H1. }
  split; [now apply W|]. split; [|reflexivity].
  cbn [legal ex_l]. split; [|split; [|split; [|split; [|exact I]]]].
  - repeat split; cbn; try lia. now right.
  - now apply W.
  - split; reflexivity.
  - repeat split; cbn; try lia. now left.
Qed.
(** a new knot with one control less: the problem is consistent, backward fails *)
Example C71_cycle_example : wf (cycled ex_p (Dims 3 1 1 3 2)) /\ ~ keeps ex_p (Dims 3 1 1 3 2).
Proof.
  split; [|intros [X _]; discriminate]. repeat split; cbn; try lia.
  - intros [|[|[|i]]] d d' E E'; cbn in E, E'; try discriminate.
    all: try (injection E as <-; injection E' as <-; reflexivity).
  - intros d [<-|[<-|[<-|[]]]]; reflexivity.
Qed.
Definition ex_q : lqp := Lqp [ka; Dims 3 1 2 0 2] (3, 3) (3, 1).
Example C71_controls_example : wf ex_q /\ nu (last (stages ex_q) zero_dims) <> 0.
Proof.
  split; [|easy]. repeat split; cbn; try lia.
  - intros [|[|i]] d d' E E'; cbn in E, E'; try discriminate.
    all: try (injection E as <-; injection E' as <-; reflexivity).
  - intros d [<-|[<-|[]]]; reflexivity.
Qed.
