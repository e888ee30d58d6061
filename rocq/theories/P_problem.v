(** C32: problem evaluation. *)
From Coq Require Import QArith List Arith Lia Permutation.
From Verif Require Import ProblemModel.
Import ListNotations.
Open Scope nat_scope.

Section C32.

Variables (X U V G H D : Type).
Local Notation stage := (stage X U V G H D).
Local Notation problem := (problem X U V G H D).
Local Notation data := (data X V G H D).
Local Notation stage_data := (stage_data X V G H D).
Local Notation stages := (stages X U V G H D).
Local Notation sds := (sds X V G H D).
Local Notation value := (value X V G H D).
Local Notation call := (call X U).
Local Notation iter := (iter X U V G H D).
Local Notation Ok := (Ok X U V G H D).
Local Notation Throw := (Throw X U V G H D).

Lemma upd_length {A} i (a : A) l : length (upd i a l) = length l.
Proof. revert i. induction l; intros [|i]; simpl; auto. Qed.

Lemma upd_same {A} i (a : A) l : i < length l -> nth_error (upd i a l) i = Some a.
Proof.
  revert i. induction l; intros [|i]; simpl; auto; try lia. intros. apply IHl. lia.
Qed.

Lemma upd_other {A} i j (a : A) l : i <> j -> nth_error (upd i a l) j = nth_error l j.
Proof.
  revert i j. induction l; intros [|i] [|j]; simpl; auto; try lia.
Qed.

Lemma nth_some {A} (l : list A) i : i < length l -> exists a, nth_error l i = Some a.
Proof.
  intros L. destruct (nth_error l i) eqn:E; eauto. apply nth_error_None in E. lia.
Qed.

(** The parallel loop, in any order without repetition. *)
Lemma loop_spec (f : stage -> X -> U -> stage_data -> stage_data) (p : problem)
  xs us ord : forall d log,
  (forall i, In i ord -> i < length (stages p)) -> NoDup ord ->
  length xs = length (stages p) + 1 -> length us = length (stages p) ->
  length d = length (stages p) ->
  exists d' log',
    fold_left (fun st i => iter f p xs us i st) ord (Some (d, log)) =
      Some (d', log ++ log') /\
    length d' = length d /\
    (forall i, In i ord -> exists s x u di,
       nth_error (stages p) i = Some s /\ nth_error xs i = Some x /\
       nth_error us i = Some u /\ nth_error d i = Some di /\
       nth_error d' i = Some (f s x u di)) /\
    (forall i, ~ In i ord -> nth_error d' i = nth_error d i) /\
    (forall c, In c log' <-> exists i x u, In i ord /\ c = CStage X U i x u /\
       nth_error xs i = Some x /\ nth_error us i = Some u) /\
    length log' = length ord.
Proof.
  induction ord as [|i ord IH]; intros d log Ho Nd Lx Lu Ld; cbn [fold_left].
  - exists d, []. rewrite app_nil_r. repeat split; auto; try easy.
    intros (i & x & u & [] & _).
  - inversion Nd as [|? ? Ni Nd']; subst.
    assert (Hi : i < length (stages p)) by (apply Ho; now left).
    destruct (nth_some (stages p) i Hi) as [s Es].
    destruct (nth_some xs i ltac:(lia)) as [x Ex].
    destruct (nth_some us i ltac:(lia)) as [u Eu].
    destruct (nth_some d i ltac:(lia)) as [di Ed].
    cbn [ProblemModel.iter]. rewrite Es, Ex, Eu, Ed.
    destruct (IH (upd i (f s x u di) d) (log ++ [CStage X U i x u]))
      as (d' & log' & E & L & A & B & C & K); auto.
    { intros j Hj. apply Ho. now right. }
    { now rewrite upd_length. }
    exists d', (CStage X U i x u :: log'). rewrite E. split.
    { now rewrite <- app_assoc. }
    split; [now rewrite L, upd_length|].
    split; [|split; [|split]].
    + intros j [<-|Hj].
      * exists s, x, u, di. repeat split; auto. rewrite (B i Ni).
        apply upd_same. lia.
      * destruct (A j Hj) as (s' & x' & u' & d'' & A1 & A2 & A3 & A4 & A5).
        exists s', x', u', d''. repeat split; auto.
        rewrite upd_other in A4; auto. intros <-. contradiction.
    + intros j Hj. rewrite B by (intros F; apply Hj; now right).
      apply upd_other. intros <-. apply Hj. now left.
    + intros c. simpl. rewrite C. split.
      * intros [<-|(j & x' & u' & Hj & F)].
        -- exists i, x, u. auto.
        -- exists j, x', u'. split; auto.
      * intros (j & x' & u' & [<-|Hj] & -> & F1 & F2).
        -- left. congruence.
        -- right. exists j, x', u'. auto.
    + simpl. now rewrite K.
Qed.

(** Specification of the cost: stage costs along the trajectory, then the
    terminal cost. *)
Fixpoint stage_costs (ss : list stage) (xs : list X) (us : list U) : Q :=
  match ss, xs, us with
  | s :: ss, x :: xs, u :: us => (scost X U V G H D s x u + stage_costs ss xs us)%Q
  | _, _, _ => 0%Q
  end.

Lemma sum_order_perm o o' (d : list stage_data) : Permutation o o' ->
  (sum_order X V G H D o d == sum_order X V G H D o' d)%Q.
Proof.
  set (t := fun i => match nth_error d i with Some x => value x | None => 0%Q end).
  assert (F : forall o acc, (fold_left (fun acc i =>
      match nth_error d i with Some x => acc + value x | None => acc end) o acc
      == acc + fold_right (fun i s => t i + s) 0 o)%Q).
  { induction o0 as [|i l IH]; intros acc; simpl.
    - ring.
    - rewrite IH. unfold t. destruct (nth_error d i); ring. }
  intros P. unfold sum_order. rewrite !F.
  assert (E : (fold_right (fun i s => t i + s) 0 o ==
               fold_right (fun i s => t i + s) 0 o')%Q).
  { induction P; simpl.
    - reflexivity.
    - now rewrite IHP.
    - ring.
    - now rewrite IHP1. }
  now rewrite E.
Qed.

Lemma sum_order_seq (d : list stage_data) : forall k (pre : list stage_data),
  k = length pre -> forall acc,
  (fold_left (fun acc i => match nth_error (pre ++ d) i with
      | Some x => acc + value x | None => acc end) (seq k (length d)) acc
   == acc + fold_right (fun x s => value x + s) 0 d)%Q.
Proof.
  induction d as [|a d IH]; intros k pre Hk acc; simpl.
  - ring.
  - rewrite nth_error_app2 by lia. rewrite Hk, Nat.sub_diag. simpl.
    replace (pre ++ a :: d) with ((pre ++ [a]) ++ d) by now rewrite <- app_assoc.
    rewrite (IH (S (length pre)) (pre ++ [a])).
    + ring.
    + rewrite app_length. simpl. lia.
Qed.

(** C32: with the right numbers of states and controls, whatever the order in
    which the stages are evaluated and the costs added: every stage is
    evaluated, once, at its state and control, nothing else is, and the value
    returned is the sum of all costs. *)
Theorem C32_evaluate : forall (p : problem) xs us d ord sord x0 xN,
  let n := length (stages p) in
  length xs = n + 1 -> length us = n -> length (sds d) = n ->
  Permutation ord (seq 0 n) -> Permutation sord (seq 0 n) ->
  nth_error xs 0 = Some x0 -> nth_error xs n = Some xN ->
  exists d' log,
    evaluate X U V G H D p xs us d ord sord = Ok d' log /\
    (cost _ _ _ _ _ d' == stage_costs (stages p) xs us + term _ _ _ _ _ _ p xN)%Q /\
    (forall i s x u, nth_error (stages p) i = Some s -> nth_error xs i = Some x ->
       nth_error us i = Some u -> exists sd, nth_error (sds d') i = Some sd /\
       xnext _ _ _ _ _ sd = dyn _ _ _ _ _ _ s x u /\
       cvals _ _ _ _ _ sd = map (fun c => c x u) (cstrs _ _ _ _ _ _ s) /\
       value sd = scost _ _ _ _ _ _ s x u) /\
    init_value _ _ _ _ _ d' = init_f _ _ _ _ _ _ p x0 /\
    term_value _ _ _ _ _ d' = term _ _ _ _ _ _ p xN /\
    term_cvals _ _ _ _ _ d' = map (fun c => c xN) (term_c _ _ _ _ _ _ p) /\
    (forall i x u, In (CStage X U i x u) log <->
       i < n /\ nth_error xs i = Some x /\ nth_error us i = Some u) /\
    length log = 2 + n + length (term_c _ _ _ _ _ _ p).
Proof.
  intros p xs us d ord sord x0 xN n Lx Lu Ld Po Ps E0 EN.
  assert (Nd : NoDup ord).
  { eapply Permutation_NoDup; [apply Permutation_sym; exact Po|apply seq_NoDup]. }
  assert (Io : forall i, In i ord <-> i < n).
  { intros i. split; intros F.
    - apply (Permutation_in _ Po) in F. apply in_seq in F. lia.
    - apply (Permutation_in _ (Permutation_sym Po)). apply in_seq. lia. }
  destruct (loop_spec (stage_evaluate X U V G H D) p xs us ord (sds d) [CInit X U x0])
    as (d' & log' & E & L & A & B & C & K); auto.
  { intros i F. now apply Io. }
  unfold evaluate. fold n. rewrite Lx, Lu, !Nat.eqb_refl. cbn [negb].
  destruct xs as [|x xs']; [discriminate|]. injection E0 as ->.
  rewrite EN, E. eexists. eexists. split; [reflexivity|].
  assert (Val : forall i s x u, nth_error (stages p) i = Some s ->
     nth_error (x0 :: xs') i = Some x -> nth_error us i = Some u ->
     exists sd, nth_error d' i = Some sd /\
       xnext _ _ _ _ _ sd = dyn _ _ _ _ _ _ s x u /\
       cvals _ _ _ _ _ sd = map (fun c => c x u) (cstrs _ _ _ _ _ _ s) /\
       value sd = scost _ _ _ _ _ _ s x u).
  { intros i s x u Es Ex Eu.
    assert (Hi : i < n) by (apply nth_error_Some; congruence).
    destruct (A i (proj2 (Io i) Hi)) as (s' & x' & u' & di & A1 & A2 & A3 & A4 & A5).
    rewrite A5. eexists. split; [reflexivity|].
    assert (s' = s) by congruence. assert (x' = x) by congruence.
    assert (u' = u) by congruence. subst. repeat split. }
  cbn [cost ProblemModel.sds init_value term_value term_cvals].
  split; [|split; [exact Val|split; [reflexivity|split; [reflexivity|split; [reflexivity|]]]]].
  - unfold trajectory_cost. rewrite (sum_order_perm _ _ d' Ps).
    assert (Hd : length d' = n) by (rewrite L; exact Ld).
    unfold sum_order. rewrite <- Hd.
    rewrite (sum_order_seq d' 0 [] eq_refl 0%Q).
    assert (S : (fold_right (fun x s => value x + s) 0 d' ==
                 stage_costs (stages p) (x0 :: xs') us)%Q).
    { clear -Val Hd Lx Lu. unfold n in *. revert Val Hd Lx Lu.
      generalize (x0 :: xs') as xs. revert us d'.
      induction (stages p) as [|s ss IH]; intros us d' xs Val Hd Lx Lu.
      - destruct d'; [|discriminate]. destruct xs; reflexivity.
      - destruct d' as [|sd d']; [discriminate|]. destruct xs as [|x xs]; [discriminate|].
        destruct us as [|u us]; [discriminate|].
        simpl in *. injection Hd as Hd. injection Lx as Lx. injection Lu as Lu.
        rewrite (IH us d' xs); auto.
        + destruct (Val 0 s x u eq_refl eq_refl eq_refl) as (sd' & F & _ & _ & F4).
          injection F as <-. rewrite F4. reflexivity.
        + intros i. apply (Val (S i)). }
    rewrite S. ring.
  - split.
    + intros i x u. rewrite !in_app_iff. split.
      * intros [[[F|[]]|F]|[[F|[]]|F]]; try discriminate F.
        -- apply C in F. destruct F as (j & x' & u' & Hj & F & F1 & F2).
           injection F as -> -> ->. apply Io in Hj. auto.
        -- apply in_map_iff in F. destruct F as (k & F & _). discriminate F.
      * intros (Hi & F1 & F2). left. right. apply C. exists i, x, u.
        split; [now apply Io|]. auto.
    + rewrite !app_length, K, map_length, seq_length.
      apply Permutation_length in Po. rewrite seq_length in Po. simpl. lia.
Qed.

(** C32, errors: with a wrong number of states or controls evaluation raises,
    before any component has been called and with the data unchanged. *)
Theorem C32_throws : forall (p : problem) xs us d ord sord,
  let n := length (stages p) in
  length xs <> n + 1 \/ length us <> n ->
  evaluate X U V G H D p xs us d ord sord = Throw d /\
  forall second, computeDerivatives X U V G H D p xs us d ord second = Throw d.
Proof.
  intros p xs us d ord sord n Hn. unfold evaluate, computeDerivatives. fold n.
  destruct (length xs =? n + 1) eqn:E; [|split; reflexivity].
  destruct (length us =? n) eqn:F; [|split; reflexivity].
  apply Nat.eqb_eq in E, F. lia.
Qed.

(** C32, derivatives: every stage is differentiated once at its state and
    control, and values are left as they are. *)
Theorem C32_derivatives : forall (p : problem) xs us d ord second x0 xN,
  let n := length (stages p) in
  length xs = n + 1 -> length us = n -> length (sds d) = n ->
  Permutation ord (seq 0 n) ->
  nth_error xs 0 = Some x0 -> nth_error xs n = Some xN ->
  exists d' log,
    computeDerivatives X U V G H D p xs us d ord second = Ok d' log /\
    cost _ _ _ _ _ d' = cost _ _ _ _ _ d /\
    (forall i s x u di, nth_error (stages p) i = Some s -> nth_error xs i = Some x ->
       nth_error us i = Some u -> nth_error (sds d) i = Some di ->
       exists sd, nth_error (sds d') i = Some sd /\
       dyn_J _ _ _ _ _ sd = dyn_jac _ _ _ _ _ _ s x u /\
       c_J _ _ _ _ _ sd = map (fun c => c x u) (cstrs_jac _ _ _ _ _ _ s) /\
       grad _ _ _ _ _ sd = scost_grad _ _ _ _ _ _ s x u /\
       hess _ _ _ _ _ sd = (if second then scost_hess _ _ _ _ _ _ s x u
                             else hess _ _ _ _ _ di) /\
       value sd = value di /\
       xnext _ _ _ _ _ sd = xnext _ _ _ _ _ di /\ cvals _ _ _ _ _ sd = cvals _ _ _ _ _ di) /\
    init_J _ _ _ _ _ d' = init_jac _ _ _ _ _ _ p x0 /\
    term_G _ _ _ _ _ d' = term_grad _ _ _ _ _ _ p xN /\
    (second = true -> term_H _ _ _ _ _ d' = term_hess _ _ _ _ _ _ p xN) /\
    term_cJ _ _ _ _ _ d' = map (fun c => c xN) (term_c_jac _ _ _ _ _ _ p).
Proof.
  intros p xs us d ord second x0 xN n Lx Lu Ld Po E0 EN.
  assert (Nd : NoDup ord).
  { eapply Permutation_NoDup; [apply Permutation_sym; exact Po|apply seq_NoDup]. }
  assert (Io : forall i, In i ord <-> i < n).
  { intros i. split; intros F.
    - apply (Permutation_in _ Po) in F. apply in_seq in F. lia.
    - apply (Permutation_in _ (Permutation_sym Po)). apply in_seq. lia. }
  destruct (loop_spec (stage_derivatives X U V G H D second) p xs us ord (sds d)
    [CInit X U x0]) as (d' & log' & E & L & A & B & C & K); auto.
  { intros i F. now apply Io. }
  unfold computeDerivatives. fold n. rewrite Lx, Lu, !Nat.eqb_refl. cbn [negb].
  destruct xs as [|x xs']; [discriminate|]. injection E0 as ->.
  rewrite EN, E. eexists. eexists. split; [reflexivity|]. cbn.
  split; [reflexivity|]. split.
  - intros i s x u di Es Ex Eu Ed.
    assert (Hi : i < n) by (apply nth_error_Some; congruence).
    destruct (A i (proj2 (Io i) Hi)) as (s' & x' & u' & di' & A1 & A2 & A3 & A4 & A5).
    rewrite A5. eexists. split; [reflexivity|].
    assert (s' = s) by congruence. assert (x' = x) by congruence.
    assert (u' = u) by congruence. assert (di' = di) by congruence.
    subst. repeat split.
  - repeat split. intros ->. reflexivity.
Qed.

End C32.

(** Witness: two stages with cost x + 10 u, terminal cost 100 x. *)
Definition ex_stage : stage Q Q Q Q Q Q :=
  {| dyn := fun x u => (x + u)%Q; dyn_jac := fun _ _ => 1%Q;
     cstrs := [fun x _ => x]; cstrs_jac := [fun _ _ => 1%Q];
     scost := fun x u => (x + 10 * u)%Q; scost_grad := fun _ _ => 1%Q;
     scost_hess := fun _ _ => 0%Q |}.
Definition ex_problem : problem Q Q Q Q Q Q :=
  {| init_f := fun x => x; init_jac := fun _ => 1%Q; stages := [ex_stage; ex_stage];
     term := fun x => (100 * x)%Q; term_grad := fun _ => 100%Q;
     term_hess := fun _ => 0%Q; term_c := [fun x => x]; term_c_jac := [fun _ => 1%Q] |}.
Definition ex_sd : stage_data Q Q Q Q Q :=
  {| xnext := 0%Q; dyn_J := 0%Q; cvals := [0%Q]; c_J := [0%Q]; value := 7%Q;
     grad := 0%Q; hess := 0%Q |}.
Definition ex_data : data Q Q Q Q Q :=
  {| init_value := 0%Q; init_J := 0%Q; sds := [ex_sd; ex_sd]; term_value := 0%Q;
     term_G := 0%Q; term_H := 0%Q; term_cvals := [0%Q]; term_cJ := [0%Q];
     cost := 0%Q |}.

Example C32_example :
  match evaluate Q Q Q Q Q Q ex_problem [1%Q; 2%Q; 3%Q] [4%Q; 5%Q] ex_data [1; 0] [0; 1] with
  | Ok _ _ _ _ _ _ d log =>
      (cost _ _ _ _ _ d == 393)%Q /\ length log = 5 /\
      map (xnext _ _ _ _ _) (sds _ _ _ _ _ d) = [5%Q; 7%Q]
  | _ => False
  end /\
  evaluate Q Q Q Q Q Q ex_problem [1%Q; 2%Q] [4%Q; 5%Q] ex_data [1; 0] [0; 1] =
    Throw _ _ _ _ _ _ ex_data.
Proof. vm_compute. repeat split. Qed.

Print Assumptions C32_evaluate.
Print Assumptions C32_throws.
Print Assumptions C32_derivatives.
