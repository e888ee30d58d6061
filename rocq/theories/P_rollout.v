(** C43: rollouts. *)
From Coq Require Import QArith Qabs List Bool Arith Lia.
From Verif Require Import SearchModel SearchProofs RolloutModel P_search.
Import ListNotations.
Open Scope nat_scope.

(** Specification: [xs] starts at [x0], has one more element than [us], and
    consecutive states are related by [step i x u y] for the control at [i]. *)
Definition trajectory {X U} (step : nat -> X -> U -> X -> Prop) (x0 : X)
  (us : list U) (xs : list X) : Prop :=
  length xs = S (length us) /\ nth_error xs 0 = Some x0 /\
  forall i u, nth_error us i = Some u ->
    exists x y, nth_error xs i = Some x /\ nth_error xs (S i) = Some y /\
      step i x u y.

Lemma write_spec {A} (l : list A) i a : i < length l ->
  exists l', write l i a = Ok l' /\ length l' = length l /\
    nth_error l' i = Some a /\
    forall j, j <> i -> nth_error l' j = nth_error l j.
Proof.
  revert i. induction l as [|b l IH]; intros i Hi; simpl in Hi; [lia|].
  destruct i as [|i]; simpl.
  - eexists. repeat split. intros [|j] Hj; [lia|reflexivity].
  - destruct (IH i) as (l' & E & L & N & O); [lia|]. rewrite E.
    eexists. repeat split; simpl; auto. intros [|j] Hj; simpl; auto.
Qed.

Lemma resize_length {X} (empty : X) l n : length (resize X empty l n) = n.
Proof. unfold resize. rewrite app_length, firstn_length, repeat_length. lia. Qed.

Section Explicit.
  Variables X U : Type.
  Variable empty : X.
  Variable forward : nat -> X -> U -> option X.

  Lemma explicit_loop_spec model us : forall i xs, length xs = S (i + length us) ->
    match explicit_loop X U forward model i us xs with
    | Ok xs' => length xs' = length xs /\
        (forall j, j <= i -> nth_error xs' j = nth_error xs j) /\
        (forall k u, nth_error us k = Some u -> exists x y,
           nth_error xs' (i + k) = Some x /\ nth_error xs' (S (i + k)) = Some y /\
           forward (model (i + k)) x u = Some y)
    | Throw => exists k x u, forward (model k) x u = None
    | _ => False
    end.
  Proof.
    induction us as [|u us IH]; intros i xs L; cbn [explicit_loop].
    - repeat split; auto. intros [|k] u E; discriminate E.
    - destruct (nth_error xs i) as [x|] eqn:Ex.
      2:{ apply nth_error_None in Ex. simpl in L. lia. }
      destruct (forward (model i) x u) as [y|] eqn:Ey; [|eauto].
      destruct (write_spec xs (S i) y) as (xs1 & W & L1 & N1 & O1).
      { simpl in L. lia. }
      rewrite W. specialize (IH (S i) xs1).
      destruct (explicit_loop X U forward model (S i) us xs1) as [xs2| | |].
      2:{ apply IH. simpl in L. lia. }
      2:{ apply IH. simpl in L. lia. }
      2:{ apply IH. simpl in L. lia. }
      destruct IH as (L2 & P & St). { simpl in L. lia. }
      repeat split.
      + lia.
      + intros j Hj. rewrite P by lia. apply O1. lia.
      + intros [|k] v E; simpl in E.
        * injection E as <-. exists x, y. rewrite Nat.add_0_r.
          rewrite (P i), (O1 i), (P (S i)) by lia. auto.
        * destruct (St k v E) as (a & b & A & B & C).
          replace (i + S k) with (S i + k) by lia.
          exists a, b. auto.
  Qed.

  (** C43, one explicit model: for every output vector handed in, either the
      dynamics throw, or the output is the trajectory. *)
  Theorem C43_explicit_single : forall x0 us xout,
    match rollout_explicit_single X U empty forward x0 us xout with
    | Ok xs => trajectory (fun _ x u y => forward 0 x u = Some y) x0 us xs
    | Throw => exists x u, forward 0 x u = None
    | _ => False
    end.
  Proof.
    intros x0 us xout. unfold rollout_explicit_single.
    destruct (write_spec (resize X empty xout (S (length us))) 0 x0)
      as (xs & W & L & N & O).
    { rewrite resize_length. lia. }
    rewrite W. rewrite resize_length in L.
    assert (H := explicit_loop_spec (fun _ => 0) us 0 xs L).
    destruct (explicit_loop _ _ _ _ _ _ _) as [xs'| | |]; auto.
    - destruct H as (L' & P & St). repeat split; [lia| |].
      + now rewrite P by lia.
      + intros i u E. apply (St i u E).
    - destruct H as (_ & x & u & E). eauto.
  Qed.

  (** C43, several explicit models; the only other exception is the number of
      models. *)
  Theorem C43_explicit_multi : forall n x0 us xout,
    match fst (rollout_explicit_multi X U empty forward n x0 us xout) with
    | Ok xs => n = length us /\ trajectory (fun i x u y => forward i x u = Some y) x0 us xs
    | Throw => n <> length us \/ exists i x u, forward i x u = None
    | _ => False
    end.
  Proof.
    intros n x0 us xout. unfold rollout_explicit_multi.
    destruct (write_spec (resize X empty xout (S (length us))) 0 x0)
      as (xs & W & L & N & O).
    { rewrite resize_length. lia. }
    rewrite W. rewrite resize_length in L.
    destruct (n =? length us) eqn:En; simpl.
    2:{ left. now apply Nat.eqb_neq. }
    apply Nat.eqb_eq in En.
    assert (H := explicit_loop_spec (fun i => i) us 0 xs L).
    destruct (explicit_loop _ _ _ _ _ _ _) as [xs'| | |]; auto.
    destruct H as (L' & P & St). repeat split; [auto|lia| |].
    - now rewrite P by lia.
    - intros i u E. apply (St i u E).
  Qed.

  (** The allocating overloads. *)
  Theorem C43_explicit_alloc : forall n x0 us,
    rollout_explicit_single' X U empty forward x0 us =
      rollout_explicit_single X U empty forward x0 us [] /\
    rollout_explicit_multi' X U empty forward n x0 us =
      fst (rollout_explicit_multi X U empty forward n x0 us []).
  Proof. intros; split; reflexivity. Qed.

  (** Finding: the explicit overload checks the number of models only after it
      has resized and written the output. *)
  Theorem C43_late_check_refuted : forall n x0 us xout, n <> length us ->
    exists xs, rollout_explicit_multi X U empty forward n x0 us xout = (Throw, xs) /\
      length xs = S (length us) /\ nth_error xs 0 = Some x0.
  Proof.
    intros n x0 us xout H. unfold rollout_explicit_multi.
    destruct (write_spec (resize X empty xout (S (length us))) 0 x0)
      as (xs & W & L & N & O).
    { rewrite resize_length. lia. }
    rewrite W. apply Nat.eqb_neq in H. rewrite H. simpl. exists xs.
    rewrite resize_length in L. auto.
  Qed.
End Explicit.

Section Implicit.
  Variables X U V D : Type.
  Variable size : X -> nat.
  Variable empty : X.
  Variable resid : nat -> X -> U -> X -> V.
  Variable nrm : V -> option Q.
  Variable dir : nat -> X -> U -> X -> V -> D.
  Variable move : X -> Q -> D -> X.
  Variables eps alpha_min ls_beta c1 : Q.
  Variables fuel max_iters : nat.
  Variable nx : nat -> nat.
  Variable neutral : nat -> X.
  Hypothesis neutral_size : forall i, size (neutral i) = nx i.
  Hypothesis empty_size : size empty = 0.

  Local Notation newton i x u :=
    (nr_run X V D (resid i x u) nrm (dir i x u) move eps alpha_min ls_beta c1 fuel max_iters x).
  Local Notation loop := (implicit_loop X U V D size resid nrm dir move eps alpha_min
     ls_beta c1 fuel max_iters nx neutral).
  Local Notation single := (rollout_implicit_single X U V D size resid nrm dir move eps
     alpha_min ls_beta c1 fuel max_iters nx neutral).
  Local Notation multi := (rollout_implicit_multi X U V D size empty resid nrm dir move eps
     alpha_min ls_beta c1 fuel max_iters nx neutral).

  Definition newton_step (i : nat) (x : X) (u : U) (y : X) : Prop :=
    exists b r tr, newton i x u = Some (b, r, tr) /\ y = xout r.

  Lemma implicit_loop_spec model us : forall i xs, length xs = S i ->
    match loop model i us xs with
    | Ok xs' => length xs' = S i + length us /\
        (forall j, j <= i -> nth_error xs' j = nth_error xs j) /\
        (forall k u, nth_error us k = Some u -> exists x y,
           nth_error xs' (i + k) = Some x /\ nth_error xs' (S (i + k)) = Some y /\
           newton_step (model (i + k)) x u y)
    | OutOfFuel => exists k x u, newton (model k) x u = None
    | _ => False
    end.
  Proof.
    induction us as [|u us IH]; intros i xs L; cbn [implicit_loop].
    - repeat split; auto; [simpl; lia|]. intros [|k] u E; discriminate E.
    - assert (Lx : length (xs ++ [neutral (model i)]) = S (S i)).
      { rewrite app_length, L. simpl. lia. }
      assert (E1 : nth_error (xs ++ [neutral (model i)]) (S i) = Some (neutral (model i))).
      { rewrite nth_error_app2 by lia. now rewrite L, Nat.sub_diag. }
      rewrite E1.
      destruct (nth_error (xs ++ [neutral (model i)]) i) as [x|] eqn:Ex.
      2:{ apply nth_error_None in Ex. lia. }
      unfold forwardDynamics. rewrite neutral_size, Nat.eqb_refl. simpl negb.
      cbn iota. destruct (newton (model i) x u) as [[[b r] tr]|] eqn:En; [|eauto].
      destruct (write_spec (xs ++ [neutral (model i)]) (S i) (xout r))
        as (xs1 & W & L1 & N1 & O1); [lia|].
      rewrite W. specialize (IH (S i) xs1).
      destruct (loop model (S i) us xs1) as [xs2| | |];
        try (apply IH; lia).
      destruct IH as (L2 & P & St); [lia|].
      repeat split.
      + simpl in *. lia.
      + intros j Hj. rewrite P, O1 by lia. apply nth_error_app1. lia.
      + intros [|k] v E; simpl in E.
        * injection E as <-. exists x, (xout r). rewrite Nat.add_0_r.
          rewrite (P i), (O1 i), (P (S i)) by lia. repeat split; auto.
          exists b, r, tr. auto.
        * destruct (St k v E) as (a & c & A & B & C).
          replace (i + S k) with (S i + k) by lia.
          exists a, c. auto.
  Qed.

  (** C43, one implicit model: a trajectory whose steps are results of Newton's
      method; where Newton succeeded, the residual is at most [eps]. *)
  Theorem C43_implicit_single_partial :
    (0 < ls_beta)%Q -> (ls_beta <= 1)%Q -> (0 <= alpha_min)%Q -> forall x0 us,
    match single x0 us with
    | Ok xs => trajectory (fun _ x u y => exists b, (b = true <->
          exists e, nrm (resid 0 x u y) = Some e /\ (e <= eps)%Q) /\
          exists r tr, newton 0 x u = Some (b, r, tr) /\ y = xout r) x0 us xs
    | OutOfFuel => exists x u, newton 0 x u = None
    | _ => False
    end.
  Proof.
    intros Hb1 Hb2 Ha x0 us. unfold rollout_implicit_single.
    assert (H := implicit_loop_spec (fun _ => 0) us 0 [x0] eq_refl).
    destruct (loop (fun _ => 0) 0 us [x0]) as [xs| | |]; auto.
    - destruct H as (L & P & St). repeat split; [simpl in L; lia| |].
      + now rewrite P by lia.
      + intros i u E. destruct (St i u E) as (x & y & A & B & b & r & tr & C & ->).
        exists x, (xout r). repeat split; auto. exists b. split.
        * exact (proj1 (C11_newton_certificate X V D _ _ _ _ _ _ _ _ _ _ _ _ _ _
            Hb1 Hb2 Ha C)).
        * exists r, tr. auto.
    - destruct H as (_ & x & u & E). eauto.
  Qed.

  (** C43 refuted for several implicit models (a fresh output vector, as in the
      allocating overload, with states of positive size): the first element
      beyond x0 is an empty vector. *)
  Theorem C43_implicit_multi_refuted : forall x0 u us,
    0 < nx 0 -> multi (S (length us)) x0 (u :: us) [] = UB.
  Proof.
    intros x0 u us Hn. unfold rollout_implicit_multi. cbn [length].
    rewrite Nat.eqb_refl. simpl negb. cbn iota.
    unfold resize. simpl firstn. cbn [app]. rewrite Nat.sub_0_r.
    simpl. unfold forwardDynamics. rewrite empty_size.
    destruct (nx 0) as [|k]; [lia|]. reflexivity.
  Qed.

  (** and even with an output vector of N+1 states of the right sizes, the result
      has 2N+1 elements instead of N+1. *)
  Lemma implicit_loop_length model us : forall i xs xs',
    loop model i us xs = Ok xs' -> length xs' = length xs + length us.
  Proof.
    induction us as [|u us IH]; intros i xs xs' E; cbn [implicit_loop] in E.
    - injection E as <-. simpl. lia.
    - destruct (nth_error (xs ++ [neutral (model i)]) i) as [x|]; [|discriminate].
      destruct (nth_error (xs ++ [neutral (model i)]) (S i)) as [b|] eqn:Eb; [|discriminate].
      destruct (forwardDynamics _ _ _ _ _ _ _ _ _ _ _ _ _ _ _ _ _ _ _ _) as [y| | |];
        try discriminate.
      destruct (write_spec (xs ++ [neutral (model i)]) (S i) y) as (l & W & L & _).
      { apply nth_error_Some. congruence. }
      rewrite W in E. apply IH in E. rewrite E, L, app_length. simpl. lia.
  Qed.

  Theorem C43_implicit_multi_length_refuted : forall n x0 us xs0 xs,
    multi n x0 us xs0 = Ok xs -> length xs = 2 * length us + 1.
  Proof.
    intros n x0 us xs0 xs. unfold rollout_implicit_multi.
    destruct (n =? length us); [|discriminate]. simpl.
    destruct (write_spec (resize X empty xs0 (S (length us))) 0 x0)
      as (l & W & L & _). { rewrite resize_length. lia. }
    rewrite W. intros E. apply implicit_loop_length in E.
    rewrite E, L, resize_length. lia.
  Qed.
End Implicit.

(** A non-convergent implicit model goes unnoticed: x'^2 + 1 = 0 has no solution,
    and the rollout returns a state without any error. *)
Theorem C43_silent_failure_refuted :
  exists x1, rollout_implicit_single Q unit Q Q (fun _ => 1)
    (fun _ _ _ y => (y * y + 1)%Q) (fun v => Some (Qabs v))
    (fun _ _ _ y v => (- v / (2 * y))%Q) (fun x a d => Qred (x + a * d))
    (1#10) (1#10) (1#2) (1#100) 50 2 (fun _ => 1) (fun _ => 0%Q) 1%Q [tt] = Ok [1%Q; x1] /\
    ~ (Qabs (x1 * x1 + 1) <= 1#10)%Q.
Proof.
  eexists. split; [vm_compute; reflexivity|]. vm_compute. intros H. now apply H.
Qed.

Example C43_explicit_example :
  rollout_explicit_multi' Q Q 0%Q (fun i x u => Some (x + u * inject_Z (Z.of_nat i + 1))%Q)
    2 1%Q [2%Q; 3%Q] =
  Ok [1%Q; (1 + 2 * 1)%Q; (1 + 2 * 1 + 3 * 2)%Q].
Proof. reflexivity. Qed.

(** y - x - u = 0 with the exact Newton direction. *)
Example C43_implicit_example :
  rollout_implicit_single Q Q Q Q (fun _ => 1)
    (fun _ x u y => (y - x - u)%Q) (fun v => Some (Qabs v))
    (fun _ _ _ y v => (- v)%Q) (fun x a d => Qred (x + a * d))
    (1#10) (1#10) (1#2) (1#100) 50 2 (fun _ => 1) (fun _ => 0%Q) 1%Q [2%Q; 3%Q] =
  Ok [1%Q; 3%Q; 6%Q].
Proof. vm_compute. reflexivity. Qed.

(** With an output vector that already has N+1 states of the right size. *)
Example C43_multi_example :
  rollout_implicit_multi Q Q Q Q (fun _ => 1) 0%Q
    (fun _ x u y => (y - x - u)%Q) (fun v => Some (Qabs v))
    (fun _ _ _ y v => (- v)%Q) (fun x a d => Qred (x + a * d))
    (1#10) (1#10) (1#2) (1#100) 50 2 (fun _ => 1) (fun _ => 0%Q) 2 1%Q [2%Q; 3%Q] [] =
  Ok [1%Q; 3%Q; 6%Q; 0%Q; 0%Q].
Proof. vm_compute. reflexivity. Qed.

Print Assumptions C43_explicit_single.
Print Assumptions C43_explicit_multi.
Print Assumptions C43_explicit_alloc.
Print Assumptions C43_late_check_refuted.
Print Assumptions C43_implicit_single_partial.
Print Assumptions C43_implicit_multi_refuted.
Print Assumptions C43_implicit_multi_length_refuted.
Print Assumptions C43_silent_failure_refuted.
