(** C33: warm start assignment. *)
From Coq Require Import QArith List Bool Arith Lia.
From Verif Require Import WarmModel.
Import ListNotations.
Open Scope nat_scope.

(** Specification: two trajectories have the same shape. *)
Definition same_shape (a b : list vec) : Prop :=
  length a = length b /\
  forall i va vb, nth_error a i = Some va -> nth_error b i = Some vb ->
    length va = length vb.

Lemma assign_loop_spec lhs : forall rhs, length lhs = length rhs ->
  (fst (assign_loop lhs rhs) = true <-> same_shape lhs rhs) /\
  (fst (assign_loop lhs rhs) = true -> snd (assign_loop lhs rhs) = lhs) /\
  (fst (assign_loop lhs rhs) = false -> exists k a b,
     nth_error lhs k = Some a /\ nth_error rhs k = Some b /\ length a <> length b /\
     (forall i va vb, i < k -> nth_error lhs i = Some va -> nth_error rhs i = Some vb ->
        length va = length vb) /\
     snd (assign_loop lhs rhs) = firstn k lhs ++ skipn k rhs).
Proof.
  induction lhs as [|a lhs IH]; intros [|b rhs] H; simpl in H; try discriminate.
  - simpl. repeat split; auto; try easy. intros i va vb E. destruct i; discriminate.
  - injection H as H. destruct (IH rhs H) as (A & B & C). simpl.
    destruct (length a =? length b) eqn:E.
    + apply Nat.eqb_eq in E.
      destruct (assign_loop lhs rhs) as [ok r]. simpl in *. repeat split.
      * simpl. lia.
      * apply A in H0. destruct H0 as [_ F]. intros [|i] va vb; simpl; [|apply F].
        intros X Y. injection X as <-. injection Y as <-. exact E.
      * intros [_ F]. apply A. split; auto. intros i. apply (F (S i)).
      * intros Ok. now rewrite (B Ok).
      * intros Ok. destruct (C Ok) as (k & u & v & C1 & C2 & C3 & C4 & C5).
        exists (S k), u, v. simpl. repeat split; auto.
        -- intros [|i] va vb Hi; simpl; [|apply C4; lia].
           intros X Y. injection X as <-. injection Y as <-. exact E.
        -- now rewrite C5.
    + apply Nat.eqb_neq in E. simpl. repeat split; try easy.
      * intros [_ F]. exfalso. apply E. now apply (F 0).
      * intros _. exists 0, a, b. simpl. repeat split; auto. intros i; lia.
Qed.

(** C33, assignment: [assign_no_resize] succeeds exactly when both have the
    same shape, and then copies all. *)
Theorem C33_assign : forall lhs rhs,
  (fst (assign_no_resize lhs rhs) = true <-> same_shape lhs rhs) /\
  (same_shape lhs rhs -> snd (assign_no_resize lhs rhs) = lhs).
Proof.
  intros lhs rhs. unfold assign_no_resize.
  destruct (length lhs =? length rhs) eqn:E.
  - apply Nat.eqb_eq in E. destruct (assign_loop_spec lhs rhs E) as (A & B & _).
    split; [exact A|]. intros S. apply B. now apply A.
  - apply Nat.eqb_neq in E. simpl. split; [split; [easy|]|];
      intros [L _]; congruence.
Qed.

(** C33, complete guess: adopted in full when the shapes are right, and rejected
    with an error otherwise. *)
Theorem C33_guess_partial : forall p xs_in us_in xs_out us_out,
  xs_in <> [] -> us_in <> [] ->
  let r := check_initial_guess_and_assign p xs_in us_in xs_out us_out in
  (same_shape xs_in xs_out /\ same_shape us_in us_out -> r = Done xs_in us_in) /\
  (~ (same_shape xs_in xs_out /\ same_shape us_in us_out) ->
     exists xs us, r = Raised xs us).
Proof.
  intros p xs_in us_in xs_out us_out Hx Hu. unfold check_initial_guess_and_assign.
  destruct xs_in as [|x xs_in]; [easy|]. destruct us_in as [|u us_in]; [easy|].
  destruct (C33_assign (x :: xs_in) xs_out) as [A B].
  destruct (C33_assign (u :: us_in) us_out) as [A' B'].
  destruct (assign_no_resize (x :: xs_in) xs_out) as [ok xs].
  destruct (assign_no_resize (u :: us_in) us_out) as [ok' us]. simpl in *.
  split.
  - intros [S S']. rewrite (proj2 A S), (proj2 A' S'), (B S), (B' S'). reflexivity.
  - intros N. destruct ok; [|eauto]. destruct ok'; [|eauto].
    exfalso. apply N. split; [now apply A|now apply A'].
Qed.

(** C33, no guess for the states: states and controls are the default ones (or
    the states those of the user's strategy); an error is raised only if there
    is neither an initial state nor a stage. *)
Theorem C33_default : forall p us_in xs_out us_out,
  let r := check_initial_guess_and_assign p [] us_in xs_out us_out in
  (forall f, strategy p = Some f -> r = Done (f xs_out) (map u_neutral (stages p))) /\
  (strategy p = None -> forall x0, init_state p = Some x0 ->
     r = Done (x0 :: map x_next_neutral (stages p)) (map u_neutral (stages p))) /\
  (strategy p = None -> init_state p = None -> forall s t, stages p = s :: t ->
     r = Done (x_neutral s :: map x_next_neutral (stages p))
              (map u_neutral (stages p))) /\
  (strategy p = None -> init_state p = None -> stages p = [] ->
     exists xs us, r = Raised xs us).
Proof.
  intros p us_in xs_out us_out r. subst r.
  unfold check_initial_guess_and_assign, initializeSolution, xs_default_init,
    us_default_init.
  repeat split.
  - intros f ->. reflexivity.
  - intros -> x0 ->. reflexivity.
  - intros -> -> s t ->. reflexivity.
  - intros -> -> ->. eauto.
Qed.

(** Refuted: a guess for the states without controls is dropped, and a guess
    for the controls without states too, both without an error. *)
Theorem C33_xs_dropped_refuted : forall p xs_in xs_out us_out, xs_in <> [] ->
  check_initial_guess_and_assign p xs_in [] xs_out us_out =
  Done xs_out (us_default_init p).
Proof. intros p [|x xs_in] xs_out us_out H; [easy|reflexivity]. Qed.

Theorem C33_us_dropped_refuted : forall p us_in xs_out us_out,
  check_initial_guess_and_assign p [] us_in xs_out us_out =
  check_initial_guess_and_assign p [] [] xs_out us_out.
Proof. reflexivity. Qed.

(** Refuted: a rejected guess has been written up to the first entry of a wrong
    dimension. *)
Theorem C33_partial_write_refuted : forall p xs_in us_in xs_out us_out,
  xs_in <> [] -> us_in <> [] -> length xs_in = length xs_out ->
  ~ same_shape xs_in xs_out ->
  exists k, check_initial_guess_and_assign p xs_in us_in xs_out us_out =
            Raised (firstn k xs_in ++ skipn k xs_out) us_out /\
    exists a b, nth_error xs_in k = Some a /\ nth_error xs_out k = Some b /\
                length a <> length b.
Proof.
  intros p xs_in us_in xs_out us_out Hx Hu L N. unfold check_initial_guess_and_assign.
  destruct xs_in as [|x xs_in]; [easy|]. destruct us_in as [|u us_in]; [easy|].
  destruct (assign_loop_spec (x :: xs_in) xs_out L) as (A & B & C).
  unfold assign_no_resize at 1. rewrite (proj2 (Nat.eqb_eq _ _) L).
  destruct (assign_loop (x :: xs_in) xs_out) as [ok xs]. simpl fst in *.
  simpl snd in *. destruct ok.
  - exfalso. apply N. now apply A.
  - destruct (C eq_refl) as (k & a & b & C1 & C2 & C3 & C4 & ->).
    exists k. split; auto. exists a, b. auto.
Qed.

(** Refuted: a multiplier guess of the wrong shape is neither adopted nor
    rejected: only a warning is printed, the leading entries are adopted and
    the others kept. *)
Theorem C33_multipliers_refuted :
  (forall init out, init <> [] -> same_shape init out ->
     guess_multipliers init out = (false, init)) /\
  (exists init out, guess_multipliers init out = (true, [[5%Q]; [2%Q]]) /\
     init = [[5%Q]; [6%Q; 7%Q]] /\ out = [[1%Q]; [2%Q]]).
Proof.
  split.
  - intros init out H S. unfold guess_multipliers.
    destruct (C33_assign init out) as [A B]. destruct init; [easy|].
    destruct (assign_no_resize (v :: init) out) as [ok r]. simpl in *.
    rewrite (proj2 A S), (B S). reflexivity.
  - exists [[5%Q]; [6%Q; 7%Q]], [[1%Q]; [2%Q]]. repeat split.
Qed.

Definition ex_problem : problem :=
  {| init_state := Some [1%Q]; stages := repeat {| x_neutral := [0%Q];
       x_next_neutral := [0%Q]; u_neutral := [0%Q] |} 1; strategy := None |}.

Example C33_example :
  check_initial_guess_and_assign ex_problem [[3%Q]; [4%Q]] [[5%Q]]
     [[1%Q]; [0%Q]] [[0%Q]] = Done [[3%Q]; [4%Q]] [[5%Q]] /\
  same_shape [[3%Q]; [4%Q]] [[1%Q]; [0%Q]] /\
  check_initial_guess_and_assign ex_problem [[3%Q]; [4%Q; 4%Q]] [[5%Q]]
     [[1%Q]; [0%Q]] [[0%Q]] = Raised [[3%Q]; [0%Q]] [[0%Q]] /\
  check_initial_guess_and_assign ex_problem [] [] [] [] = Done [[1%Q]; [0%Q]] [[0%Q]] /\
  check_initial_guess_and_assign ex_problem [[3%Q]; [4%Q]] [] [[1%Q]; [0%Q]] [[0%Q]]
    = Done [[1%Q]; [0%Q]] [[0%Q]].
Proof.
  repeat split; auto. intros [|[|[|i]]] va vb; simpl; try discriminate;
    intros E F; injection E as <-; injection F as <-; reflexivity.
Qed.

Print Assumptions C33_assign.
Print Assumptions C33_guess_partial.
Print Assumptions C33_default.
Print Assumptions C33_xs_dropped_refuted.
Print Assumptions C33_us_dropped_refuted.
Print Assumptions C33_partial_write_refuted.
Print Assumptions C33_multipliers_refuted.
