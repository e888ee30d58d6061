(** C31, first part: equality of LQ problems. *)
From Coq Require Import QArith List Arith Bool Lia Lqa.
From Verif Require Import LqEqModel.
Import ListNotations.

(** Specification.  Two matrices agree up to a relative error. *)
Definition close (prec : Q) (a b : mat) : Prop :=
  rows a = rows b /\ cols a = cols b /\
  sqdist (coeffs a) (coeffs b) <= prec * prec * sqnorm (coeffs a) /\
  sqdist (coeffs a) (coeffs b) <= prec * prec * sqnorm (coeffs b).
Definition knot_close (prec : Q) (a b : lknot) : Prop :=
  nx a = nx b /\ nu a = nu b /\ nc a = nc b /\ nx2 a = nx2 b /\ nth a = nth b /\
  close prec (kQ a) (kQ b) /\ close prec (kS a) (kS b) /\ close prec (kR a) (kR b) /\
  close prec (kq a) (kq b) /\ close prec (kr a) (kr b) /\
  close prec (kA a) (kA b) /\ close prec (kB a) (kB b) /\ close prec (kf a) (kf b) /\
  close prec (kC a) (kC b) /\ close prec (kD a) (kD b) /\ close prec (kd a) (kd b) /\
  close prec (kGth a) (kGth b) /\ close prec (kGx a) (kGx b) /\ close prec (kGu a) (kGu b) /\
  close prec (kGv a) (kGv b) /\ close prec (kgamma a) (kgamma b).
Definition same (a b : mat) : Prop := rows a = rows b /\ cols a = cols b /\ Forall2 Qeq (coeffs a) (coeffs b).
Definition wf_mat (a : mat) : Prop := length (coeffs a) = (rows a * cols a)%nat.

Lemma mat_isApprox_true prec a b : mat_isApprox prec a b = Some true <-> close prec a b.
Proof.
  unfold mat_isApprox, close, Qminb.
  destruct (Nat.eqb_spec (rows a) (rows b)) as [E|E]; destruct (Nat.eqb_spec (cols a) (cols b)) as [E'|E'];
    simpl; split; try discriminate; try (intros; tauto).
  - intros H. injection H as H. apply Qle_bool_iff in H.
    destruct (Qle_bool (sqnorm (coeffs a)) (sqnorm (coeffs b))) eqn:L.
    + apply Qle_bool_iff in L. repeat split; auto.
      eapply Qle_trans; eauto. rewrite !(Qmult_comm (prec * prec)). apply Qmult_le_compat_r; auto. nra.
    + assert (L' : sqnorm (coeffs b) <= sqnorm (coeffs a)).
      { apply Qnot_lt_le. intros X. apply Qlt_le_weak, Qle_bool_iff in X. congruence. }
      repeat split; auto.
      eapply Qle_trans; eauto. rewrite !(Qmult_comm (prec * prec)). apply Qmult_le_compat_r; auto. nra.
  - intros [_ [_ [A B]]]. f_equal. apply Qle_bool_iff. destruct (Qle_bool _ _); auto.
Qed.
Lemma all_approx_true prec l : all_approx prec l = Some true <-> Forall (fun ab => close prec (fst ab) (snd ab)) l.
Proof.
  induction l as [|[a b] l IH]; simpl.
  - split; auto.
  - unfold oand. destruct (mat_isApprox prec a b) as [[|]|] eqn:E.
    + rewrite IH. apply mat_isApprox_true in E. split; intros H; [constructor; auto|inversion H; auto].
    + split; [discriminate|]. intros H. inversion H; subst. simpl in *. apply mat_isApprox_true in H2. congruence.
    + split; [discriminate|]. intros H. inversion H; subst. simpl in *. apply mat_isApprox_true in H2. congruence.
Qed.
Lemma knot_isApprox_true prec a b : knot_isApprox prec a b = Some true <-> knot_close prec a b.
Proof.
  unfold knot_isApprox, knot_close, lqrKnotsSameDim.
  destruct (Nat.eqb_spec (nx a) (nx b)); simpl; [|split; [discriminate|tauto]].
  destruct (Nat.eqb_spec (nu a) (nu b)); simpl; [|split; [discriminate|tauto]].
  destruct (Nat.eqb_spec (nc a) (nc b)); simpl; [|split; [discriminate|tauto]].
  destruct (Nat.eqb_spec (nx2 a) (nx2 b)); simpl; [|split; [discriminate|tauto]].
  destruct (Nat.eqb_spec (nth a) (nth b)); simpl; [|split; [discriminate|tauto]].
  change (all_approx prec (fields a b) = Some true <-> knot_close prec a b).
  rewrite all_approx_true. unfold fields, knot_close. rewrite !Forall_cons_iff. cbn [fst snd].
  split; intros H; decompose [and] H; repeat (apply conj; [assumption|]); auto.
Qed.

(** C31a: the knots are compared in full. *)
Theorem C31_knot : forall prec a b, knot_isApprox prec a b = Some true <-> knot_close prec a b.
Proof. exact knot_isApprox_true. Qed.
Print Assumptions C31_knot.

(** with precision 0 the comparison is equality *)
Lemma Qsq_nonneg x : 0 <= x * x.
Proof.
  destruct (Qlt_le_dec x 0) as [H|H].
  - setoid_replace (x * x) with ((- x) * (- x)) by ring. apply Qmult_le_0_compat; lra.
  - apply Qmult_le_0_compat; lra.
Qed.
Lemma sqnorm_nonneg l : 0 <= sqnorm l.
Proof. induction l as [|x l IH]; simpl; [lra|]. pose proof (Qsq_nonneg x). lra. Qed.
Lemma sqdist_nonneg a : forall b, 0 <= sqdist a b.
Proof.
  induction a as [|x a IH]; intros [|y b]; simpl; try lra. specialize (IH b).
  pose proof (Qsq_nonneg (x - y)). lra.
Qed.
Lemma Qsq0 x : x * x <= 0 -> x == 0.
Proof.
  intros H. destruct (Qlt_le_dec x 0); [exfalso; nra|]. destruct (Qlt_le_dec 0 x); [exfalso; nra|]. apply Qle_antisym; auto.
Qed.
Theorem C31_exact : forall a b, wf_mat a -> wf_mat b -> close 0 a b -> same a b.
Proof.
  intros a b Wa Wb [E [E' [H _]]]. repeat split; auto.
  assert (L : length (coeffs a) = length (coeffs b)) by (rewrite Wa, Wb, E, E'; auto).
  assert (H0 : sqdist (coeffs a) (coeffs b) <= 0) by lra. clear -L H0.
  revert L H0. generalize (coeffs b). induction (coeffs a) as [|x l IH]; intros [|y l'] L H; simpl in *; try discriminate.
  - constructor.
  - pose proof (sqdist_nonneg l l'). pose proof (Qsq_nonneg (x - y)) as S. assert (X : (x - y) * (x - y) <= 0) by lra.
    constructor.
    + apply Qsq0 in X. lra.
    + apply IH; auto. lra.
Qed.
Print Assumptions C31_exact.

(** C31b: what isApprox of two problems says: everything agrees except the last
    knot, which is not looked at. *)
Theorem C31_isapprox_partial : forall dummy eps p q, isApprox dummy eps p q = Some true <->
  (length (stages p) = length (stages q) /\ stages p <> [] /\
   close dummy (G0 p) (G0 q) /\ close dummy (g0 p) (g0 q) /\
   Forall2 (knot_close eps) (removelast (stages p)) (removelast (stages q))).
Proof.
  intros dummy eps p q. unfold isApprox.
  destruct (Nat.eqb_spec (length (stages p)) (length (stages q))) as [L|L]; simpl;
    [|split; [discriminate|intros [X _]; contradiction]].
  assert (G : oand (mat_isApprox dummy (G0 p) (G0 q)) (oand (mat_isApprox dummy (g0 p) (g0 q))
      match stages p with [] => None | _ => stages_isApprox eps (length (stages p) - 1) (stages p) (stages q) end) = Some true
    <-> close dummy (G0 p) (G0 q) /\ close dummy (g0 p) (g0 q) /\
      match stages p with [] => None | _ => stages_isApprox eps (length (stages p) - 1) (stages p) (stages q) end = Some true).
  { rewrite <- !mat_isApprox_true. unfold oand.
    destruct (mat_isApprox dummy (G0 p) (G0 q)) as [[|]|]; [|intuition discriminate|intuition discriminate].
    destruct (mat_isApprox dummy (g0 p) (g0 q)) as [[|]|]; intuition discriminate. }
  rewrite G. clear G.
  assert (K : stages p <> [] -> stages_isApprox eps (length (stages p) - 1) (stages p) (stages q) = Some true <->
     Forall2 (knot_close eps) (removelast (stages p)) (removelast (stages q))).
  { revert L. generalize (stages q). induction (stages p) as [|a l IH]; intros [|b l'] L N; try discriminate; [congruence|].
    destruct l as [|a2 l]; destruct l' as [|b2 l']; try discriminate.
    - simpl. split; auto.
    - assert (N2 : a2 :: l <> []) by discriminate.
      specialize (IH (b2 :: l') ltac:(simpl in *; lia) N2).
      replace (length (a :: a2 :: l) - 1)%nat with (S (length (a2 :: l) - 1)) by (simpl; lia).
      cbn [stages_isApprox]. unfold oand.
      change (removelast (a :: a2 :: l)) with (a :: removelast (a2 :: l)).
      change (removelast (b :: b2 :: l')) with (b :: removelast (b2 :: l')).
      destruct (knot_isApprox eps a b) as [[|]|] eqn:E.
      + rewrite IH. apply knot_isApprox_true in E. split; intros H; [constructor; auto|inversion H; auto].
      + split; [discriminate|]. intros H. inversion H; subst. apply knot_isApprox_true in H3. congruence.
      + split; [discriminate|]. intros H. inversion H; subst. apply knot_isApprox_true in H3. congruence. }
  destruct (stages p) as [|a l] eqn:Es.
  - intuition (congruence || discriminate).
  - rewrite K by discriminate. intuition (auto; discriminate).
Qed.
Print Assumptions C31_isapprox_partial.

Definition m11 (x : Q) : mat := Mat 1 1 [x].
Definition m0 : mat := Mat 0 0 [].
Definition kk (x : Q) : lknot :=
  LKnot 1 1 0 1 0 (m11 x) (m11 0) (m11 1) (m11 2) (m11 0) (m11 1) (m11 1) (m11 3) m0 m0 m0 m0 m0 m0 m0 m0.
(** C31c: two problems with different terminal cost are reported equal. *)
Theorem C31_terminal_refuted : exists p q, isApprox 0 0 p q = Some true /\
  exists a b, nth_error (stages p) 1 = Some a /\ nth_error (stages q) 1 = Some b /\ ~ knot_close 0 a b /\
              ~ knot_close 1 a b.
Proof.
  exists (LProb (m11 1) (m11 4) [kk 1; kk 1]), (LProb (m11 1) (m11 4) [kk 1; kk 5]).
  split; [vm_compute; reflexivity|].
  exists (kk 1), (kk 5). repeat split; intros H; apply knot_isApprox_true in H; vm_compute in H; discriminate.
Qed.
Print Assumptions C31_terminal_refuted.
(** C31d: two empty problems: the loop runs past the end *)
Theorem C31_empty_refuted : forall dummy eps G g, close dummy G G -> close dummy g g ->
  isApprox dummy eps (LProb G g []) (LProb G g []) = None.
Proof.
  intros dummy eps G g HG Hg. apply mat_isApprox_true in HG, Hg. unfold isApprox; simpl. rewrite HG, Hg. reflexivity.
Qed.
Print Assumptions C31_empty_refuted.
Example C31_witness : isApprox 0 0 (LProb (m11 1) (m11 4) [kk 1; kk 1]) (LProb (m11 1) (m11 4) [kk 2; kk 1]) = Some false /\
  isApprox 0 0 (LProb (m11 1) (m11 4) [kk 1; kk 1]) (LProb (m11 1) (m11 4) [kk 1; kk 1]) = Some true /\
  wf_mat (m11 7) /\ close 0 (m11 7) (m11 7).
Proof.
  split; [|split; [|split]]; try (vm_compute; reflexivity).
  apply mat_isApprox_true. vm_compute. reflexivity.
Qed.
