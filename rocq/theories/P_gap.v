(** Property C18: the FDDP forward pass contracts the gaps by 1 - alpha. *)
From mathcomp Require Import all_ssreflect all_algebra.
From Verif Require Import GapModel.
Set Implicit Arguments.
Unset Strict Implicit.
Import GRing.Theory.
Local Open Scope ring_scope.

Section Any.
Variable R : ringType.
Variables (X : nat -> Type) (V : nat -> lmodType R).
Variables (U : nat -> Type) (W : nat -> lmodType R).
Variable integrate : forall i, X i -> V i -> X i.
Variable difference : forall i, X i -> X i -> V i.
Variable uintegrate : forall i, U i -> W i -> U i.
Variable dyn : forall i, X i -> U i -> X i.+1.
Variable xinit : X 0.
(** What is needed of a manifold: exponential along one direction is additive
    (any Lie group with its exponential, any vector space). *)
Hypothesis geodesic : forall i (x : X i) (v : V i) (a b : R),
  difference (integrate x (a *: v)) (integrate x (b *: v)) = (b - a) *: v.
Hypothesis integrate0 : forall i (x : X i), integrate x 0 = x.
Hypothesis integrate_difference : forall i (x y : X i), integrate x (difference x y) = y.

Notation slack := (slack difference dyn xinit).
Notation xs_try := (xs_try integrate difference uintegrate dyn).
Notation us_try := (us_try integrate difference uintegrate dyn).

Lemma slack_pass xs us ff fb alpha i :
  slack (xs_try xs us (slack xs us) ff fb alpha) (us_try xs us (slack xs us) ff fb alpha) i =
  (1 - alpha) *: slack xs us i.
Proof.
case: i => [|i] /=.
  rewrite /xs_try /=.
  rewrite -{2}(integrate_difference (xs 0%N) xinit).
  by rewrite -{2}(scale1r (difference (xs 0%N) xinit)) geodesic.
have K x v : difference (integrate x ((alpha - 1) *: v)) x = (1 - alpha) *: v :> V i.+1.
  have E : x = integrate x (0 *: v) by rewrite scale0r integrate0.
  by rewrite {2}E geodesic sub0r opprB.
exact: K.
Qed.

(** C18: one pass. *)
Theorem C18_contraction : forall xs us ff fb alpha i,
  let fs := slack xs us in
  slack (xs_try xs us fs ff fb alpha) (us_try xs us fs ff fb alpha) i = (1 - alpha) *: fs i.
Proof. by move=> *; apply: slack_pass. Qed.

(** Any number of passes with arbitrary steps and gains. *)
Inductive passes : (forall i, X i) -> (forall i, U i) -> seq R ->
                   (forall i, X i) -> (forall i, U i) -> Prop :=
| NoPass xs us : passes xs us [::] xs us
| Pass xs us ff fb alpha al xs' us' :
    passes (xs_try xs us (slack xs us) ff fb alpha) (us_try xs us (slack xs us) ff fb alpha) al xs' us' ->
    passes xs us (alpha :: al) xs' us'.

(** C18: product of the contractions; a full step closes the gaps and they
    stay closed forever. *)
Theorem C18_passes : forall xs us al xs' us', passes xs us al xs' us' ->
  forall i, slack xs' us' i = (\prod_(a <- rev al) (1 - a)) *: slack xs us i.
Proof.
move=> xs us al xs' us'; elim=> {xs us al xs' us'} [xs us|xs us ff fb alpha al xs' us' _ IH] i.
  by rewrite big_nil scale1r.
by rewrite IH slack_pass rev_cons -cats1 big_cat big_seq1 /= scalerA.
Qed.

Theorem C18_feasible_forever : forall xs us al xs' us', passes xs us al xs' us' ->
  (1 \in al \/ forall i, slack xs us i = 0) -> forall i, slack xs' us' i = 0.
Proof.
move=> xs us al xs' us' H K i.
case: K => [K|K]; last by rewrite (C18_passes H) K scaler0.
elim: H K i => {xs us al xs' us'} [xs us //|xs us ff fb alpha al xs' us' H IH].
rewrite inE => /orP[/eqP E|/IH //] i.
by rewrite (C18_passes H) slack_pass -E subrr scale0r scaler0.
Qed.

(** C18: with a full step the new trajectory is the rollout of the dynamics
    from the initial state under the new controls. *)
Theorem C18_full_step_rollout : forall xs us ff fb,
  let fs := slack xs us in
  xs_try xs us fs ff fb 1 0%N = xinit /\
  forall i, xs_try xs us fs ff fb 1 i.+1 =
            dyn (xs_try xs us fs ff fb 1 i) (us_try xs us fs ff fb 1 i).
Proof.
move=> xs us ff fb fs; split; first by rewrite /xs_try /= scale1r integrate_difference.
by move=> i; rewrite {1}/xs_try /= subrr scale0r integrate0.
Qed.
End Any.
Print Assumptions C18_contraction.
Print Assumptions C18_passes.
Print Assumptions C18_feasible_forever.
Print Assumptions C18_full_step_rollout.

(** C18, the step itself: in vector spaces with affine dynamics the displacement of the states is
    the response of the linearised closed loop,
      dx_0 = alpha f_0,  dx_{i+1} = A_i dx_i + B_i du_i + alpha f_{i+1},  du_i = alpha k_i + K_i dx_i,
    and the displacement of the controls is du. *)
Section Linear.
Variable R : comRingType.
Variables (V W : nat -> lmodType R).
Variables (A : forall i, {linear V i -> V i.+1}) (B : forall i, {linear W i -> V i.+1}).
Variable dyn : forall i, V i -> W i -> V i.+1.
Hypothesis affine : forall i x u (dx : V i) (du : W i), dyn (x + dx) (u + du) = dyn x u + A i dx + B i du.
Variables (xinit : V 0) (xs : forall i, V i) (us : forall i, W i).
Variables (ff : forall i, W i) (fb : forall i, V i -> W i) (alpha : R).
Notation vint := (fun i (x v : V i) => x + v).
Notation wint := (fun i (x v : W i) => x + v).
Notation vdif := (fun i (x y : V i) => y - x).
Let fs := @slack R V V W vdif dyn xinit xs us.
Let x' := @xs_try R V V W W vint vdif wint dyn xs us fs ff fb alpha.
Let u' := @us_try R V V W W vint vdif wint dyn xs us fs ff fb alpha.

Theorem C18_linear_response :
  [/\ x' 0 - xs 0%N = alpha *: fs 0,
      (forall i, u' i - us i = alpha *: ff i + fb (x' i - xs i)) &
      (forall i, x' i.+1 - xs i.+1 = A i (x' i - xs i) + B i (u' i - us i) + alpha *: fs i.+1)].
Proof.
have E0 : x' 0 - xs 0%N = alpha *: fs 0 by rewrite /x' /xs_try /= addrC addKr.
have D i : (fwd vint vdif wint dyn xs us fs ff fb alpha i).2 = x' i - xs i.
  by case: i => [|i] //=; rewrite E0.
have U i : u' i - us i = alpha *: ff i + fb (x' i - xs i).
  by rewrite /u' /us_try /utry D addrC addKr.
split=> // i; rewrite {1}/x' /xs_try /= -/(us_try vint vdif wint dyn xs us fs ff fb alpha i).
rewrite -/(xs_try vint vdif wint dyn xs us fs ff fb alpha i) -/(x' i) -/(u' i).
rewrite -{1}(subrK (xs i) (x' i)) -{1}(subrK (us i) (u' i)) [_ - _ + xs i]addrC [_ - _ + us i]addrC affine.
have Z (M : zmodType) (d a b s x : M) : d + a + b + (s - (d - x)) - x = a + b + s.
  rewrite opprB; have -> : d + a + b = a + b + d by rewrite -addrA addrC.
  by rewrite -(addrA (a + b) d) (addrCA d) (addrC d) subrK !addrA addrK.
rewrite scalerBl scale1r; exact: Z.
Qed.
End Linear.
Print Assumptions C18_linear_response.

(** Affine dynamics: x' = 2 x + 3 u + 1. *)
Example C18_linear_witness : forall x u dx du : int^o,
  2%:Z *: (x + dx) + 3%:Z *: (u + du) + 1 = 2%:Z *: x + 3%:Z *: u + 1 + 2%:Z *: dx + 3%:Z *: du.
Proof. by move=> x u dx du; rewrite !scalerDr addrACA [in LHS]addrAC -!addrA. Qed.


(** The hypotheses hold for every vector space; and a concrete nonlinear
    dynamics (x^2 + u over the integers) with non-zero gaps. *)
Lemma vector_space (R : ringType) (V : lmodType R) :
  [/\ (forall (x v : V) (a b : R), (x + b *: v) - (x + a *: v) = (b - a) *: v),
      (forall x : V, x + 0 = x) & (forall x y : V, x + (y - x) = y)].
Proof.
split=> [x v a b|x|x y]; last by rewrite addrC subrK.
  by rewrite opprD addrACA subrr add0r scalerBl.
by rewrite addr0.
Qed.
Definition zs (i : nat) : int^o := nth 0 [:: 1; 3%:Z; - 2%:Z] i.
Definition zdyn (i : nat) (x u : int^o) : int^o := x * x + u.
Definition zdif (i : nat) (x y : int^o) : int^o := y - x.
Definition zint (i : nat) (x v : int^o) : int^o := x + v.
(** gaps 4, -1, 12 before; the step alpha = 3 multiplies them by -2 *)
Example C18_witness :
  let M := fun _ : nat => [lmodType int of int^o] in
  let sl := @slack [ringType of int] (fun _ => int^o) M (fun _ => int^o) zdif zdyn (5%:Z : int^o) in
  let us := fun _ => 1 : int^o in
  let ff := fun _ => 2%:Z : int^o in
  let fb := fun (_ : nat) (v : int^o) => v in
  let x' := @xs_try _ (fun _ => int^o) M (fun _ => int^o) M zint zdif zint zdyn zs us (sl zs us) ff fb 3%:Z in
  let u' := @us_try _ (fun _ => int^o) M (fun _ => int^o) M zint zdif zint zdyn zs us (sl zs us) ff fb 3%:Z in
  [seq sl zs us i | i <- iota 0 3] = [:: 4%:Z; - 1%:Z; 12%:Z] /\
  [seq sl x' u' i | i <- iota 0 3] = [:: - 8%:Z; 2%:Z; - 24%:Z].
Proof. by []. Qed.
