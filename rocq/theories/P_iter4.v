(** C66: what a zero criterion means. *)
From mathcomp Require Import all_ssreflect all_algebra.
From Verif Require Import MxRing RiccatiModel LagrModel IterModel P_iter P_iter2 P_iter3.
Set Implicit Arguments.
Unset Strict Implicit.
Import Order.Theory GRing.Theory Num.Theory.
Local Open Scope ring_scope.

Section Zero.
Variable R : realFieldType.

Definition is_term n (c : prob R n) : bool := if c is PTerm _ _ _ then true else false.
(** all residuals are zero, except perhaps the dynamics error of the last stage *)
Fixpoint all_but_last n (c : prob R n) : iter c -> Prop :=
  match c in prob _ n return iter c -> Prop with
  | @PTerm _ n nc s => fun r => r.1 = 0 /\ r.2 = 0
  | @PCons _ n nu nc m s c' => fun r =>
      let: (rx, ru, rv, rg, r') := r in
      [/\ rx = 0, ru = 0, rv = 0, ~~ is_term c' -> rg = 0 & all_but_last r']
  end.
(** the gradients with respect to states and controls are zero *)
Fixpoint stationary n (c : prob R n) : iter c -> Prop :=
  match c in prob _ n return iter c -> Prop with
  | @PTerm _ n nc s => fun r => r.1 = 0
  | @PCons _ n nu nc m s c' => fun r =>
      let: (rx, ru, rv, rg, r') := r in [/\ rx = 0, ru = 0 & stationary r']
  end.

Lemma norm_ge0 k (z : 'cV[R]_k) : 0 <= norm z. Proof. by have [] := norm_sq z. Qed.
Lemma norm0E k (z : 'cV[R]_k) : norm z = 0 <-> z = 0.
Proof. by split=> [/norm_eq0 //|->]; exact: norm0. Qed.
Lemma max0E (x y : R) : 0 <= x -> 0 <= y -> Num.max x y = 0 <-> x = 0 /\ y = 0.
Proof. by move=> x0 y0; split=> [/(max_eq0 x0 y0) //|[-> ->]]; rewrite maxxx. Qed.
Lemma max_ge0 (x y : R) : 0 <= x -> 0 <= Num.max x y.
Proof. by move=> x0; rewrite le_maxr x0. Qed.
Lemma crit_ge0 n (c : prob R n) (r : iter c) rd : 0 <= crit_loop rd r.
Proof.
case: c r => [{}n nc s|{}n nu nc m s c] /=; first by move=> r; exact/max_ge0/norm_ge0.
by move=> [[[[rx ru] rv] rg] r]; apply/max_ge0/max_ge0/max_ge0/norm_ge0.
Qed.
Lemma crit_zero n (c : prob R n) : forall (r : iter c) rd, 0 <= rd ->
  crit_loop rd r = 0 <-> (~~ is_term c -> rd = 0) /\ all_but_last r.
Proof.
elim: c => [{}n nc s|{}n nu nc m s c IH] /=.
  by move=> r rd _; rewrite (max0E (norm_ge0 _) (norm_ge0 _)) !norm0E; split=> [|[]].
move=> [[[[rx ru] rv] rg] r] rd rd0.
have n0 := norm_ge0; have H := IH r _ (n0 _ rg).
rewrite max0E ?crit_ge0 ?max_ge0 // max0E ?max_ge0 // !max0E // H !norm0E.
by split=> [[[[-> ->] [-> ->]] [h1 h2]]|[-> // [-> -> -> h1 h2]]].
Qed.
Lemma dual_ge0 n (c : prob R n) (r : iter c) : 0 <= dual_infeas r.
Proof.
case: c r => [{}n nc s|{}n nu nc m s c] /=; first by move=> r; exact/norm_ge0.
by move=> [[[[rx ru] rv] rg] r]; apply/max_ge0/max_ge0/norm_ge0.
Qed.

(** the criterion is zero exactly if the initial condition and all residuals are zero, the
    last dynamics error excepted *)
Theorem C66_criterion_zero : forall n nc0 (c : prob R n) (g0 : 'cV[R]_nc0) (r : iter c),
  inner_criterion g0 r = 0 <-> (~~ is_term c -> g0 = 0) /\ all_but_last r.
Proof.
move=> n nc0 c g0 r; rewrite /inner_criterion crit_zero ?norm_ge0 //.
by split=> -[h h2]; split=> // /h /norm0E.
Qed.
(** the dual infeasibility is zero exactly if the iterate is stationary *)
Theorem C66_dual_zero : forall n (c : prob R n) (r : iter c), dual_infeas r = 0 <-> stationary r.
Proof.
move=> n c; elim: c => [{}n nc s|{}n nu nc m s c IH] /=; first by move=> r; rewrite norm0E.
move=> [[[[rx ru] rv] rg] r].
rewrite max0E ?dual_ge0 ?max_ge0 ?norm_ge0 // max0E ?norm_ge0 // !norm0E IH.
by split=> [[[-> ->] h]|[-> -> h]].
Qed.
End Zero.

(** on the problem with one stage of P_iter3: an initial error alone makes the criterion
    nonzero, the error of the only dynamics does not *)
Example C66_zero_example :
  inner_criterion (num 1) (zeros free) <> 0 /\
  inner_criterion (num 0) ((0, 0, 0, num 1, (0, 0)) : iter free) = 0 /\
  dual_infeas ((num 1, 0, 0, 0, (0, 0)) : iter free) <> 0.
Proof.
split; [|split].
- by case/C66_criterion_zero => /(_ isT) /matrixP /(_ 0 0) /eqP; rewrite !mxE.
- by apply/C66_criterion_zero; split=> // _; apply/matrixP=> i j; rewrite !mxE.
- by case/C66_dual_zero => /matrixP /(_ 0 0) /eqP; rewrite !mxE.
Qed.
