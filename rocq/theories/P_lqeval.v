(** C31, second part: the objective of the LQ problem. *)
From Coq Require Import Ring.
From mathcomp Require Import all_ssreflect all_algebra.
From Verif Require Import MxRing RiccatiModel RiccatiProofs RiccatiValue LqEvalModel.
Set Implicit Arguments.
Unset Strict Implicit.
Import Order.Theory GRing.Theory Num.Theory.
Local Open Scope ring_scope.

Section Spec.
Variable R : realFieldType.
Variable p : nat.
Notation half := ((1 + 1)^-1 : R).
Add Ring Rring : (ops_ring R).
(** Specification: cost of a stage as in the documentation (hpp 17-26), with
    the parametric terms (hpp 56-60). *)
Definition stage_cost n nu nc m (k : knot R p n nu nc m) (th : 'cV[R]_p) x u : R :=
  let z := col_mx x u in
  half * dot z (block_mx (Qm k) (Sm k) (Sm k)^T (Rm k) *m z) + dot (col_mx (qv k) (rv k)) z
  + half * dot th (Gth k *m th) + dot x (Gx k *m th) + dot u (Gu k *m th) + dot (gam k) th.
Fixpoint total_cost (th : 'cV[R]_p) n (c : knots R p n) : sol c -> R :=
  match c in knots _ _ n return sol c -> R with
  | @Term _ _ n nu nc m k => fun s => let: (x, u, v) := s in stage_cost k th x u
  | @Cons _ _ n nu nc m k c' => fun s => let: (x, u, v, l', s') := s in
      stage_cost k th x u + total_cost th s'
  end.
(** the control of the terminal stage is zero (or absent) *)
Fixpoint last_control0 n (c : knots R p n) : sol c -> Prop :=
  match c in knots _ _ n return sol c -> Prop with
  | @Term _ _ n nu nc m k => fun s => s.1.2 = 0
  | @Cons _ _ n nu nc m k c' => fun s => last_control0 s.2
  end.

Lemma stage_costE n nu nc m (k : knot R p n nu nc m) th x u :
  stage_cost k th x u = half * dot x (Qm k *m x) + dot x (qv k)
   + (half * dot u (Rm k *m u) + dot u (rv k)) + dot x (Sm k *m u)
   + (half * dot th (Gth k *m th) + dot th ((Gx k)^T *m x) + dot th (gam k) + dot th ((Gu k)^T *m u)).
Proof.
rewrite /stage_cost mul_block_col !dot_col !dotDr.
rewrite [dot u ((Sm k)^T *m x)]dot_tr trmxK [dot (Sm k *m u) x]dotC.
rewrite [dot th ((Gx k)^T *m x)]dot_tr [dot th ((Gu k)^T *m u)]dot_tr !trmxK.
rewrite [dot (Gx k *m th) x]dotC [dot (Gu k *m th) u]dotC [dot th (gam k)]dotC ![dot _ (qv k)]dotC ![dot _ (rv k)]dotC.
have h2 : half + half = 1 := half2 R.
have E : dot x (Sm k *m u) = (half + half) * dot x (Sm k *m u) by rewrite h2 mul1r.
rewrite [X in _ = _ + X + _]E.
move: (half) => h; do ?move: (dot _ _) => ?.
by fold_ops R; ring.
Qed.
Lemma eval_loopE n (c : knots R p n) (s : sol c) r : eval_loop s r = r + eval_loop s 0.
Proof.
elim: c s r => [{}n nu nc m k|{}n nu nc m k c IH].
  by case=> [[x u] v] r /=; rewrite add0r.
case=> [[[[x u] v] l'] s'] r /=; rewrite IH [in RHS]IH add0r !addrA.
by [].
Qed.
Lemma par_loopE th n (c : knots R p n) (s : sol c) r : par_loop th s r = r + par_loop th s 0.
Proof.
elim: c s r => [{}n nu nc m k|{}n nu nc m k c IH].
  by case=> [[x u] v] r /=; rewrite add0r !addrA.
by case=> [[[[x u] v] l'] s'] r /=; rewrite IH [in RHS]IH add0r !addrA.
Qed.

(** C31e: the value is the sum of the stage costs, terminal one included, when
    the terminal stage has no control; theta only counts for p > 0. *)
Theorem C31_evaluate_partial n (c : knots R p n) (s : sol c) th : last_control0 s ->
  evaluate s th = total_cost (odflt 0 th) s.
Proof.
have Z (t : 'cV[R]_p) : p = 0%N -> t = 0 by move=> e; move: t; rewrite e => t; apply: flatmx0.
move=> L; have -> : evaluate s th = eval_loop s 0 + par_loop (odflt 0 th) s 0.
  rewrite /evaluate; case: ltnP => [h|].
    case: th => [t|] /=; first by rewrite par_loopE.
    suff -> : par_loop 0 s 0 = 0 by rewrite addr0.
    elim: (c) s {L} => [{}n' nu nc m k|n' nu nc m k c' IH].
      by case=> [[x u] v] /=; rewrite !dot0l !mulr0 !addr0.
    by case=> [[[[x u] v] l'] s'] /=; rewrite !dot0l !mulr0 !addr0 IH.
  rewrite leqn0 => /eqP p0.
  suff -> : par_loop (odflt 0 th) s 0 = 0 by rewrite addr0; case: th.
  rewrite (Z (odflt 0 th) p0).
  elim: (c) s {L} => [{}n' nu nc m k|n' nu nc m k c' IH].
    by case=> [[x u] v] /=; rewrite !dot0l !mulr0 !addr0.
  by case=> [[[[x u] v] l'] s'] /=; rewrite !dot0l !mulr0 !addr0 IH.
elim: c s L => [{}n nu nc m k|{}n nu nc m k c IH].
  case=> [[x u] v] /= ->; rewrite stage_costE !(dot0l, mulmx0, dot0r, mulr0, addr0, add0r).
  by rewrite !addrA.
case=> [[[[x u] v] l'] s'] /= L; rewrite stage_costE -(IH _ L) eval_loopE par_loopE.
move: (eval_loop _ _) (par_loop _ _ _) (half) => a b h; do ?move: (dot _ _) => ?.
by fold_ops R; ring.
Qed.
End Spec.

(** C31f: a control at the terminal stage is not counted. *)
Section Bad.
Notation QF := rat_realFieldType.
Definition ek : knot QF 0 1 1 0 0 := Knot 0 0 1%:M 0 0 0 0 0 0 0 0 0 0 0 0 0.
Definition es : sol (Term ek) := (1%:M, 1%:M, 0).
Theorem C31_control_refuted : exists (c : knots QF 0 1) (s : sol c), evaluate s None <> total_cost 0 s.
Proof.
exists (Term ek), es; rewrite /evaluate /= stage_costE /=.
rewrite !(mul0mx, mulmx0, trmx0, dot0l, dot0r, mulr0, mul1mx, addr0, add0r).
rewrite /dot trmx1 mul1mx mxE /= mulr1 => /esym/eqP.
by rewrite invr_eq0 -[1 + 1]/(2%:R) pnatr_eq0.
Qed.
(** two stages, control in the first one *)
Definition ek0 : knot QF 0 1 1 0 1 := Knot 1%:M 1%:M 1%:M 1%:M 1%:M 1%:M 1%:M 0 0 0 0 0 0 0 0 0.
Definition et : knot QF 0 1 0 0 0 := Knot 0 0 0 1%:M 0 0 0 0 0 0 0 0 0 0 0 0.
Definition ew : sol (Cons ek0 (Term et)) := (1%:M, 1%:M, 0, 0, (1%:M, 0, 0)).
Example C31_evaluate_witness : last_control0 ew /\ evaluate ew None = 5%:R.
Proof.
split=> //; rewrite /evaluate /=.
rewrite !(mul0mx, mulmx0, trmx0, dot0l, dot0r, mulr0, mul1mx, addr0, add0r).
by rewrite /dot trmx1 mul1mx mxE; vm_compute.
Qed.
End Bad.
Print Assumptions C31_evaluate_partial.
Print Assumptions C31_control_refuted.
