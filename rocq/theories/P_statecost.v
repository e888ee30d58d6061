(** C38: quadratic costs of the distance to a target that may change. *)
From mathcomp Require Import all_ssreflect all_algebra.
From Verif Require Import MxRing FunModel QuadCostModel StateCostModel.
Set Implicit Arguments.
Unset Strict Implicit.
Import GRing.Theory.
Local Open Scope ring_scope.

(** the target set last *)
Definition last_target (F : fieldType) n m t (a : 'cV[F]_t) (l : seq (call F n m t)) : 'cV[F]_t :=
  foldl (fun b o => if o is SetTarget c then c else b) a l.

Section Costs.
Variables (F : fieldType) (n m : nat).
Notation h := (half F).

Lemma state_Ju (W : 'M[F]_n) l : forall c : tcost (@state_error F n m),
  rsubmx (fjac (rres (tdata c) : fdata F n m n)) = 0 ->
  rsubmx (fjac (rres (tdata (state_calls W c l)) : fdata F n m n)) = 0.
Proof.
elim: l => [|[x u|x u|x u|a] l IH] c E //=; apply: IH => //=.
by rewrite row_mxKr.
Qed.
Lemma control_Jx (W : 'M[F]_m) l : forall c : tcost (@control_error F n m),
  lsubmx (fjac (rres (tdata c) : fdata F n m m)) = 0 ->
  lsubmx (fjac (rres (tdata (control_calls W c l)) : fdata F n m m)) = 0.
Proof.
elim: l => [|[x u|x u|x u|a] l IH] c E //=; apply: IH => //=.
by rewrite row_mxKl.
Qed.
Lemma state_target (W : 'M[F]_n) l : forall c : tcost (@state_error F n m),
  getTarget (state_calls W c l) = last_target (target c) l.
Proof. by elim: l => [|[x u|x u|x u|a] l IH] c //; exact: IH. Qed.
Lemma control_target (W : 'M[F]_m) l : forall c : tcost (@control_error F n m),
  getTarget (control_calls W c l) = last_target (target c) l.
Proof. by elim: l => [|[x u|x u|x u|a] l IH] c //; exact: IH. Qed.

(** C38: whatever was called before, with data made once, evaluate, computeGradients and
    computeHessians leave the value and the derivatives of 1/2 (x - t).W(x - t) for the target t
    set last *)
Theorem C38_state_cost (W : 'M[F]_n) (a : 'cV[F]_n) (l : seq (call F n m n)) x u :
  let c := state_calls W (state_new m W a) l in
  let t := last_target a l in
  let d := rbase (tdata (state_calls W c [:: Evaluate n x u; Gradients n x u; Hessians n x u])) in
  [/\ getTarget c = t, cval d = h * dot (x - t) (W *m (x - t)),
      cgrad d = col_mx (W *m (x - t)) 0 & chess d = block_mx W 0 0 0].
Proof.
move=> c t d; have T : target c = t by exact: state_target.
have J : rsubmx (fjac (rres (tdata c) : fdata F n m n)) = 0 by apply: state_Ju; rewrite /= linear0.
split; first exact: T.
- by rewrite /d /= T.
- by rewrite /d /= J T tr_row_mx trmx1 trmx0 mul_col_mx mul1mx mul0mx.
- rewrite /d /= J tr_row_mx trmx1 trmx0 mul_col_mx mul1mx mul0mx mul_col_mx mul0mx mul_mx_row mulmx1 mulmx0.
  by rewrite -(row_mx0 _ m n m) -block_mxEv.
Qed.
Theorem C38_control_cost (W : 'M[F]_m) (a : 'cV[F]_m) (l : seq (call F n m m)) x u :
  let c := control_calls W (control_new n W a) l in
  let t := last_target a l in
  let d := rbase (tdata (control_calls W c [:: Evaluate m x u; Gradients m x u; Hessians m x u])) in
  [/\ getTarget c = t, cval d = h * dot (u - t) (W *m (u - t)),
      cgrad d = col_mx 0 (W *m (u - t)) & chess d = block_mx 0 0 0 W].
Proof.
move=> c t d; have T : target c = t by exact: control_target.
have J : lsubmx (fjac (rres (tdata c) : fdata F n m m)) = 0 by apply: control_Jx; rewrite /= linear0.
split; first exact: T.
- by rewrite /d /= T.
- by rewrite /d /= J T tr_row_mx trmx1 trmx0 mul_col_mx mul1mx mul0mx.
- rewrite /d /= J tr_row_mx trmx1 trmx0 mul_col_mx mul1mx mul0mx mul_col_mx mul0mx mul_mx_row mulmx1 mulmx0.
  by rewrite -(row_mx0 _ n n m) -block_mxEv.
Qed.
End Costs.

(** ** Example: the cost is made with the target 1, evaluated at 3, and the target set to 5 *)
Notation QF := rat_fieldType.
Example C38_target_example :
  let c := state_calls (const_mx 2%:R : 'M[QF]_1) (state_new 1 (const_mx 2%:R) (const_mx 1))
             [:: Evaluate 1 (const_mx 3%:R) (0 : 'cV[QF]_1); SetTarget 1 1 (const_mx 5%:R);
                 Evaluate 1 (const_mx 3%:R) 0] in
  cval (rbase (tdata c)) = 4%:R /\ getTarget c = const_mx 5%:R.
Proof. by split; rewrite //= /dot !mxE !big_ord_recl !big_ord0 !mxE !big_ord_recl !big_ord0 !mxE. Qed.
