(** Property C55: the improvement predicted by the FDDP line search on
    linear-quadratic problems. *)
From Coq Require Import Ring.
From mathcomp Require Import all_ssreflect all_algebra.
From Verif Require Import MxRing FddpLqModel FddpLqProofs ExpModel ExpProofs.
Set Implicit Arguments.
Unset Strict Implicit.
Import Order.Theory GRing.Theory Num.Theory.
Local Open Scope ring_scope.

(** C55: on an LQ problem with symmetric Hessians, at any trajectory (feasible
    or not), for any step and any regularisation such that the factorised
    matrices are positive definite: the cost of the trial trajectory is the
    predicted cost, plus (1 - alpha)^2 times the gap correction dv, minus the
    regularisation terms. *)
Theorem C55_prediction_error : forall (R : realFieldType) (preg alpha : R) n (l : lq R n) x0 (t : traj l),
  lqsym l -> definite preg (lin t) ->
  tcost (forward preg alpha x0 t) =
  predicted preg alpha x0 t
  + (1 - alpha) * (1 - alpha) * dv preg t (forward preg alpha x0 t) (x0 - head t)
  - (1 + 1)^-1 * preg * dist2 t (forward preg alpha x0 t).
Proof. exact: forward_cost. Qed.
Print Assumptions C55_prediction_error.

(** C55: without regularisation, the prediction for the full step is exact. *)
Theorem C55_full_step : forall (R : realFieldType) n (l : lq R n) x0 (t : traj l),
  lqsym l -> definite 0 (lin t) ->
  tcost (forward 0 1 x0 t) = predicted 0 1 x0 t.
Proof.
by move=> R n l x0 t S D; rewrite (forward_cost 1 x0 S D) subrr !mulr0 !mul0r subr0 addr0.
Qed.
Print Assumptions C55_full_step.

(** C55: ... and at a trajectory without gaps, it is exact for every step. *)
Theorem C55_feasible : forall (R : realFieldType) (alpha : R) n (l : lq R n) x0 (t : traj l),
  lqsym l -> definite 0 (lin t) -> feasible x0 t ->
  tcost (forward 0 alpha x0 t) = predicted 0 alpha x0 t.
Proof.
move=> R alpha n l x0 t S D F.
by rewrite (forward_cost alpha x0 S D) (dv_feasible _ _ F) !mulr0 mul0r subr0 addr0.
Qed.
Print Assumptions C55_feasible.

(** C55: on an LQ problem the full step always passes the line-search test
    (thresholds 0.1 and 2 by default). *)
Theorem C55_full_step_accepted :
  forall (R : realFieldType) (preg th_neg th_pos : R) n (l : lq R n) x0 (t : traj l),
  0 <= preg -> th_neg <= 1 -> 1 <= th_pos ->
  lqsym l -> definite preg (lin t) ->
  accepts (tcost (forward preg 1 x0 t)) (predicted preg 1 x0 t) (tcost t) th_neg th_pos.
Proof.
move=> R preg thn thp n l x0 t p0 Hn Hp S D.
have L : tcost (forward preg 1 x0 t) <= predicted preg 1 x0 t.
  rewrite (forward_cost 1 x0 S D) subrr !mul0r addr0 ler_subl_addr ler_addl.
  rewrite !mulr_ge0 ?invr_ge0 ?addr_ge0 ?ler01 //.
  by elim: l t {S D} (forward _ _ _ _) => [k c g h|k m k' s l IH] //= t t';
    rewrite ?addr_ge0 ?dot_ge0 ?IH //.
rewrite /accepts; set a := predicted _ _ _ _ - _.
have La : tcost (forward preg 1 x0 t) - tcost t <= a by rewrite ler_sub.
case: ifP => Ha.
  by apply: le_trans La _; rewrite ler_nmull.
by apply: le_trans La _; rewrite ler_pemull // leNgt Ha.
Qed.
Print Assumptions C55_full_step_accepted.

(** C55: ... and without regularisation it ends at a minimiser of the LQ problem,
    from any starting trajectory. *)
Theorem C55_one_step_optimal : forall (R : realFieldType) n (l : lq R n) x0 (t : traj l),
  lqsym l -> definite 0 (lin t) ->
  feasible x0 (forward 0 1 x0 t) /\
  forall t' : traj l, feasible x0 t' -> tcost (forward 0 1 x0 t) <= tcost t'.
Proof.
move=> R n l x0 t S D; have [F L] := forward_optimal x0 S D; split=> // t' F'.
by have := L t' F'; rewrite !mulr0 !mul0r !addr0.
Qed.
Print Assumptions C55_one_step_optimal.

(** Witness: x' = x + u, cost u^2/2 + x'^2/2, from (0, 0, 1). *)
Definition wst : lqstage rat_realFieldType 1 1 1 := LqStage 0 0 (block_mx 0 0 0 1%:M) (row_mx 1%:M 1%:M) 0.
Definition wlq : lq rat_realFieldType 1 := LCons wst (@LTerm _ 1 0 0 1%:M).
Definition wt : traj wlq := ((0, 0), 1%:M).
Example C55_witness : lqsym wlq /\ definite 0 (lin wt) /\ ~ feasible 0 wt.
Proof.
have E : Quu (qhess 0 (Stage (g0 wst + h0 wst *m col_mx 0 0) (h0 wst) (j0 wst)
   (lnext wst (col_mx 0 0) - 1%:M)) (1%:M + 0%:M)) = 2%:Q%:M.
  rewrite /Quu /qhess /= raddf0 addr0 mulmx1 tr_row_mx mul_col_row !trmx1 !mulmx1 !add_block_mx block_mxKdr.
  by rewrite addr0 -raddfD.
split; first by rewrite /= tr_block_mx !trmx0 trmx1.
split.
  rewrite /=; split=> //; rewrite E; split; first exact: tr_scalar_mx.
  move=> x xN0; rewrite /qf dot_id mulr_gt0 // dot_gt0 //.
case=> _ /= /matrixP /(_ 0 0).
by rewrite /lnext /= col_mx0 mulmx0 addr0 !mxE.
Qed.

(** C55 (refuted clause): with gaps, the prediction for a partial step is wrong,
    even on this problem. *)
Theorem C55_partial_step_refuted :
  exists (n : nat) (l : lq rat_realFieldType n) x0 (t : traj l) alpha,
    [/\ lqsym l, definite 0 (lin t), 0 < alpha < 1 &
        tcost (forward 0 alpha x0 t) <> predicted 0 alpha x0 t].
Proof.
exists 1%N, wlq, 0, wt, (2%:Q^-1); have [S [D _]] := C55_witness; split=> //.
rewrite (forward_cost _ _ S D) mulr0 mul0r subr0.
set t' := forward _ _ _ _.
have K : t' = ((0, 0), (1 - 2%:Q^-1)%:M).
  rewrite /t' /forward /= subrr scaler0 addr0 !mulmx0 addr0.
  set k := kff _ _.
  have -> : k = 0.
    rewrite /k /kff /qgrad /= !(raddf0, addr0, mulmx0, col_mx0, add0r) /lnext /= !mulmx0 !addr0 mul1mx sub0r mulmxN mul1mx subrr mulmx0.
    have -> : Qu (0 : 'cV[rat_realFieldType]_(1 + 1)) = 0 by rewrite /Qu linear0.
    by rewrite mulmx0 oppr0.
  rewrite scaler0 !addr0 col_mx0 /lnext /= mulmx0 !addr0 add0r sub0r.
  by rewrite scalerN -scaleNr opprB scalemx1.
rewrite K /= /lnext /= col_mx0 !mulmx0 !addr0 !subrr !sub0r dot0l oppr0 add0r.
have -> : (1%:M + 0%:M : 'M[rat]_1) = 1%:M by rewrite raddf0 addr0.
move/eqP; rewrite -subr_eq0 addrC addKr mulf_eq0.
rewrite mul1mx -raddfB /= dotNr opprK -[X in dot _ X]mulmx1 dot_id dotC.
rewrite /dot !mxE big_ord1 !mxE /=.
by [].
Qed.
Print Assumptions C55_partial_step_refuted.
