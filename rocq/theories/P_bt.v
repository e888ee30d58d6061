(** C27 block-tridiagonal solver, C28 iterative refinement. *)
From mathcomp Require Import all_ssreflect all_algebra.
From Verif Require Import MxRing RiccatiModel RiccatiProofs BtModel BtProofs.
Set Implicit Arguments.
Unset Strict Implicit.
Import Order.Theory GRing.Theory Num.Theory.
Local Open Scope ring_scope.

Section C27.
Variable F : fieldType.

(** Specification: block row i of the system is
    [sub[i-1] x[i-1] + diag[i] x[i] + sup[i] x[i+1] = b[i]]; [prev] is
    [sub[i-1] x[i-1]] (zero in the first row). *)
Fixpoint rows n (t : bt F n) : 'cV[F]_n -> bvec t -> bvec t -> Prop :=
  match t in bt _ n return 'cV[F]_n -> bvec t -> bvec t -> Prop with
  | BOne n D => fun prev x b => prev + D *m x = b
  | BCons n m D B C t' => fun prev x b =>
      prev + D *m x.1 + B *m bhead x.2 = b.1 /\ rows (C *m x.1) x.2 b.2
  end.
Lemma rowsP n (t : bt F n) prev (x b : bvec t) :
  rows prev x b <-> padd t prev + toDense t *m flat x = flat b.
Proof.
elim: t prev x b => [//|n' m D B C t IH] prev [x1 x2] [b1 b2].
rewrite mul_dense /= add_col_mx add0r addrA IH; split=> [[-> -> //]|].
by move=> /eq_col_mx.
Qed.
(** The matrix built by blockTridiagToDenseMatrix is the matrix of that system. *)
Theorem C27_dense n (t : bt F n) (x b : bvec t) :
  rows 0 x b <-> toDense t *m flat x = flat b.
Proof. by rewrite rowsP padd0 add0r. Qed.

(** Both solvers return the solution of the dense system, it is the only one,
    and so both agree. *)
Theorem C27_solve n (t : bt F n) (b x : bvec t) f : bsym t ->
  symmetricBlockTridiagSolve b = Ok (x, f) ->
  toDense t *m flat x = flat b /\ (forall z, toDense t *m flat z = flat b -> z = x).
Proof. exact: solve_correct. Qed.
Theorem C27_downlooking n (t : bt F n) (b x : bvec t) : bsym t ->
  symmetricBlockTridiagSolveDownLooking b = Ok x ->
  toDense t *m flat x = flat b.
Proof. exact: down_solves. Qed.
Theorem C27_agree n (t : bt F n) (b x y : bvec t) f : bsym t ->
  symmetricBlockTridiagSolve b = Ok (x, f) ->
  symmetricBlockTridiagSolveDownLooking b = Ok y -> x = y.
Proof.
move=> S /(solve_correct S) [_ U] /(down_solves S) E.
by symmetry; apply: U.
Qed.
Theorem C27_matmul n (t : bt F n) (b c : bvec t) beta : has_two t ->
  exists r, blockTridiagMatMul b c beta = Ok r /\ flat r = beta *: flat c + toDense t *m flat b.
Proof.
move=> h; rewrite /blockTridiagMatMul h; eexists; split; first by reflexivity.
by rewrite matmul_fromE addr0.
Qed.
(** One block only: both solvers and the product read outside the vectors. *)
Theorem C27_one_block_refuted n (D : 'M[F]_n) (b c : bvec (BOne D)) beta :
  [/\ symmetricBlockTridiagSolve b = UB, symmetricBlockTridiagSolveDownLooking b = UB &
      blockTridiagMatMul b c beta = UB].
Proof. by []. Qed.
End C27.

Section C28.
Variable R : realFieldType.
Section Fix.
Variables (n : nat) (t : bt R n) (rhs : bvec t).
Definition residual (e x : bvec t) : bvec t := bscale (-1) (matmul_from (-1) None x e).
Lemma flat_residual e x : flat (residual e x) = flat e - toDense t *m flat x.
Proof.
rewrite /residual flat_scale matmul_fromE addr0 scalerDr !scaleN1r opprK; reflexivity.
Qed.
(** math::infty_norm(condensedErr) <= condensedThreshold *)
Definition small_norm (thr : R) (e : bvec t) : bool := [forall i, `|flat e i 0| <= thr].
Lemma small_opp thr e e' : flat e' = - flat e -> small_norm thr e' = small_norm thr e.
Proof.
by move=> E; apply/forallP/forallP => H i; have := H i; rewrite E mxE normrN.
Qed.

(** One step: x + step(rhs - A x) is the solution for every x. *)
Lemma step_exact (b x : bvec t) f (e z : bvec t) : bsym t -> symmetricBlockTridiagSolve b = Ok (x, f) ->
  toDense t *m flat (badd z (blockTridiagRefinementStep f (residual e z))) = flat e.
Proof.
move=> S H; have [E _] := step_correct (residual e z) S H.
by rewrite flat_add mulmxDr E flat_residual addrC subrK.
Qed.
Lemma exact_unique (b x : bvec t) f (e z z' : bvec t) : bsym t -> symmetricBlockTridiagSolve b = Ok (x, f) ->
  toDense t *m flat z = flat e -> toDense t *m flat z' = flat e -> z = z'.
Proof. by move=> S H /(proj2 (step_correct e S H)) -> /(proj2 (step_correct e S H)) ->. Qed.
End Fix.

Theorem C28_one_step n (t : bt R n) (b : bvec t) x f (e z : bvec t) : bsym t ->
  symmetricBlockTridiagSolve b = Ok (x, f) ->
  toDense t *m flat (badd z (blockTridiagRefinementStep f (residual e z))) = flat e.
Proof. exact: step_exact. Qed.
Theorem C28_step_keeps n (t : bt R n) (b : bvec t) x f (e z : bvec t) : bsym t ->
  symmetricBlockTridiagSolve b = Ok (x, f) -> toDense t *m flat z = flat e ->
  badd z (blockTridiagRefinementStep f (residual e z)) = z.
Proof. by move=> S H E; apply: (exact_unique S H _ E); exact: step_exact H. Qed.

Lemma loop_keeps n (t : bt R n) (rhs : bvec t) x f small k err sol : bsym t ->
  symmetricBlockTridiagSolve rhs = Ok (x, f) -> flat err = flat rhs ->
  toDense t *m flat sol = flat rhs ->
  toDense t *m flat (refine_loop f rhs small k sol err).1 = flat rhs.
Proof.
move=> S H; elim: k err sol => [|k IH] err sol e s //=; case: ifP => // _.
by apply: IH => //; rewrite -e; exact: step_exact H.
Qed.
Lemma loop_any n (t : bt R n) (rhs : bvec t) x f small k sol : bsym t ->
  symmetricBlockTridiagSolve rhs = Ok (x, f) -> ~~ small (residual rhs sol) ->
  toDense t *m flat (refine_loop f rhs small k.+1 sol rhs).1 = flat rhs.
Proof.
move=> S H ns /=; rewrite -/(residual rhs sol) (negbTE ns).
by apply: (loop_keeps _ _ S H) => //; exact: step_exact H.
Qed.

(** The loop of the parallel solver returns the solution for every left-over
    [condensedErr] and every number of steps other than one. *)
Theorem C28_loop_partial n (t : bt R n) (rhs err sol err' : bvec t) thr k : bsym t -> k != 1%N ->
  condensed_solve rhs err (small_norm thr) k = Ok (sol, err') ->
  toDense t *m flat sol = flat rhs.
Proof.
rewrite /condensed_solve => S k1; case H : (symmetricBlockTridiagSolve rhs) => [||[x f]] // [Es].
have -> : sol = (refine_loop f rhs (small_norm thr) k x err).1 by rewrite Es.
have [X U] := solve_correct S H.
case: k k1 {Es} => [|[//|k]] _ //.
have -> : refine_loop f rhs (small_norm thr) k.+2 x err =
  if small_norm thr (residual err x) then (x, residual err x) else
  refine_loop f rhs (small_norm thr) k.+1 (badd x (blockTridiagRefinementStep f (residual err x))) rhs.
  by [].
case: ifPn => // ns; set z := badd _ _.
apply: (loop_any _ S H); rewrite (small_opp thr (e := residual err x)) //.
by rewrite !flat_residual (step_exact err x S H) X opprB.
Qed.
(** With exactly one step the loop returns the solution for the left-over
    [condensedErr] (zero after the constructor) instead: unless that is already
    within the threshold of the right-hand side, the result is wrong. *)
Theorem C28_single_step n (t : bt R n) (rhs err sol err' : bvec t) thr : bsym t ->
  condensed_solve rhs err (small_norm thr) 1 = Ok (sol, err') ->
  if [forall i, `|flat err i 0 - flat rhs i 0| <= thr]
  then toDense t *m flat sol = flat rhs else toDense t *m flat sol = flat err.
Proof.
rewrite /condensed_solve => S; case H : (symmetricBlockTridiagSolve rhs) => [||[x f]] //.
have [X U] := solve_correct S H.
rewrite /= -/(residual err x).
have -> : [forall i, `|flat err i 0 - flat rhs i 0| <= thr] = small_norm thr (residual err x).
  by apply: eq_forallb => i; rewrite flat_residual X !mxE.
case: ifP => _ [<- _] //; exact: step_exact H.
Qed.
End C28.

(** ** Witnesses *)
Section Witness.
Definition w2 (a : rat) : 'M[rat_fieldType]_2 := a%:M.
Definition wt : bt rat_fieldType 1 := BCons (2%:Q%:M) (const_mx 1) (const_mx 1) (BOne (w2 3%:Q)).
Definition wb : bvec wt := (const_mx 1, const_mx 1).
Lemma wt_sym : bsym wt.
Proof. by rewrite /= !tr_scalar_mx; split=> //; rewrite trmx_const. Qed.
Lemma lower_scalar n (a : rat) : lower (a%:M : 'M[rat]_n) = a%:M.
Proof. by rewrite lower_sym // tr_scalar_mx. Qed.
Lemma inv_scalar n (a : rat) : a != 0 -> invmx (a%:M : 'M[rat]_n) = a^-1%:M.
Proof. by rewrite invmx_scalar. Qed.
Lemma unit_scalar n (a : rat) : a != 0 -> (a%:M : 'M[rat]_n) \in unitmx.
Proof. by move=> a0; rewrite -scalemx1 unitmxZ ?unitmx1 // unitfE. Qed.
(** 2 - 1 (1/3) 1 - 1 (1/3) 1 = 4/3 *)
Lemma w_red : 2%:Q%:M - (const_mx 1 : 'M[rat]_(1, 2)) *m chol_solve (w2 3%:Q) (const_mx 1 : 'M_(2, 1)) =
  (4%:Q / 3%:Q)%:M.
Proof.
rewrite /chol_solve lower_scalar inv_scalar // mul_scalar_mx -scalemxAr.
apply/matrixP => i j; rewrite !ord1 !mxE !big_ord_recl big_ord0 !mxE //.
Qed.
Example C27_witness : exists x f, symmetricBlockTridiagSolve wb = Ok (x, f) /\ bsym wt.
Proof.
rewrite /symmetricBlockTridiagSolve /= lower_scalar unit_scalar //=.
rewrite w_red lower_scalar unit_scalar //=; do 2!eexists; split; first by reflexivity.
exact: wt_sym.
Qed.
Example C27_witness_down : exists y, symmetricBlockTridiagSolveDownLooking wb = Ok y.
Proof.
rewrite /symmetricBlockTridiagSolveDownLooking /= lower_scalar unit_scalar //=.
set D := w2 _ - _.
have U : lower D \in unitmx.
  have -> : D = \matrix_(i, j) (if i == j then 5%:Q / 2%:Q else - (1%:Q / 2%:Q)).
    rewrite /D /chol_solve lower_scalar inv_scalar // mul_scalar_mx -scalemxAr.
    apply/matrixP => i j; rewrite !mxE big_ord1 !mxE; case: eqP => _ //.
  rewrite lower_sym; last by apply/matrixP => i j; rewrite !mxE eq_sym.
  by rewrite unitmxE (expand_det_row _ 0) !big_ord_recl big_ord0 /cofactor !det_mx11 !mxE.
by rewrite U /=; eexists.
Qed.
(** the single refinement step destroys the solution: with [condensedErr] zero
    the result is zero although the right-hand side is not *)
Theorem C28_single_refuted : exists n (t : bt rat_fieldType n) (rhs sol err' : bvec t) thr,
  [/\ bsym t, condensed_solve rhs (bscale 0 rhs) (small_norm (R := rat_realFieldType) thr) 1 = Ok (sol, err') &
      toDense t *m flat sol <> flat rhs].
Proof.
have [x [f [H S]]] := C27_witness.
case E : (condensed_solve wb (bscale 0 wb) (small_norm (R := rat_realFieldType) (1 / 2%:Q)) 1)
  => [||[sol err']]; try by move: E; rewrite /condensed_solve H.
exists 1%N, wt, wb, sol, err', (1 / 2%:Q); split=> //.
have := C28_single_step wt_sym E; case: ifP => [/forallP /(_ 0)|_ -> /matrixP /(_ 0 0)].
  by rewrite flat_scale !mxE; case: splitP => j _; rewrite !mxE.
by rewrite flat_scale !mxE; case: splitP => j _; rewrite !mxE.
Qed.
Example C28_witness : exists sol err', condensed_solve wb (bscale 0 wb)
  (small_norm (R := rat_realFieldType) (1 / 2%:Q)) 2 = Ok (sol, err').
Proof.
have [x [f [H S]]] := C27_witness; rewrite /condensed_solve H.
by case: (refine_loop _ _ _ _ _ _) => a b; exists a, b.
Qed.
End Witness.

Print Assumptions C27_dense.
Print Assumptions C27_solve.
Print Assumptions C27_downlooking.
Print Assumptions C27_agree.
Print Assumptions C27_matmul.
Print Assumptions C28_one_step.
Print Assumptions C28_step_keeps.
Print Assumptions C28_loop_partial.
Print Assumptions C28_single_step.
Print Assumptions C28_single_refuted.
