(** C21, C22: the serial proximal Riccati solver. *)
From Coq Require Import Ring.
From mathcomp Require Import all_ssreflect all_algebra.
From Verif Require Import MxRing RiccatiModel RiccatiProofs RiccatiValue.
Set Implicit Arguments.
Unset Strict Implicit.
Import Order.Theory GRing.Theory Num.Theory.
Local Open Scope ring_scope.

Section Fld.
Variable F : fieldType.
Add Ring Fring : (ops_ring F).

Lemma forward_kkt p n nc0 mu (c : knots F p n) (G0 : 'M[F]_(nc0, n)) g0 d th :
  symmetric c -> no_gv c -> terminal_unit mu c ->
  backward mu c G0 g0 = Some d -> kkt0_mat (head_vm d.1) G0 \in unitmx ->
  kkt_system mu (odflt 0 th) G0 g0 (forward d th) /\
  (forall r, kkt_system mu (odflt 0 th) G0 g0 r -> r = forward d th).
Proof.
move=> S G U; rewrite /backward; case E : (backwardImpl mu c) => [ds|//] [<-] /= U0.
have [SV K _ UQ] := backward_good S G U E.
split.
  have [h1 h2] := initial_ok g0 SV U0 th.
  rewrite /forward /=; split; rewrite /= ?sol_x_forward //.
  by rewrite -h1; exact: K.
move=> [l s] [/= h1 h2].
have [El Es] := UQ th _ _ h1.
have := initial_unique (g0 := g0) SV U0 (th := th) (x := sol_x s) (l := l).
move=> /(_ (esym El) h2) I.
have -> : forward (ds, factor_initial (head_vm ds) G0 g0) th =
  ((computeInitial (factor_initial (head_vm ds) G0 g0) th).2,
   forwardImpl th ds (computeInitial (factor_initial (head_vm ds) G0 g0) th).1) by [].
by rewrite -I /= -Es.
Qed.

(** C21: whatever the dimensions, the horizon and the data, if no factorisation
    fails the solver returns the solution of the KKT system, and there is no
    other. *)
Theorem C21_kkt n nc0 mu (c : knots F 0 n) (G0 : 'M[F]_(nc0, n)) g0 d :
  symmetric c -> terminal_unit mu c ->
  backward mu c G0 g0 = Some d -> kkt0_mat (head_vm d.1) G0 \in unitmx ->
  kkt_system mu 0 G0 g0 (forward d None) /\
  (forall r, kkt_system mu 0 G0 g0 r -> r = forward d None).
Proof.
move=> S U E U0; apply: (forward_kkt None S _ U E U0).
by elim: (c) => [? ? ? ? k|? ? ? ? k c' IH] /=; rewrite [Gv k]thinmx0.
Qed.

(** C22: with a parameter [th] the solver returns the solution of the KKT
    system of the problem for that value of the parameter, and [thGrad],
    [thHess] give the derivative of the Lagrangian in the parameter along the
    solutions. *)
Theorem C22_parametric_partial p n nc0 mu (c : knots F p n) (G0 : 'M[F]_(nc0, n)) g0 d th :
  symmetric c -> no_gv c -> terminal_unit mu c ->
  backward mu c G0 g0 = Some d -> kkt0_mat (head_vm d.1) G0 \in unitmx ->
  [/\ kkt_system mu th G0 g0 (forward d (Some th)),
      (forall r, kkt_system mu th G0 g0 r -> r = forward d (Some th)) &
      dtheta th (forward d (Some th)).2 = thGrad d.2 + thHess d.2 *m th].
Proof.
move=> S G U E U0; have [h1 h2] := forward_kkt (Some th) S G U E U0.
split=> //.
move: E U0; rewrite /backward; case E : (backwardImpl mu c) => [ds|//] [<-] /= U0.
have [SV _ T _] := backward_good S G U E.
rewrite (T (Some th)) /=; set a := chol_solve _ _; set b := chol_solve _ _.
rewrite mulmxDr mulmxDl !mulmxA.
by mx_open F; ring.
Qed.
End Fld.

Section Ord.
Variable R : realFieldType.
Notation half := ((1 + 1)^-1 : R).

(** On convex problems whose initial constraint determines the state no
    factorisation fails, and the result is a minimiser. *)
Theorem C21_convex n (c : knots R 0 n) mu (G0 : 'M[R]_n) g0 :
  0 < mu -> convex c -> G0 \in unitmx ->
  exists d, [/\ backward mu c G0 g0 = Some d,
    kkt_system mu 0 G0 g0 (forward d None) &
    forall x (us : controls c), G0 *m x + g0 = 0 ->
      objective mu 0 (sol_x (forward d None).2) (sol_us (forward d None).2) <= objective mu 0 x us].
Proof.
move=> m0 cv UG.
have G : no_gv c by elim: (c) => [? ? ? ? k|? ? ? ? k c' IH] /=; rewrite [Gv k]thinmx0.
have [U [ds [E SV PV]]] := convex_backward m0 cv G.
have S := convex_symmetric cv.
pose d := (ds, factor_initial (head_vm ds) G0 g0).
have EB : backward mu c G0 g0 = Some d by rewrite /backward E.
have [K _] := C21_kkt S U EB (kkt0_unit _ UG).
by exists d; split=> //; exact: minimiser K.
Qed.

(** The value of the problem (the Lagrangian at the solution) is the quadratic
    function with gradient [thGrad] and Hessian [thHess]. *)
Theorem C22_value p n nc0 mu (c : knots R p n) (G0 : 'M[R]_(nc0, n)) g0 d th :
  symmetric c -> gth_sym c -> no_gv c -> terminal_unit mu c ->
  backward mu c G0 g0 = Some d -> kkt0_mat (head_vm d.1) G0 \in unitmx ->
  lagrangian mu th G0 g0 (forward d (Some th)) =
  lagrangian mu 0 G0 g0 (forward d (Some 0)) + dot th (thGrad d.2) + half * dot th (thHess d.2 *m th).
Proof.
move=> S ST G U E U0.
have [K0 _ T0] := C22_parametric_partial 0 S G U E U0.
have [K1 _ T1] := C22_parametric_partial th S G U E U0.
have := lagrangian_diff S ST K0 K1.
rewrite T0 T1 mulmx0 addr0 subr0 !dotDr.
have h2 : half + half = 1 := half2 R.
move/eqP; rewrite subr_eq => /eqP ->.
rewrite [LHS]addrC -[RHS]addrA; congr (_ + _); move: h2; move: (half) => h h2.
by rewrite !mulrDr addrA -mulrDl h2 mul1r.
Qed.
End Ord.

(** The parameter may not appear in the path constraints: [Gv] is ignored in
    the cost-to-go, so on this problem (whose factorisations all succeed) the
    result for theta = 1 does not satisfy the KKT equations. *)
Section Bad.
Definition I1 : 'M[rat]_1 := 1.
Definition bad0 : knot rat_fieldType 1 1 1 1 1 :=
  Knot 0 0 I1 0 0 0 0 0 I1 0 0 0 0 0 I1 0.
Definition bad1 : knot rat_fieldType 1 1 1 1 1 :=
  Knot 0 0 I1 0 0 0 0 0 0 0 0 0 0 0 0 0.
Definition bad : knots rat_fieldType 1 1 := Cons bad0 (Term bad1).
Lemma chol0 n k (M : 'M[rat]_n) : chol_solve M (0 : 'M_(n, k)) = 0.
Proof. by rewrite /chol_solve mulmx0. Qed.
Lemma oneE n : (1%:M : 'M[rat]_n) = 1%:M. Proof. by []. Qed.

Theorem C22_gv_refuted : exists (c : knots rat_fieldType 1 1) (mu : rat) G0 g0 d th,
  [/\ symmetric c, terminal_unit mu c, backward mu c G0 g0 = Some d,
      kkt0_mat (head_vm d.1) (G0 : 'M_1) \in unitmx &
      ~ kkt_system mu th G0 g0 (forward d (Some th))].
Proof.
exists bad, 1, 1, 0.
have P1 : pd (1 : 'M[rat]_1).
  move=> x x0; rewrite /qform mul1mx lt_neqAle dot_pos andbT eq_sym.
  by apply/eqP => /dot_eq0 E; rewrite E eqxx in x0.
have U1 : kkt_mat 1 (1 : 'M[rat]_1) (0 : 'M[rat]_1) \in unitmx by apply: kkt_unit.
have Sb : symmetric bad by rewrite /= !trmx0 trmx1.
have U2 : kkt_mat 1 (1 : 'M[rat]_1) (1 : 'M[rat]_1) \in unitmx by apply: kkt_unit.
case E : (backward 1 bad 1 0) => [d|]; last first.
  move: E; rewrite /backward /= /stageKernelSolve /=.
  rewrite !mul0mx !trmx0 !mulmx0 ?addr0 lower_sym ?kkt_mat_sym ?trmx1 //.
  by rewrite mul0mx addr0 U1.
exists d, 1; split=> //.
  by apply: kkt0_unit; rewrite unitmx1.
have vx0 : vx (head_vm d.1) = 0 /\ Vxt (head_vm d.1) = 0.
  move: E; rewrite /backward /= /stageKernelSolve /=.
  case: ifPn => // _ [<-] /=.
  rewrite !trmx0 !mul0mx ?mulmx0 ?addr0 ?add0r ?oppr0 ?col_mx0 ?chol0.
  by rewrite ?(linear0, mulmx0, mul0mx, addr0).
move: E; rewrite /backward; case E : (backwardImpl 1 bad) => [ds|//] [Ed].
rewrite -Ed /= in vx0 *; case: vx0 => vx0 vt0.
have tr1 (M : 'M[rat]_1) : M^T = M by apply/matrixP => i j; rewrite mxE !ord1.
have U0 : kkt0_mat (head_vm ds) (1 : 'M_1) \in unitmx by apply: kkt0_unit; rewrite unitmx1.
pose I := computeInitial (factor_initial (head_vm ds) (1 : 'M_1) (0 : 'cV_1)) (Some (1 : 'cV_1)).
have [h1 h2] : Vxx (head_vm ds) *m I.1 + vx (head_vm ds) + Vxt (head_vm ds) *m 1 = - (1^T *m I.2)
  /\ 1 *m I.1 + 0 = 0 := initial_ok (0 : 'cV_1) (tr1 _) U0 (Some 1).
have -> : forward (ds, factor_initial (head_vm ds) (1 : 'M_1) (0 : 'cV_1)) (Some (1 : 'cV_1)) =
  (I.2, forwardImpl (Some (1 : 'cV_1)) ds I.1) by [].
clearbody I; have x0 : I.1 = 0 by move: h2; rewrite mul1mx addr0.
have l0 : I.2 = 0.
  by move: h1; rewrite x0 vx0 vt0 mulmx0 mul0mx !addr0 tr1 mul1mx => /esym/eqP; rewrite oppr_eq0 => /eqP.
rewrite x0 l0; case: ds {E Ed vx0 vt0 U0 h1} => d0 d1 [[hx _ hv _ _] _].
move: hx hv; rewrite /bad0 /= => hx hv.
rewrite !mulmx0 ?mul0mx !addr0 !add0r in hv.
rewrite !trmx0 ?mulmx0 ?mul0mx ?addr0 ?add0r oppr0 tr1 mul1mx in hx.
rewrite hx scaler0 in hv.
by move: hv => /matrixP /(_ 0 0); rewrite mul1mx !mxE.
Qed.
End Bad.

(** ** Witnesses *)
Section Witness.
(** two states, one control, one path constraint, a terminal knot with one state
    and no control: the state dimension changes along the horizon *)
Definition wk0 p : knot rat_fieldType p 2 1 1 1 :=
  Knot 1%:M 0 1%:M (const_mx 1) 0 (const_mx 1) (const_mx 1) (const_mx 2%:Q)
    (const_mx 1) (const_mx 1) (const_mx 3%:Q) 1%:M (const_mx 1) (const_mx 2%:Q) 0 (const_mx 1).
Definition wk1 p : knot rat_fieldType p 1 0 1 0 :=
  Knot 1%:M 0 1%:M (const_mx 1) 0 0 0 0 (const_mx 1) 0 (const_mx 1) 1%:M (const_mx 1) 0 0 0.
Definition wit p : knots rat_fieldType p 2 := Cons (wk0 p) (Term (wk1 p)).
Lemma wit_convex p : convex (R := rat_realFieldType) (wit p).
Proof.
have P n : pd (R := rat_realFieldType) (1%:M : 'M_n).
  move=> x x0; rewrite /qform mul1mx lt_neqAle dot_pos andbT eq_sym.
  by apply/eqP => /dot_eq0 E; rewrite E eqxx in x0.
have S n m : psd (R := rat_realFieldType) (block_mx (1%:M : 'M_n) 0 0^T (1%:M : 'M_m)).
  by move=> x; rewrite trmx0 -scalar_mx_block /qform mul1mx dot_pos.
by split; split; rewrite /= ?trmx1.
Qed.
Lemma wit_gv p : no_gv (wit p). Proof. by []. Qed.
(** for x0 = 5, 5 all hypotheses hold and the solution is not zero *)
Example C21_witness : exists d,
  [/\ symmetric (wit 0), terminal_unit 1 (wit 0), backward 1 (wit 0) (- 1%:M) (const_mx 5%:Q) = Some d,
      kkt0_mat (head_vm d.1) (- 1%:M) \in unitmx & sol_x (forward d None).2 = const_mx 5%:Q].
Proof.
have [U [ds [E SV PV]]] := convex_backward (mu := 1 : rat_realFieldType) ltr01 (wit_convex 0) (wit_gv 0).
have UG : (- 1%:M : 'M[rat]_2) \in unitmx by rewrite -scaleN1r unitmxZ ?unitmx1 // unitrN unitr1.
pose d := (ds, factor_initial (head_vm ds) (- 1%:M) (const_mx 5%:Q)).
have EB : backward 1 (wit 0) (- 1%:M) (const_mx 5%:Q) = Some d by rewrite /backward E.
have S := convex_symmetric (wit_convex 0).
have U0 := kkt0_unit (head_vm ds) UG.
exists d; split=> //.
have [[_ h] _] := C21_kkt S U EB U0.
by move: h; rewrite mulNmx mul1mx addrC => /eqP; rewrite subr_eq0 => /eqP <-.
Qed.
Example C22_witness : exists d,
  [/\ symmetric (wit 1) /\ gth_sym (R := rat_realFieldType) (wit 1), no_gv (wit 1), terminal_unit 1 (wit 1),
      backward 1 (wit 1) (- 1%:M) (const_mx 5%:Q) = Some d &
      kkt0_mat (head_vm d.1) (- 1%:M) \in unitmx /\
      forward d (Some (const_mx 1)) <> forward d (Some 0)].
Proof.
have [U [ds [E SV PV]]] := convex_backward (mu := 1 : rat_realFieldType) ltr01 (wit_convex 1) (wit_gv 1).
have UG : (- 1%:M : 'M[rat]_2) \in unitmx by rewrite -scaleN1r unitmxZ ?unitmx1 // unitrN unitr1.
pose d := (ds, factor_initial (head_vm ds) (- 1%:M) (const_mx 5%:Q)).
have EB : backward 1 (wit 1) (- 1%:M) (const_mx 5%:Q) = Some d by rewrite /backward E.
have S := convex_symmetric (wit_convex 1).
have U0 := kkt0_unit (head_vm ds) UG.
exists d; split=> //.
  by split=> //=; rewrite trmx1.
split=> // H.
have [[K0 _] _ _] := C22_parametric_partial 0 S (wit_gv 1) U EB U0.
have [[K1 _] _ _] := C22_parametric_partial (const_mx 1) S (wit_gv 1) U EB U0.
move: K1; rewrite H; move: K0; case: (forward d (Some 0)) => l [[[[x u] v] l'] s].
rewrite /= => [[_ h _ _ _]] [_ h' _ _ _].
move: h; rewrite mulmx0 addr0 => h; rewrite h add0r in h'.
by move: h' => /matrixP /(_ 0 0); rewrite !mxE big_ord_recl big_ord0 !mxE.
Qed.
End Witness.

Print Assumptions C21_kkt.
Print Assumptions C21_convex.
Print Assumptions C22_parametric_partial.
Print Assumptions C22_value.
Print Assumptions C22_gv_refuted.
