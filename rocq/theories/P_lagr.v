(** C36: gradients of the Lagrangian and the LQ subproblem. *)
From mathcomp Require Import all_ssreflect all_algebra.
From Coq Require Import Ring.
From Verif Require Import MxRing RiccatiModel RiccatiProofs LagrModel.
Set Implicit Arguments.
Unset Strict Implicit.
Import GRing.Theory.
Local Open Scope ring_scope.

Section Gradients.
Variable F : fieldType.
Add Ring Rring : (ops_ring F).

(** ** Specification: first-order variation of the Lagrangian along (dx, du), each
    function replaced by its derivative:
    sum of l_t + lam0 . h(x0) + sum of lam_{t+1} . (f_t(x_t,u_t) - x_{t+1})
    + sum of v_t . c_t. *)
Fixpoint variation (has : bool) n (c : traj F n) : xus c -> F :=
  match c in traj _ n return xus c -> F with
  | @TTerm _ n lx cs => fun dx =>
      dot lx dx + \sum_(f <- cs) dot (cv f) (cJx f *m dx)
  | @TCons _ n nu m lx lu A B cs lam c' => fun d =>
      let: (dx, du, d') := d in
      dot lx dx + dot lu du
      + (if has then dot lam (A *m dx + B *m du - head_x d') else 0)
      + \sum_(f <- cs) dot (cv f) (cJx f *m dx + cJu f *m du)
      + variation has d'
  end.
(** sum of products of the components *)
Fixpoint pair n (c : traj F n) : xus c -> xus c -> F :=
  match c in traj _ n return xus c -> xus c -> F with
  | @TTerm _ n _ _ => fun a b => dot a b
  | @TCons _ n nu m _ _ _ _ _ _ c' => fun a b =>
      dot a.1.1 b.1.1 + dot a.1.2 b.1.2 + pair a.2 b.2
  end.

Lemma dot_foldl n (T : Type) (g : T -> 'cV[F]_n) cs a d :
  dot (foldl (fun a f => a + g f) a cs) d = dot a d + \sum_(f <- cs) dot (g f) d.
Proof.
elim: cs a => [|f cs IH] a /=; first by rewrite big_nil addr0.
by rewrite IH big_cons dotDl addrA.
Qed.

Lemma grad_loop_variation has n (c : traj F n) Lx d :
  pair (grad_loop has c Lx) d = dot Lx (head_x d) + variation has d.
Proof.
elim: c Lx d => [{}n lx cs|{}n nu m lx lu A B cs lam c IH] Lx /=.
  move=> d; rewrite dot_foldl dotDl -addrA; congr (_ + (_ + _)).
  by apply: eq_bigr => f _; rewrite dot_tr.
move=> [[dx du] d'] /=; rewrite IH !dot_foldl.
have -> : \sum_(f <- cs) dot (cv f) (cJx f *m dx + cJu f *m du) =
  \sum_(f <- cs) dot ((cJx f)^T *m cv f) dx + \sum_(f <- cs) dot ((cJu f)^T *m cv f) du.
  by rewrite -big_split /=; apply: eq_bigr => f _; rewrite dotDr !dot_tr.
move: (variation has d') => v {IH}; case: has => /=.
  rewrite !(dotDl, dotDr, dotNr, dotNl, dot_tr).
  do ?move: (dot _ _) => ?; do ?move: (\sum_(f <- cs) _) => ?.
  by fold_ops F; ring.
rewrite !(dotDl, dot0l).
do ?move: (dot _ _) => ?; do ?move: (\sum_(f <- cs) _) => ?.
by fold_ops F; ring.
Qed.

(** C36: for every horizon, dimensions, Jacobians and multipliers, the gradients
    reported represent the variation of the Lagrangian in every direction. *)
Theorem C36_gradient : forall n nc0 (c : traj F n) (J0 : 'M[F]_(nc0, n)) (l : option 'cV[F]_nc0) d,
  pair (compute c J0 l) d =
  (if l is Some l0 then dot l0 (J0 *m head_x d) else 0) + variation (l != None) d.
Proof.
move=> n nc0 c J0 [l|] d /=; rewrite grad_loop_variation.
  by rewrite dot_tr.
by rewrite dot0l.
Qed.

(** ... and are the only vectors which do. *)
Lemma dot_eq n (a b : 'cV[F]_n) : (forall d, dot a d = dot b d) -> a = b.
Proof.
move=> H; apply/colP => i; move: (H (delta_mx i 0)); rewrite !dot_sum.
have S (x : 'cV[F]_n) : \sum_j x j 0 * (delta_mx i 0 : 'cV[F]_n) j 0 = x i 0.
  rewrite (bigD1 i) //= big1 ?addr0; last first.
    by move=> j ji; rewrite !mxE (negbTE ji) mulr0.
  by rewrite !mxE !eqxx mulr1.
by rewrite !S.
Qed.
Fixpoint zeros n (c : traj F n) : xus c :=
  match c in traj _ n return xus c with
  | @TTerm _ n _ _ => 0
  | @TCons _ n nu m _ _ _ _ _ _ c' => (0, 0, zeros c')
  end.
Lemma pair0 n (c : traj F n) (a : xus c) : pair a (zeros c) = 0.
Proof.
elim: c a => [{}n lx cs|{}n nu m lx lu A B cs lam c IH] a /=; first exact: dot0r.
by rewrite !dot0r IH !addr0.
Qed.
Theorem C36_unique : forall n (c : traj F n) (a b : xus c),
  (forall d, pair a d = pair b d) -> a = b.
Proof.
move=> n c; elim: c => [{}n lx cs|{}n nu m lx lu A B cs lam c IH] /=.
  exact: dot_eq.
move=> [[a1 a2] a3] [[b1 b2] b3] H; congr (_, _, _).
- apply: dot_eq => d; move: (H (d, 0, zeros c)); by rewrite /= !dot0r !pair0 !addr0.
- apply: dot_eq => d; move: (H (0, d, zeros c)); by rewrite /= !dot0r !pair0 !addr0 !add0r.
- apply: IH => d; move: (H (0, 0, d)); by rewrite /= !dot0r !add0r.
Qed.
End Gradients.

(** ** The LQ subproblem *)
Section Newton.
Variable F : fieldType.
Add Ring Rring2 : (ops_ring F).
Variables mu preg : F.
Variable exact : bool.
Hypothesis mu0 : mu != 0.

(** Specification: the Newton system of the primal-dual optimality conditions,
    with the complete Jacobians.  An active row is linearised; an inactive row
    only fixes the multiplier step.  [lam] is what the x-row must be equal to. *)
Definition rows_ok n nu nc (act : 'I_nc -> bool) (Jx : 'M[F]_(nc, n)) (Ju : 'M[F]_(nc, nu))
  (Lv : 'cV[F]_nc) (dx : 'cV[F]_n) (du : 'cV[F]_nu) (dv : 'cV[F]_nc) : Prop :=
  forall i, if act i then (Jx *m dx) i 0 + (Ju *m du) i 0 + Lv i 0 = mu * dv i 0
            else Lv i 0 = mu * dv i 0.
Definition hess m n (L H : 'M[F]_(m, n)) := if exact then L + H else L.

Fixpoint steps n (c : lqdata F n) : Type :=
  match c with
  | @LTerm _ n nc s => ('cV[F]_n * 'cV[F]_nc)%type
  | @LCons _ n nu nc m s c' => ('cV[F]_n * 'cV[F]_nu * 'cV[F]_nc * 'cV[F]_m * steps c')%type
  end.
Definition step_x n (c : lqdata F n) : steps c -> 'cV[F]_n :=
  match c in lqdata _ n return steps c -> 'cV[F]_n with
  | @LTerm _ n nc s => fun d => d.1
  | @LCons _ n nu nc m s c' => fun d => d.1.1.1.1
  end.
Fixpoint newton n (c : lqdata F n) : 'M[F]_n -> 'cV[F]_n -> steps c -> Prop :=
  match c in lqdata _ n return 'M[F]_n -> 'cV[F]_n -> steps c -> Prop with
  | @LTerm _ n nc s => fun H0 lam d =>
      let: (dx, dv) := d in
      [/\ tLxx s *m dx + preg *: dx + H0 *m dx + (tgLx s + (tJx s)^T *m dv) = lam &
          forall i, if tact s i then (tJx s *m dx) i 0 + tLv s i 0 = mu * dv i 0
                    else tLv s i 0 = mu * dv i 0]
  | @LCons _ n nu nc m s c' => fun H0 lam d =>
      let: (dx, du, dv, dl, d') := d in
      [/\ hess (Lxx s) (Hxx s) *m dx + preg *: dx + H0 *m dx + hess (Lxu s) (Hxu s) *m du
            + (gLx s + (sA s)^T *m dl + (Jx s)^T *m dv) = lam,
          (hess (Lxu s) (Hxu s))^T *m dx + hess (Luu s) (Huu s) *m du + preg *: du
            + (gLu s + (sB s)^T *m dl + (Ju s)^T *m dv) = 0,
          rows_ok (act s) (Jx s) (Ju s) (Lv s) dx du dv,
          step_x d' = sA s *m dx + sB s *m du + slack s &
          newton 0 dl d']
  end.

(** the steps as a candidate solution of the LQ problem *)
Fixpoint to_sol n (c : lqdata F n) H0 : steps c -> sol (lq_problem mu preg exact c H0) :=
  match c in lqdata _ n return
    forall H0, steps c -> sol (lq_problem mu preg exact c H0) with
  | @LTerm _ n nc s => fun H0 d => (d.1, 0, d.2)
  | @LCons _ n nu nc m s c' => fun H0 d =>
      (d.1.1.1.1, d.1.1.1.2, d.1.1.2, d.1.2, to_sol 0 d.2)
  end H0.

Lemma keep_mul nc k (act : 'I_nc -> bool) (J : 'M[F]_(nc, k)) (d : 'cV[F]_k) i :
  (keep_rows act J *m d) i 0 = if act i then (J *m d) i 0 else 0.
Proof.
rewrite !mxE; case: (boolP (act i)) => ai.
  by apply: eq_bigr => j _; rewrite mxE ai.
by apply: big1 => j _; rewrite mxE (negbTE ai) mul0r.
Qed.
Lemma keep_rows_dv n nu nc (act : 'I_nc -> bool) (Jx : 'M[F]_(nc, n)) (Ju : 'M[F]_(nc, nu))
  (Lv dv : 'cV[F]_nc) dx du :
  keep_rows act Jx *m dx + keep_rows act Ju *m du + Lv = mu *: dv <->
  rows_ok act Jx Ju Lv dx du dv.
Proof.
have E i : (keep_rows act Jx *m dx + keep_rows act Ju *m du + Lv) i 0 =
  if act i then (Jx *m dx) i 0 + (Ju *m du) i 0 + Lv i 0 else Lv i 0.
  rewrite mxE (mxE _ _ i 0) !keep_mul; case: (act i) => //; by rewrite !add0r.
split.
  move=> H i; move: (E i); rewrite H mxE; by case: (act i).
move=> H; apply/colP => i; rewrite E [RHS]mxE; move: (H i); by case: (act i).
Qed.
(** the correction term restores the missing rows *)
Lemma corr_full n nc (act : 'I_nc -> bool) (J : 'M[F]_(nc, n)) (Lv dv : 'cV[F]_nc) :
  (forall i, ~~ act i -> Lv i 0 = mu * dv i 0) ->
  corr mu act J Lv + (keep_rows act J)^T *m dv = J^T *m dv.
Proof.
move=> H; rewrite /corr -mulmxBl; apply/eqP; rewrite -subr_eq0; apply/eqP.
apply/colP => j; rewrite !mxE -big_split -sumrB /=; apply: big1 => i _.
rewrite !mxE; case: (boolP (act i)) => ai.
  by rewrite subrr mul0r add0r subrr.
by rewrite H // (mulrA mu^-1) mulVf // mul1r subr0 mul0r addr0 subrr.
Qed.
Lemma rows_inactive n nu nc (act : 'I_nc -> bool) (Jx : 'M[F]_(nc, n)) (Ju : 'M[F]_(nc, nu))
  (Lv : 'cV[F]_nc) dx du dv :
  rows_ok act Jx Ju Lv dx du dv -> forall i, ~~ act i -> Lv i 0 = mu * dv i 0.
Proof. move=> H i ai; move: (H i); by rewrite (negbTE ai). Qed.

Lemma hess_when m n (L H : 'M[F]_(m, n)) : hess L H = L + when_exact exact H.
Proof. by rewrite /hess /when_exact; case: exact; rewrite ?addr0. Qed.
Lemma sol_x_to_sol n (c : lqdata F n) H0 d : sol_x (to_sol (c := c) H0 d) = step_x d.
Proof. by case: c H0 d => [{}n nc s|{}n nu nc m s c'] H0 d. Qed.

Lemma newton_kkt (th : 'cV[F]_0) n (c : lqdata F n) H0 lam d :
  newton H0 lam d <-> kkt mu th lam (to_sol (c := c) H0 d).
Proof.
elim: c H0 lam d => [{}n nc s|{}n nu nc m s c IH] H0 lam /=.
  move=> [dx dv] /=.
  have R : (forall i, if tact s i then (tJx s *m dx) i 0 + tLv s i 0 = mu * dv i 0
                    else tLv s i 0 = mu * dv i 0) <->
    keep_rows (tact s) (tJx s) *m dx + 0 *m (0 : 'cV_0) + tLv s + 0 *m th = mu *: dv.
    rewrite mulmx0 addr0 mul0mx addr0.
    have E i : (keep_rows (tact s) (tJx s) *m dx + tLv s) i 0 =
      if tact s i then (tJx s *m dx) i 0 + tLv s i 0 else tLv s i 0.
      rewrite mxE keep_mul; case: (tact s i) => //; by rewrite add0r.
    split.
      move=> H; apply/colP => i; rewrite E [RHS]mxE; move: (H i); by case: (tact s i).
    by move=> H i; move: (E i); rewrite H mxE; case: (tact s i).
  split.
    case=> <- Hr; split; [|by apply/colP; case|by apply/R].
    rewrite -(@corr_full n nc (tact s) (tJx s) (tLv s) dv); last first.
      by move=> i ai; move: (Hr i); rewrite (negbTE ai).
    rewrite !mul0mx !addr0 /reg !mulmxDl mul_scalar_mx.
    by rewrite -!addrA.
  case=> <- _ /R Hr; split=> //.
  rewrite -(@corr_full n nc (tact s) (tJx s) (tLv s) dv); last first.
    by move=> i ai; move: (Hr i); rewrite (negbTE ai).
  rewrite !mul0mx !addr0 /reg !mulmxDl mul_scalar_mx.
  by rewrite -!addrA.
move=> [[[[dx du] dv] dl] d'] /=.
rewrite sol_x_to_sol.
have R : rows_ok (act s) (Jx s) (Ju s) (Lv s) dx du dv <->
  keep_rows (act s) (Jx s) *m dx + keep_rows (act s) (Ju s) *m du + Lv s + 0 *m th = mu *: dv.
  by rewrite mul0mx addr0; apply: iff_sym; apply: keep_rows_dv.
have EX : rows_ok (act s) (Jx s) (Ju s) (Lv s) dx du dv ->
  hess (Lxx s) (Hxx s) *m dx + preg *: dx + H0 *m dx + hess (Lxu s) (Hxu s) *m du
            + (gLx s + (sA s)^T *m dl + (Jx s)^T *m dv) =
  (reg preg (Lxx s) + when_exact exact (Hxx s) + H0) *m dx +
  (Lxu s + when_exact exact (Hxu s)) *m du + (gLx s + corr mu (act s) (Jx s) (Lv s)) +
  (sA s)^T *m dl + (keep_rows (act s) (Jx s))^T *m dv + 0 *m th.
  move=> /rows_inactive Hi; rewrite -(@corr_full n nc (act s) (Jx s) (Lv s) dv Hi) mul0mx addr0.
  rewrite !hess_when /reg !mulmxDl mul_scalar_mx.
  move: (corr _ _ _ _) => K.
  by mx_open F; ring.
have EU : rows_ok (act s) (Jx s) (Ju s) (Lv s) dx du dv ->
  (hess (Lxu s) (Hxu s))^T *m dx + hess (Luu s) (Huu s) *m du + preg *: du
            + (gLu s + (sB s)^T *m dl + (Ju s)^T *m dv) =
  (Lxu s + when_exact exact (Hxu s))^T *m dx + (reg preg (Luu s) + when_exact exact (Huu s)) *m du +
  (gLu s + corr mu (act s) (Ju s) (Lv s)) +
  (sB s)^T *m dl + (keep_rows (act s) (Ju s))^T *m dv + 0 *m th.
  move=> /rows_inactive Hi; rewrite -(@corr_full nu nc (act s) (Ju s) (Lv s) dv Hi) mul0mx addr0.
  rewrite !hess_when /reg !mulmxDl mul_scalar_mx.
  move: (corr _ _ _ _) => K.
  by mx_open F; ring.
split.
  by case=> HX HU HR HF /IH HN; split=> //; [rewrite -EX|rewrite -EU|apply/R].
by case=> HX HU /R HR HF /IH HN; split=> //; [rewrite EX|rewrite EU].
Qed.

(** C36: the LQ subproblem.  With mu <> 0, the steps are a KKT point of the LQ
    problem which the solver builds (projected Jacobians, corrected gradients)
    exactly when they solve the Newton system with the complete Jacobians,
    whatever the active set; at the first node the co-state is -J0^T dlam0. *)
Theorem C36_lq_subproblem : forall n nc0 (c : lqdata F n) (J0 : 'M[F]_(nc0, n)) g0 H0
    (th : 'cV[F]_0) (dl0 : 'cV[F]_nc0) d,
  kkt_system mu th (c := lq_problem mu preg exact c H0) J0 g0 (dl0, to_sol H0 d) <->
  newton H0 (- (J0^T *m dl0)) d /\ J0 *m step_x d + g0 = 0.
Proof.
move=> n nc0 c J0 g0 H0 th dl0 d; rewrite /kkt_system /= sol_x_to_sol.
by split; case=> H1 H2; split=> //; apply/(newton_kkt th).
Qed.
End Newton.

(** Non-trivial instance over the rationals: one stage of dimensions 2, 1 with a
    two-row constraint and a terminal constraint. *)
Definition ex_traj : traj rat_fieldType 2 :=
  TCons (nu := 1) (const_mx 1%:R) (const_mx 2%:R) (1%:M : 'M_2) (const_mx 3%:R)
    [:: CFun (cdim := 2) (const_mx 1%:R) (const_mx 5%:R) (const_mx 7%:R)] (const_mx 4%:R)
    (TTerm (const_mx 1%:R) [:: CFun (cdim := 1) (const_mx 2%:R) 0 (const_mx 3%:R)]).
(** u-gradient: 2 + B^T lam + Ju^T v = 2 + 2*12 + 2*35 = 96; terminal: -4 + 1 + 6 = 3 *)
Example C36_example : forall i : 'I_2,
  ((compute ex_traj (1%:M : 'M_2) (Some 0)).1.2 0 0 = 96%:R) /\
  ((compute ex_traj (1%:M : 'M_2) (Some 0)).2 i 0 = 3%:R).
Proof.
by move=> i; split; rewrite /= !mxE !big_ord_recl !big_ord0 !mxE.
Qed.

Print Assumptions C36_gradient.
Print Assumptions C36_unique.
Print Assumptions C36_lq_subproblem.

(** Steps solving the Newton system with one active and one inactive row:
    mu = 1, Lxx = 1, Jx = (1, 1), Lv = (1, 2): dx = -3/2, dv = (-1/2, 2). *)
Definition ex_term : lqdata rat_fieldType 1 :=
  LTerm (TStage (1%:M : 'M_1) (const_mx 1 : 'M_(2, 1)) (fun i => i == 0)
    (\col_i (if i == 0 then 1 else 2%:R)) 0).
Example C36_lq_example : let R := rat_fieldType in
  newton (1 : R) 0 true (c := ex_term) 0 0
    (const_mx (- (3%:R / 2%:R)), \col_i (if i == 0 then - (1 / 2%:R) else 2%:R)).
Proof.
split.
  by apply/colP => i; rewrite (ord1 i) !(mxE, big_ord_recl, big_ord0).
by case; case=> [|[|//]] h /=; rewrite !(mxE, big_ord_recl, big_ord0).
Qed.
