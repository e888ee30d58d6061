From Coq Require Import Ring Field.
From mathcomp Require Import all_ssreflect all_algebra.
From Verif Require Import MxRing FddpLqModel FddpLqProofs ExpModel.
Set Implicit Arguments.
Unset Strict Implicit.
Import Order.Theory GRing.Theory Num.Theory.
Local Open Scope ring_scope.

(** * Specification *)
Section Spec.
Variable R : realFieldType.
(** squared distance between two trajectories (states and controls) *)
Fixpoint dist2 n (l : lq R n) : traj l -> traj l -> R :=
  match l in lq _ n return traj l -> traj l -> R with
  | LTerm n c g h => fun t t' => dot (t' - t) (t' - t)
  | LCons n m n' s l' => fun t t' =>
      dot (t'.1.1 - t.1.1) (t'.1.1 - t.1.1) + dot (t'.1.2 - t.1.2) (t'.1.2 - t.1.2)
      + dist2 t.2 t'.2
  end.
(** a trajectory which satisfies the dynamics and starts at [x0] *)
Fixpoint feasible n (l : lq R n) : 'cV[R]_n -> traj l -> Prop :=
  match l in lq _ n return 'cV[R]_n -> traj l -> Prop with
  | LTerm n c g h => fun x0 t => t = x0
  | LCons n m n' s l' => fun x0 t =>
      t.1.1 = x0 /\ feasible (lnext s (col_mx t.1.1 t.1.2)) t.2
  end.
Fixpoint lqsym n (l : lq R n) : Prop :=
  match l with
  | LTerm n c g h => h^T = h
  | LCons n m n' s l' => (h0 s)^T = h0 s /\ lqsym l'
  end.
Fixpoint lqconvex n (l : lq R n) : Prop :=
  match l with
  | LTerm n c g h => possemidef h
  | LCons n m n' s l' => possemidef (h0 s) /\ lqconvex l'
  end.
End Spec.

Section Proofs.
Variable R : realFieldType.
Variable preg : R.
Add Ring Rring' : (ops_ring R).
Add Field Rfield' : (ops_field R).
Notation half := ((1 + 1)^-1 : R).

Lemma halfE (a : R) : a = half * a + half * a.
Proof. by rewrite -mulrDl half2 mul1r. Qed.

Lemma lin_sym n (l : lq R n) (t : traj l) : lqsym l -> symmetric (lin t).
Proof. by elim: l t => [k c g h|k m k' s l IH] //= t [S1 S2]; split=> //; apply: IH. Qed.
Lemma lin_convex n (l : lq R n) (t : traj l) : lqconvex l -> convex (lin t).
Proof. by elim: l t => [k c g h|k m k' s l IH] //= t [S1 S2]; split=> //; apply: IH. Qed.
Lemma convex_sym n (l : lq R n) : lqconvex l -> lqsym l.
Proof. by elim: l => [k c g h [] //|k m k' s l IH /= [[S P] C]]; split=> //; apply: IH. Qed.

(** the shift of a quadratic cost *)
Lemma quad_lin n g (H : 'M[R]_n) z d : H^T = H ->
  quad g H (z + d) = quad g H z + quad (g + H *m z) H d.
Proof. exact: quad_shift. Qed.

(** the step with a damped feedforward *)
Lemma damped n m (g : 'cV[R]_(n + m)) (H : 'M[R]_(n + m)) alpha x :
  H^T = H -> Quu H \in unitmx ->
  quad g H (col_mx x (alpha *: kff g H + kfb H *m x)) =
    quad (vgrad g H) (Qxx H + Qxu H *m kfb H) x
    + alpha * dot (Qu g) (kff g H) + half * alpha * alpha * dot (kff g H) (Quu H *m kff g H).
Proof.
move=> S U; rewrite square //.
set k := kff g H.
have -> : alpha *: k + kfb H *m x - (k + kfb H *m x) = (alpha - 1) *: k.
  by rewrite opprD addrACA subrr addr0 scalerBl scale1r.
rewrite {1}/quad /qf mul0mx dot0r mulr0 addr0 -scalemxAr dotZl dotZr.
have E : dot k (Quu H *m k) = - dot (Qu g) k by rewrite kff_eq // dotNr dotC.
rewrite E (dotC k (Qu g)).
set a := dot (Qu g) k; set b := quad _ _ _.
have := half2 R; move: half => h hh.
have -> : alpha * a = (h + h) * alpha * a by rewrite hh mul1r.
by move: a b => a b; fold_ops R; ring.
Qed.

Lemma quad_reg n g (H : 'M[R]_n) p x : quad g (H + p%:M) x = quad g H x + half * p * dot x x.
Proof. by rewrite -[X in quad X (H + _) _]addr0 quad_add [X in _ + X = _]/quad /qf dot0l add0r dot_id mulrA. Qed.

(** quadratics at a state shifted by a part of the gap *)
Lemma quad_gap n g (H : 'M[R]_n) alpha y f : H^T = H ->
  quad (g - H *m f) H (y + alpha *: f) =
  quad g H y + alpha * dot g f - half * alpha * alpha * dot (H *m f) f
  - (1 - alpha) * dot (y + alpha *: f) (H *m f).
Proof.
move=> S; rewrite /quad /qf mulmxDr -scalemxAr !(dotDl, dotDr, dotZl, dotZr, dotNl).
have E : dot f (H *m y) = dot y (H *m f) by rewrite dot_tr S dotC.
have E2 : dot (H *m f) y = dot y (H *m f) by rewrite dotC.
have E3 : dot (H *m f) f = dot f (H *m f) by rewrite dotC.
rewrite E E2 E3.
move: (dot g y) (dot g f) (dot y (H *m f)) (dot f (H *m f)) (dot y (H *m y)) => a b c d e.
have := half2 R; move: half => h hh.
apply/eqP; rewrite -subr_eq0; apply/eqP.
transitivity ((h + h - 1) * (alpha * c + alpha * alpha * d)); last by rewrite hh subrr mul0r.
by fold_ops R; ring.
Qed.

(** the change of cost along the pass *)
Lemma pass_cost alpha n (l : lq R n) (t : traj l) dx f :
  lqsym l -> definite preg (lin t) ->
  let tt := pass alpha (gains preg (lin t)) (head t + dx) dx in
  let V := backward preg (lin t) f in
  tcost tt + half * preg * dist2 t tt =
  tcost t + quad (V.1 - V.2 *m f) V.2 dx
  + alpha * (dg preg (lin t) f - dot V.1 f)
  + half * alpha * alpha * (dq preg (lin t) f + dot (V.2 *m f) f)
  + (1 - alpha) * (dv preg t tt f + dot dx (V.2 *m f)).
Proof.
elim: l t dx f => [k c g h|k m k' s l IH] /=.
  move=> t dx f S _.
  have -> : t + dx - t = dx by rewrite addrC addKr.
  rewrite quad_lin // !subrr addNr !mulr0 !addr0 addNr mulr0 addr0.
  rewrite addrK quad_reg.
  by move: (dot _ _) (quad _ _ _) (quad _ _ _) half => *; fold_ops R; ring.
move=> [[x u] t] dx f /= [S1 S2] [P D].
set z := col_mx x u; set fn := lnext s z - head t.
set V := backward preg (lin t) fn in P *.
set st := Stage _ _ _ _; set g := qgrad st V.1; set H := qhess preg st V.2.
set du := alpha *: kff g H + kfb H *m dx.
have SV : V.2^T = V.2 by apply: backward_sym => //; apply: lin_sym.
have SH : H^T = H.
  rewrite /H /qhess !linearD /= S1 !trmx_mul trmxK SV tr_block_mx !trmx0 scalar_sym.
  by rewrite mulmxA.
have UH : Quu H \in unitmx by apply: posdef_unit.
set dz := col_mx dx du.
have Ez : col_mx (x + dx) (u + du) = z + dz by rewrite /z /dz add_col_mx.
rewrite Ez.
set y := j0 s *m dz.
have Ext : lnext s (z + dz) + (alpha - 1) *: fn = head t + (y + alpha *: fn).
  rewrite /fn /lnext mulmxDr -/y.
  move: (j0 s *m z) y (b0 s) (head t) => a b c d.
  by apply/matrixP => i j; rewrite !mxE; fold_ops R; ring.
rewrite Ext.
have -> : head t + (y + alpha *: fn) - head t = y + alpha *: fn by rewrite addrC addKr.
have {IH} := IH t (y + alpha *: fn) fn S2 D; rewrite /= -/V.
set tt := pass _ _ _ _ => IH.
have -> : x + dx - x = dx by rewrite addrC addKr.
have -> : u + du - u = du by rewrite addrC addKr.
have EV : vhess preg H = Qxx H + Qxu H *m kfb H + preg%:M.
  by rewrite /vhess low_sym // vsym.
set W := vhess preg H in EV *.
have E1 : lcost s (z + dz) = lcost s z + quad (grad st) (hess st) dz.
  by rewrite /lcost quad_lin // addrA.
have E2 : quad (grad st) (hess st) dz + half * preg * (dot dx dx + dot du du) + quad V.1 V.2 y
   = quad (vgrad g H) W dx + alpha * dot (Qu g) (kff g H)
     + half * alpha * alpha * dot (kff g H) (Quu H *m kff g H).
  have := @qgradE R preg _ _ _ st 0 V.1 V.2 dx du SV.
  rewrite /= !mulmx0 !addr0 quad0 add0r -/dz -/y -/g -/H.
  have -> : dot dx dx + dot du du = dot dz dz by rewrite /dz dot_col.
  move=> ->; rewrite /dz /du damped // EV quad_reg.
  by move: (quad _ _ _) (dot _ _) (dot _ _) (dot _ _) half => *; fold_ops R; ring.
have E3 := quad_gap V.1 alpha y fn SV.
rewrite E1 addrK.
move: IH; rewrite E3 => IH.
move: IH E2.
set q1 := quad _ _ dz; set q2 := quad _ _ y; set q3 := quad _ W dx.
set T := tcost tt; set dd := dist2 _ _; set T0 := tcost t; set a1 := dot V.1 fn.
set a2 := dot (V.2 *m fn) fn; set a3 := dot (y + _) _; set G := dg _ _ _.
set Q := dq _ _ _; set DV := dv _ _ _ _; set r := dot dx dx + _; set o1 := dot (Qu g) _.
set o2 := dot (kff g H) _.
set w1 := dot dx _; set w2 := dot (_ + _) f; set w3 := dot (W *m f) f.
clearbody q1 q2 q3 T dd T0 a1 a2 a3 G Q DV r o1 o2 w1 w2 w3.
move: half => h IH E2.
have E2' : q1 = q3 + alpha * o1 + h * alpha * alpha * o2 - h * preg * r - q2.
  by rewrite -E2; symmetry; fold_ops R; ring.
have IH' : T = T0 +
     (q2 + alpha * a1 - h * alpha * alpha * a2 - (1 - alpha) * a3) +
     alpha * (G - a1) + h * alpha * alpha * (Q + a2) +
     (1 - alpha) * (DV + a3) - h * preg * dd by rewrite -IH; symmetry; fold_ops R; ring.
by rewrite E2' IH'; fold_ops R; ring.
Qed.

(** the whole pass *)
Lemma forward_cost alpha n (l : lq R n) (x0 : 'cV[R]_n) (t : traj l) :
  lqsym l -> definite preg (lin t) ->
  tcost (forward preg alpha x0 t) =
  predicted preg alpha x0 t
  + (1 - alpha) * (1 - alpha) * dv preg t (forward preg alpha x0 t) (x0 - head t)
  - half * preg * dist2 t (forward preg alpha x0 t).
Proof.
move=> S D; have := @pass_cost alpha n l t (alpha *: (x0 - head t)) (x0 - head t) S D.
rewrite /= -/(forward preg alpha x0 t) /predicted.
set f := x0 - head t; set tt := forward _ _ _ _; set V := backward _ _ _.
have SV : V.2^T = V.2 by apply: backward_sym => //; apply: lin_sym.
have := quad_gap V.1 alpha 0 f SV; rewrite !add0r quad0 => ->; rewrite add0r.
set a := dot V.1 f; set b := dot (V.2 *m f) f; set c := dot (alpha *: f) _.
move: half (half2 R) => h hh.
set G := dg _ _ _; set Q := dq _ _ _; set v := dv _ _ _ _; set r := dist2 _ _.
clearbody a b c G Q v r; move=> E.
have -> : tcost tt = tcost t + (alpha * a - h * alpha * alpha * b - (1 - alpha) * c) +
    alpha * (G - a) + h * alpha * alpha * (Q + b) + (1 - alpha) * (v + c) - h * preg * r.
  by rewrite -E; symmetry; fold_ops R; ring.
have -> : h * (Q - (1 + 1) * v) = h * Q - v.
  by rewrite mulrBr mulrA mulrDr mulr1 hh mul1r.
by move: (tcost t) => c0; fold_ops R; ring.
Qed.

(** no gaps: the second correction vanishes *)
Lemma dv_feasible n (l : lq R n) x0 (t tt : traj l) : feasible x0 t -> dv preg t tt (x0 - head t) = 0.
Proof.
elim: l x0 t tt => [k c g h|k m k' s l IH] x0 /=.
  by move=> t tt ->; rewrite subrr mulmx0 dot0r oppr0.
by move=> [[x u] t] tt /= [-> /IH ->]; rewrite subrr mulmx0 dot0r oppr0 addr0.
Qed.

(** deviations of the controls *)
Fixpoint dus n (l : lq R n) : forall t : traj l, traj l -> controls (lin t) :=
  match l in lq _ n return forall t : traj l, traj l -> controls (lin t) with
  | LTerm n c g h => fun _ _ => tt
  | LCons n m n' s l' => fun t t' => (t'.1.2 - t.1.2, dus t.2 t'.2)
  end.
Lemma dev_cost n (l : lq R n) x0 (t t' : traj l) : lqsym l -> feasible x0 t' ->
  tcost t' + half * preg * dist2 t t' = tcost t + @cost R preg n (lin t) (x0 - head t) (dus t t').
Proof.
elim: l x0 t t' => [k c g h|k m k' s l IH] x0 /=.
  move=> t t' S ->.
  have -> : quad g h x0 = quad g h (t + (x0 - t)) by rewrite addrC subrK.
  rewrite quad_lin //.
  by move: (dot _ _) (quad _ _ _) (quad _ _ _) half => *; fold_ops R; ring.
move=> [[x u] t] [[x' u'] t'] /= [S1 S2] [-> F].
have := IH _ t t' S2 F.
set z := col_mx x u; set dz := col_mx (x0 - x) (u' - u).
have Ez : col_mx x0 u' = z + dz by rewrite /z /dz add_col_mx [x + _]addrC [u + _]addrC !subrK.
rewrite Ez.
have -> : lnext s (z + dz) - head t = j0 s *m dz + (lnext s z - head t).
  rewrite /lnext mulmxDr; move: (j0 s *m z) (j0 s *m dz) (b0 s) (head t) => a b c d.
  by apply/matrixP => i j; rewrite !mxE; fold_ops R; ring.
rewrite /lcost quad_lin // -/dz.
have -> : dot dz dz = dot (x0 - x) (x0 - x) + dot (u' - u) (u' - u) by rewrite /dz dot_col.
set T := tcost t'; set T0 := tcost t; set C := cost _ _ _; set d := dist2 _ _.
clearbody T T0 C d.
move: (dot _ _) (dot _ _) (quad _ _ z) (quad _ _ dz) (c0 s) half => a b q1 q2 c h E.
have -> : C = T + h * preg * d - T0 by rewrite E; symmetry; fold_ops R; ring.
by fold_ops R; ring.
Qed.

Lemma pass_full n (l : lq R n) (t : traj l) (k : gains_ty (lin t)) dx :
  let t' := pass 1 k (head t + dx) dx in
  feasible (head t + dx) t' /\ dus t t' = follow k dx.
Proof.
elim: l t k dx => [k c g h|k m k' s l IH] //= [[x u] t] [[ff fb] ks] dx /=.
rewrite scale1r subrr scale0r addr0.
set du := ff + fb *m dx; set dz := col_mx dx du.
have -> : col_mx (x + dx) (u + du) = col_mx x u + dz by rewrite add_col_mx.
set z := col_mx x u.
have E : lnext s (z + dz) = head t + (j0 s *m dz + (lnext s z - head t)).
  rewrite /lnext mulmxDr; move: (j0 s *m z) (j0 s *m dz) (b0 s) (head t) => a b c d.
  by apply/matrixP => i j; rewrite !mxE; fold_ops R; ring.
have -> : u + du - u = du by rewrite addrC addKr.
rewrite E.
have -> : head t + (j0 s *m dz + (lnext s z - head t)) - head t = j0 s *m dz + (lnext s z - head t).
  by rewrite addrC addKr.
by have [F G] := IH t ks (j0 s *m dz + (lnext s z - head t)); rewrite G.
Qed.

(** the full step minimises the (regularised) cost over feasible trajectories *)
Lemma forward_optimal n (l : lq R n) x0 (t : traj l) : lqsym l -> definite preg (lin t) ->
  feasible x0 (forward preg 1 x0 t) /\
  forall t', feasible x0 t' ->
    tcost (forward preg 1 x0 t) + half * preg * dist2 t (forward preg 1 x0 t)
    <= tcost t' + half * preg * dist2 t t'.
Proof.
move=> S D; set t1 := forward preg 1 x0 t.
have [F G] : feasible x0 t1 /\ dus t t1 = follow (gains preg (lin t)) (x0 - head t).
  have := @pass_full _ l t (gains preg (lin t)) (x0 - head t).
  by rewrite /= /t1 /forward scale1r addrC subrK.
split=> // t' F'.
have [v H] := backward_value (lin_sym t S) D (x0 - head t).
have [E L] := H 0; rewrite addr0 in E L.
rewrite (dev_cost t S F) (dev_cost t S F') ler_add2l G E; exact: L.
Qed.
End Proofs.
