From Coq Require Import Ring Field.
From mathcomp Require Import all_ssreflect all_algebra.
From Verif Require Import MxRing FddpLqModel.
Set Implicit Arguments.
Unset Strict Implicit.
Import Order.Theory GRing.Theory Num.Theory.
Local Open Scope ring_scope.

(** * Specification *)
Section Spec.
Variable R : realFieldType.
Variable preg : R.
Notation half := ((1 + 1)^-1 : R).
Definition qf n (H : 'M[R]_n) (x : 'cV[R]_n) : R := dot x (H *m x).
(** quadratic function with gradient [g] and Hessian [H] *)
Definition quad n (g : 'cV[R]_n) (H : 'M[R]_n) (x : 'cV[R]_n) : R := dot g x + half * qf H x.
Definition posdef n (H : 'M[R]_n) := H^T = H /\ forall x, x != 0 -> 0 < qf H x.
Definition possemidef n (H : 'M[R]_n) := H^T = H /\ forall x, 0 <= qf H x.

(** control sequences of a chain *)
Fixpoint controls n (c : chain R n) : Type :=
  match c with
  | Term _ _ _ => unit
  | @Cons _ n m n' s c' => ('cV[R]_m * controls c')%type
  end.
(** cost of the LQ problem, with the regularisation preg/2 |.|^2 of every state
    and control, from the deviation [x] of the first state:
      x_{i+1} = J_i (x_i, u_i) + gap_{i+1}  *)
Fixpoint cost n (c : chain R n) : 'cV[R]_n -> controls c -> R :=
  match c in chain _ n return 'cV[R]_n -> controls c -> R with
  | Term n lx lxx => fun x _ => quad lx lxx x + half * preg * dot x x
  | Cons n m n' s c' => fun x us =>
      let z := col_mx x us.1 in
      quad (grad s) (hess s) z + half * preg * dot z z + cost (jac s *m z + gap s) us.2
  end.
(** controls given by affine feedback along the linear dynamics *)
Fixpoint follow n (c : chain R n) : gains_ty c -> 'cV[R]_n -> controls c :=
  match c in chain _ n return gains_ty c -> 'cV[R]_n -> controls c with
  | Term _ _ _ => fun _ _ => tt
  | Cons n m n' s c' => fun k x =>
      let u := k.1.1 + k.1.2 *m x in
      (u, follow k.2 (jac s *m col_mx x u + gap s))
  end.
Fixpoint symmetric n (c : chain R n) : Prop :=
  match c with
  | Term n lx lxx => lxx^T = lxx
  | Cons n m n' s c' => (hess s)^T = hess s /\ symmetric c'
  end.
Fixpoint convex n (c : chain R n) : Prop :=
  match c with
  | Term n lx lxx => possemidef lxx
  | Cons n m n' s c' => possemidef (hess s) /\ convex c'
  end.
End Spec.

Section Proofs.
Variable R : realFieldType.
Variable preg : R.
Add Ring Rring : (ops_ring R).
Add Field Rfield : (ops_field R).
Notation half := ((1 + 1)^-1 : R).

Lemma two_neq0 : (1 + 1 : R) != 0.
Proof. by rewrite -mulr2n pnatr_eq0. Qed.
Lemma half2 : half + half = 1 :> R.
Proof. by rewrite -mulr2n -mulr_natl mulfV // pnatr_eq0. Qed.

Lemma low_sym n (M : 'M[R]_n) : M^T = M -> low M = M.
Proof.
move=> S; apply/matrixP => i j; rewrite mxE; case: leqP => // _.
by rewrite -{1}S mxE.
Qed.
Lemma dot_id n a (x y : 'cV[R]_n) : dot x (a%:M *m y) = a * dot x y.
Proof. by rewrite mul_scalar_mx dotZr. Qed.

Lemma quad_shift n g (H : 'M[R]_n) f x : H^T = H ->
  quad g H (f + x) = quad g H f + quad (g + H *m f) H x.
Proof.
move=> S; rewrite /quad /qf mulmxDr !dotDl !dotDr.
have E : dot f (H *m x) = dot (H *m f) x by rewrite dot_tr S.
rewrite E (dotC x (H *m f)).
have D : dot (H *m f) x = half * dot (H *m f) x + half * dot (H *m f) x.
  by rewrite -mulrDl half2 mul1r.
rewrite {3}D. move: (dot (H *m f) x) (dot g f) (dot g x) (dot f _) (dot x _) => a b c d e.
by fold_ops R; ring.
Qed.

Lemma quad_add n g g' (H H' : 'M[R]_n) x : quad (g + g') (H + H') x = quad g H x + quad g' H' x.
Proof. rewrite /quad /qf mulmxDl !dotDl !dotDr mulrDr; fold_ops R; ring. Qed.
Lemma quad_pull m n (J : 'M[R]_(m, n)) g H z : quad g H (J *m z) = quad (J^T *m g) (J^T *m H *m J) z.
Proof.
rewrite /quad /qf dot_tr; congr (_ + _ * _).
by rewrite -!mulmxA [RHS]dot_tr trmxK.
Qed.
Lemma quad0 n g (H : 'M[R]_n) : quad g H 0 = 0.
Proof. by rewrite /quad /qf mulmx0 !dot0r mulr0 addr0. Qed.

(** symmetry of what the pass computes *)
Lemma sym_blocks n m (H : 'M[R]_(n + m)) : H^T = H ->
  [/\ (Qxx H)^T = Qxx H, (Quu H)^T = Quu H & dlsubmx H = (Qxu H)^T].
Proof.
move=> S; have := S; rewrite -{1 2}[H]submxK tr_block_mx => /eq_block_mx[A _ C D].
by split.
Qed.

Section Step.
Variables (n m : nat) (g : 'cV[R]_(n + m)) (H : 'M[R]_(n + m)).
Hypothesis symH : H^T = H.
Hypothesis unitQuu : Quu H \in unitmx.

Lemma lowQuu : low (Quu H) = Quu H.
Proof. by apply: low_sym; case: (sym_blocks symH). Qed.
Lemma kfb_eq : Quu H *m kfb H = - (Qxu H)^T.
Proof. by rewrite /kfb lowQuu mulmxA mulmxV // mul1mx. Qed.
Lemma kff_eq : Quu H *m kff g H = - Qu g.
Proof. by rewrite /kff lowQuu mulmxA mulmxV // mul1mx. Qed.

Lemma vsym : (Qxx H + Qxu H *m kfb H)^T = Qxx H + Qxu H *m kfb H.
Proof.
case: (sym_blocks symH) => A B C.
have D : invmx (low (Quu H)) = (invmx (low (Quu H)))^T by rewrite trmx_inv lowQuu B.
rewrite linearD /= A; congr (_ + _).
by rewrite /kfb !trmx_mul linearN /= trmxK -D !mulNmx !mulmxN mulmxA.
Qed.

(** completing the square *)
Lemma square x u : quad g H (col_mx x u) =
  quad (kff g H) 0 (Qu g) * half + quad (vgrad g H) (Qxx H + Qxu H *m kfb H) x
  + half * qf (Quu H) (u - (kff g H + kfb H *m x)).
Proof.
case: (sym_blocks symH) => A B C.
rewrite /vgrad /quad /qf mul0mx dot0r mulr0 addr0.
rewrite -{1}[g]vsubmxK -{1}[H]submxK mul_block_col !dot_col.
rewrite -/(Qx g) -/(Qu g) -/(Qxx H) -/(Qxu H) -/(Quu H) C.
set k := kff g H; set K := kfb H; set P := Qxu H; set S := Quu H.
have ek : S *m k = - Qu g by apply: kff_eq.
have eK : S *m K = - P^T by apply: kfb_eq.
move: B; rewrite -/S => B; clearbody k K P S.
(* write everything with k, K *)
have eQu : Qu g = - (S *m k) by rewrite ek opprK.
have eP : P^T = - (S *m K) by rewrite eK opprK.
rewrite !(mulmxDl, mulmxDr, mulmxN, mulNmx) !(dotDl, dotDr, dotNl, dotNr).
have sym a b : dot a (S *m b) = dot b (S *m a) by rewrite dot_tr B dotC.
have h1 : dot x (P *m u) = - dot u (S *m (K *m x)).
  by rewrite dot_tr dotC eP mulNmx dotNr mulmxA.
have h2 : dot u (P^T *m x) = - dot u (S *m (K *m x)) by rewrite eP mulNmx dotNr mulmxA.
have h3 : dot (Qu g) u = - dot u (S *m k) by rewrite eQu dotNl dotC.
have h4 : dot (K^T *m Qu g) x = - dot (K *m x) (S *m k).
  by rewrite -dot_tr eQu dotNl dotC.
have h5 : dot x (P *m K *m x) = - dot (K *m x) (S *m (K *m x)).
  by rewrite -mulmxA dot_tr eP mulNmx dotNl dotC mulmxA.
have h6 : dot k (Qu g) = - dot k (S *m k) by rewrite eQu dotNr.
rewrite h1 h2 h3 h4 h5 h6.
rewrite (sym k u) (sym k (K *m x)) (sym (K *m x) u).
have T a : a = half * a + half * a by rewrite -mulrDl half2 mul1r.
rewrite {1}(T (dot u (S *m k))) {1}(T (dot (K *m x) (S *m k))).
move: (dot (Qx g) x) (dot u (S *m k)) (dot (K *m x) (S *m k)) (dot u (S *m (K *m x)))
  (dot (K *m x) (S *m (K *m x))) (dot k (S *m k)) (dot u (S *m u)) (dot x (Qxx H *m x)) => *.
by fold_ops R; ring.
Qed.
End Step.

Lemma qgradE n m n' (s : stage R n m n') f vx vxx x u : vxx^T = vxx ->
  let z := col_mx x u in
  quad (grad s) (hess s) z + half * preg * dot z z + quad vx vxx (jac s *m z + f) =
  quad vx vxx f + (quad (qgrad s (vx + vxx *m f)) (qhess preg s vxx) z + half * preg * dot x x).
Proof.
move=> S z; rewrite [jac s *m z + f]addrC quad_shift // quad_pull /qgrad /qhess.
set H1 := hess s + _.
have -> : quad (grad s + (jac s)^T *m (vx + vxx *m f)) (H1 + block_mx 0 0 0 preg%:M) z =
          quad (grad s + (jac s)^T *m (vx + vxx *m f)) H1 z + half * preg * dot u u.
  rewrite /quad /qf mulmxDl dotDr mulrDr addrA; congr (_ + _).
  rewrite mul_block_col !mul0mx !add0r dot_col dot0r add0r dot_id.
  by rewrite mulrA.
rewrite /H1 quad_add /z dot_col.
by do 3 !move: (quad _ _ _) => ?; do 2 !move: (dot _ _) => ?; fold_ops R; ring.
Qed.

(** the hypothesis on what is factorised *)
Fixpoint definite n (c : chain R n) : Prop :=
  match c with
  | Term _ _ _ => True
  | Cons n m n' s c' => posdef (Quu (qhess preg s (backward preg c' (gap s)).2)) /\ definite c'
  end.

Lemma posdef_unit n (H : 'M[R]_n) : posdef H -> H \in unitmx.
Proof.
move=> [S P]; rewrite -row_free_unit -kermx_eq0; apply/rowV0P => v /sub_kermxP E.
apply/eqP/negPn/negP => vN0.
have /P : v^T != 0 by apply/negP => /eqP Z; move/negP: vN0; apply; rewrite -[v]trmxK Z trmx0.
by rewrite /qf -S -trmx_mul E trmx0 dot0r ltxx.
Qed.

Lemma scalar_sym n (a : R) : (a%:M)^T = a%:M :> 'M[R]_n.
Proof. exact: tr_scalar_mx. Qed.

Lemma backward_sym n (c : chain R n) f : symmetric c -> definite c ->
  ((backward preg c f).2)^T = (backward preg c f).2.
Proof.
elim: c f => [k lx lxx|k m k' s c' IH] f /=; first by move=> S _; rewrite linearD /= S scalar_sym.
move=> [S1 S2] [P D].
have SH : (qhess preg s (backward preg c' (gap s)).2)^T = qhess preg s (backward preg c' (gap s)).2.
  rewrite /qhess !linearD /= S1 !trmx_mul trmxK (IH _ S2 D) tr_block_mx !trmx0 scalar_sym.
  by rewrite mulmxA.
rewrite /vhess linearD /= scalar_sym low_sym ?vsym //; exact: posdef_unit.
Qed.

(** the value of the regularised LQ problem is the stored quadratic *)
Lemma backward_value n (c : chain R n) : symmetric c -> definite c -> forall f, exists v, forall y,
  @cost R preg n c (f + y) (follow (gains preg c) (f + y)) =
    v + quad (backward preg c f).1 (backward preg c f).2 y /\
  forall us, v + quad (backward preg c f).1 (backward preg c f).2 y <= @cost R preg n c (f + y) us.
Proof.
elim: c => [k lx lxx|k m k' s c' IH] /=.
  move=> S _ f; exists (quad lx (lxx + preg%:M) f) => y.
  have E : quad lx lxx (f + y) + half * preg * dot (f + y) (f + y) = quad lx (lxx + preg%:M) (f + y).
    by rewrite -[lx in RHS]addr0 quad_add [in RHS]/quad /qf dot0l add0r dot_id mulrA.
  have Sy : (lxx + preg%:M)^T = lxx + preg%:M by rewrite linearD /= S scalar_sym.
  by split=> [|us]; rewrite E quad_shift.
move=> [S1 S2] [P D] f.
have [v' IHv] := IH S2 D (gap s).
have SV := backward_sym (gap s) S2 D.
set V := backward preg c' (gap s) in P SV IHv *.
set g := qgrad s V.1; set H := qhess preg s V.2.
have SH : H^T = H.
  rewrite /H /qhess !linearD /= S1 !trmx_mul trmxK SV tr_block_mx !trmx0 scalar_sym.
  by rewrite mulmxA.
have UH := posdef_unit P.
pose W := Qxx H + Qxu H *m kfb H.
have SW : W^T = W by apply: vsym.
have SW' : (W + preg%:M)^T = W + preg%:M by rewrite linearD /= SW scalar_sym.
(* stage cost plus value at the next state *)
have step x u : quad (grad s) (hess s) (col_mx x u) + half * preg * dot (col_mx x u) (col_mx x u) +
    (v' + quad V.1 V.2 (jac s *m col_mx x u)) =
    (v' + quad (kff g H) 0 (Qu g) * half) + quad (vgrad g H) (W + preg%:M) x
    + half * qf (Quu H) (u - (kff g H + kfb H *m x)).
  have := @qgradE _ _ _ s 0 V.1 V.2 x u SV; rewrite /= mulmx0 !addr0 quad0 => E.
  rewrite [X in _ + X]addrC addrA E /= -/g -/H square //.
  have -> : quad (vgrad g H) (W + preg%:M) x = quad (vgrad g H) W x + half * preg * dot x x.
    by rewrite -[X in quad X _ _]addr0 quad_add [X in _ + X = _]/quad /qf dot0l add0r dot_id mulrA.
  rewrite -/W.
  by move: (quad _ 0 _) (quad _ W _) (qf _ _) (dot _ _) => *; fold_ops R; ring.
exists (v' + quad (kff g H) 0 (Qu g) * half + quad (vgrad g H) (W + preg%:M) f) => y.
have low_eq : low (Qxx H + Qxu H *m kfb H) = W by apply: low_sym.
rewrite /vhess low_eq.
have Ef : quad (vgrad g H) (W + preg%:M) (f + y) =
  quad (vgrad g H) (W + preg%:M) f + quad (vgrad g H + (W + preg%:M) *m f) (W + preg%:M) y.
  exact: quad_shift.
have S2y u : quad (vgrad g H + (W + preg%:M) *m f) (W + preg%:M) y + 
   (v' + quad (kff g H) 0 (Qu g) * half + quad (vgrad g H) (W + preg%:M) f)
   + half * qf (Quu H) (u - (kff g H + kfb H *m (f + y))) =
   quad (grad s) (hess s) (col_mx (f + y) u) + half * preg * dot (col_mx (f + y) u) (col_mx (f + y) u) +
    (v' + quad V.1 V.2 (jac s *m col_mx (f + y) u)).
  by rewrite step Ef; do ?move: (quad _ _ _) => ?; fold_ops R; ring.
split=> [|[u us] /=].
  set u := kff g H + kfb H *m (f + y).
  have [E _] := IHv (jac s *m col_mx (f + y) u).
  rewrite [jac s *m _ + _]addrC E -S2y subrr /qf mulmx0 dot0r mulr0 addr0 addrC //.
have [_ L] := IHv (jac s *m col_mx (f + y) u).
rewrite [jac s *m _ + _]addrC.
apply: le_trans (_ : _ <= quad (grad s) (hess s) (col_mx (f + y) u) +
    half * preg * dot (col_mx (f + y) u) (col_mx (f + y) u) +
    (v' + quad V.1 V.2 (jac s *m col_mx (f + y) u))) _.
  rewrite -S2y addrC ler_addl mulr_ge0 ?invr_ge0 ?addr_ge0 ?ler01 //.
  case: P => _ P; set w := u - _; case: (altP (w =P 0)) => [->|/P /ltW //].
  by rewrite /qf mulmx0 dot0r.
by rewrite ler_add2l.
Qed.

(** positive semidefinite data make every factorised matrix definite *)
Lemma qf_0 n (A : 'M[R]_n) : qf A 0 = 0.
Proof. by rewrite /qf mulmx0 dot0r. Qed.
Lemma qf_add n (A B : 'M[R]_n) x : qf (A + B) x = qf A x + qf B x.
Proof. by rewrite /qf mulmxDl dotDr. Qed.
Lemma dot_ge0 n (x : 'cV[R]_n) : 0 <= dot x x.
Proof. by rewrite dot_sum sumr_ge0 // => i _; rewrite -expr2 sqr_ge0. Qed.
Lemma dot_gt0 n (x : 'cV[R]_n) : x != 0 -> 0 < dot x x.
Proof.
move=> xN0; rewrite lt0r dot_ge0 andbT; apply: contra xN0 => /eqP E.
apply/eqP/matrixP => i j; rewrite mxE ord1.
have /eqP := E; rewrite dot_sum psumr_eq0; last by move=> k _; rewrite -expr2 sqr_ge0.
by move/allP/(_ i (mem_index_enum _)); rewrite -expr2 sqrf_eq0 => /eqP.
Qed.

Lemma backward_psd n (c : chain R n) f : 0 < preg -> convex c ->
  [/\ symmetric c, definite c & possemidef (backward preg c f).2].
Proof.
move=> p0; elim: c f => [k lx lxx|k m k' s c' IH] f /=.
  move=> [S P]; split=> //; split; first by rewrite linearD /= S scalar_sym.
  by move=> x; rewrite qf_add addr_ge0 // /qf dot_id mulr_ge0 ?dot_ge0 // ltW.
move=> [[S1 P1] C]; have [S2 D2 [SV PV]] := IH (gap s) C.
set V := backward preg c' (gap s) in SV PV *; set H := qhess preg s V.2.
have SH : H^T = H.
  rewrite /H /qhess !linearD /= S1 !trmx_mul trmxK SV tr_block_mx !trmx0 scalar_sym.
  by rewrite mulmxA.
have PH x u : preg * dot u u <= qf H (col_mx x u).
  rewrite /H /qhess !qf_add; set z := col_mx x u.
  have -> : qf (block_mx 0 0 0 preg%:M) z = preg * dot u u.
    by rewrite /qf mul_block_col !mul0mx !add0r dot_col dot0r add0r dot_id.
  rewrite ler_addr addr_ge0 // /qf -!mulmxA dot_tr trmxK; exact: PV.
have qfuu u : qf H (col_mx 0 u) = qf (Quu H) u.
  by rewrite /qf -{1}[H]submxK mul_block_col !mulmx0 !add0r dot_col dot0l add0r.
have PQ : posdef (Quu H).
  split; first by case: (sym_blocks SH).
  by move=> u uN0; rewrite -qfuu (lt_le_trans _ (PH 0 u)) // mulr_gt0 ?dot_gt0.
split=> //; split.
  by rewrite /vhess linearD /= scalar_sym low_sym vsym ?posdef_unit.
move=> x; rewrite /vhess low_sym ?vsym ?posdef_unit // qf_add addr_ge0 //; last first.
  by rewrite /qf dot_id mulr_ge0 ?dot_ge0 // ltW.
(* the minimum of a nonnegative form *)
have := @square _ _ 0 H SH (posdef_unit PQ) x (kfb H *m x).
have E0 : kff 0 H = 0 :> 'cV[R]_m by rewrite /kff /Qu linear0 oppr0 mulmx0.
rewrite E0 add0r subrr qf_0 mulr0 addr0.
have -> : vgrad 0 H = 0 :> 'cV[R]_k by rewrite /vgrad /Qx /Qu !linear0 ?mulmx0 addr0.
have -> : Qu (0 : 'cV[R]_(k + m)) = 0 by rewrite /Qu linear0.
rewrite quad0 mul0r add0r /quad !dot0l !add0r.
have h0 : (1 + 1 : R)^-1 != 0 by rewrite invr_neq0 // two_neq0.
move/(mulfI h0) => <-; apply: le_trans (PH x (kfb H *m x)).
by rewrite mulr_ge0 ?dot_ge0 // ltW.
Qed.
End Proofs.
