(** Value function and well-posedness of the LQ problem solved by the Riccati
    recursion of RiccatiModel. *)
From Coq Require Import Ring Field.
From mathcomp Require Import all_ssreflect all_algebra.
From Verif Require Import MxRing RiccatiModel RiccatiProofs.
Set Implicit Arguments.
Unset Strict Implicit.
Import Order.Theory GRing.Theory Num.Theory.
Local Open Scope ring_scope.

(** * Specification *)
Section Spec.
Variable R : realFieldType.
Variable p : nat.
Variable mu : R.
Notation half := ((1 + 1)^-1 : R).
Definition qform n (H : 'M[R]_n) (x : 'cV[R]_n) : R := dot x (H *m x).

(** terms of one knot in the Lagrangian, without the dynamics *)
Definition knot_lag (t : 'cV[R]_p) n nu nc m (k : knot R p n nu nc m) (x : 'cV_n) (u : 'cV_nu) (v : 'cV_nc) : R :=
  half * qform (Qm k) x + dot x (Sm k *m u) + half * qform (Rm k) u + dot (qv k) x + dot (rv k) u
  + dot v (Cm k *m x + Dm k *m u + dv k + Gv k *m t) - half * mu * dot v v
  + dot x (Gx k *m t) + dot u (Gu k *m t) + dot (gam k) t + half * qform (Gth k) t.
Fixpoint lag (t : 'cV[R]_p) n (c : knots R p n) : sol c -> R :=
  match c in knots _ _ n return sol c -> R with
  | @Term _ _ n nu nc m k => fun s => let: (x, u, v) := s in knot_lag t k x u v
  | @Cons _ _ n nu nc m k c' => fun s => let: (x, u, v, l', s') := s in
      knot_lag t k x u v + dot l' (Am k *m x + Bm k *m u + fv k - sol_x s') + lag t s'
  end.
(** Lagrangian of the problem *)
Definition lagrangian (t : 'cV[R]_p) n nc0 (c : knots R p n) (G0 : 'M[R]_(nc0, n)) (g0 : 'cV[R]_nc0)
  (r : 'cV[R]_nc0 * sol c) : R :=
  dot r.1 (G0 *m sol_x r.2 + g0) + lag t r.2.

Definition psd n (H : 'M[R]_n) := forall x, 0 <= qform H x.
Definition pd n (H : 'M[R]_n) := forall x, x != 0 -> 0 < qform H x.
(** convex problem: the Hessian of every knot is positive semidefinite, its
    control block positive definite *)
Definition convex_knot n nu nc m (k : knot R p n nu nc m) : Prop :=
  [/\ (Qm k)^T = Qm k, (Rm k)^T = Rm k, psd (block_mx (Qm k) (Sm k) (Sm k)^T (Rm k)) & pd (Rm k)].
Fixpoint convex n (c : knots R p n) : Prop :=
  match c with
  | @Term _ _ n nu nc m k => convex_knot k
  | @Cons _ _ n nu nc m k c' => convex_knot k /\ convex c'
  end.
Fixpoint gth_sym n (c : knots R p n) : Prop :=
  match c with
  | @Term _ _ n nu nc m k => (Gth k)^T = Gth k
  | @Cons _ _ n nu nc m k c' => (Gth k)^T = Gth k /\ gth_sym c'
  end.

(** objective of the penalised problem: the trajectory is given by its first
    state and its controls, the next states by the dynamics, and a path
    constraint with residual e costs |e|^2/(2 mu) *)
Definition knot_cost (t : 'cV[R]_p) n nu nc m (k : knot R p n nu nc m) (x : 'cV_n) (u : 'cV_nu) : R :=
  let e := Cm k *m x + Dm k *m u + dv k + Gv k *m t in
  half * qform (Qm k) x + dot x (Sm k *m u) + half * qform (Rm k) u + dot (qv k) x + dot (rv k) u
  + half * mu^-1 * dot e e
  + dot x (Gx k *m t) + dot u (Gu k *m t) + dot (gam k) t + half * qform (Gth k) t.
Fixpoint controls n (c : knots R p n) : Type :=
  match c with
  | @Term _ _ n nu nc m k => 'cV[R]_nu
  | @Cons _ _ n nu nc m k c' => ('cV[R]_nu * controls c')%type
  end.
Fixpoint objective (t : 'cV[R]_p) n (c : knots R p n) : 'cV[R]_n -> controls c -> R :=
  match c in knots _ _ n return 'cV[R]_n -> controls c -> R with
  | @Term _ _ n nu nc m k => fun x u => knot_cost t k x u
  | @Cons _ _ n nu nc m k c' => fun x us =>
      knot_cost t k x us.1 + objective t (Am k *m x + Bm k *m us.1 + fv k) us.2
  end.
Fixpoint sol_us n (c : knots R p n) : sol c -> controls c :=
  match c in knots _ _ n return sol c -> controls c with
  | @Term _ _ n nu nc m k => fun s => s.1.2
  | @Cons _ _ n nu nc m k c' => fun s => (s.1.1.1.2, sol_us s.2)
  end.
End Spec.

Section Proofs.
Variable R : realFieldType.
Variable p : nat.
Variable mu : R.
Notation half := ((1 + 1)^-1 : R).
Add Ring Rring : (ops_ring R).

Add Field Rfield : (ops_field R).
Lemma two_neq0 : (1 + 1 : R) != 0.
Proof. by rewrite -mulr2n pnatr_eq0. Qed.
Lemma half2 : half + half = 1 :> R.
Proof. by rewrite -mulr2n -mulr_natl mulfV // pnatr_eq0. Qed.
Lemma qform_diff n (H : 'M[R]_n) x y : H^T = H ->
  half * qform H y - half * qform H x = half * dot (y - x) (H *m x + H *m y).
Proof.
move=> S; rewrite /qform !dotDl !dotDr !dotNl.
have -> : dot x (H *m y) = dot y (H *m x) by rewrite dot_tr S dotC.
do ?move: (dot _ _) => ?; fold_ops R; ring.
Qed.

(** trapezoidal rule for one knot *)
Lemma knot_diff n nu nc m (k : knot R p n nu nc m) t t' x x' u u' v v' :
  (Qm k)^T = Qm k -> (Rm k)^T = Rm k -> (Gth k)^T = Gth k ->
  let gx x u v t := Qm k *m x + Sm k *m u + qv k + (Cm k)^T *m v + Gx k *m t in
  let gu x u v t := (Sm k)^T *m x + Rm k *m u + rv k + (Dm k)^T *m v + Gu k *m t in
  let gv x u v t := Cm k *m x + Dm k *m u + dv k + Gv k *m t - mu *: v in
  let gt x u v t := gam k + Gth k *m t + (Gx k)^T *m x + (Gu k)^T *m u + (Gv k)^T *m v in
  knot_lag mu t' k x' u' v' - knot_lag mu t k x u v =
  half * (dot (x' - x) (gx x u v t + gx x' u' v' t') + dot (u' - u) (gu x u v t + gu x' u' v' t')
    + dot (v' - v) (gv x u v t + gv x' u' v' t') + dot (t' - t) (gt x u v t + gt x' u' v' t')).
Proof.
move=> SQ SR ST /=; rewrite /knot_lag /qform.
have cl (n1 n2 : nat) (A : 'M[R]_(n1, n2)) a b : dot b (A^T *m a) = dot a (A *m b).
  by rewrite dot_tr trmxK dotC.
have sw (n1 : nat) (A : 'M[R]_n1) a b : A^T = A -> dot b (A *m a) = dot a (A *m b).
  by move=> E; rewrite -{1}E cl.
rewrite !(dotDl, dotDr, dotNl, dotNr, dotZl, dotZr) !cl.
rewrite [dot x' (Qm k *m x)]sw // [dot u' (Rm k *m u)]sw // [dot t' (Gth k *m t)]sw // [dot v' v]dotC.
rewrite ![dot x (qv k)]dotC ![dot x' (qv k)]dotC ![dot u (rv k)]dotC ![dot u' (rv k)]dotC
  ![dot t (gam k)]dotC ![dot t' (gam k)]dotC.
do ?move: (dot _ _) => ?; fold_ops R; field; exact/eqP/two_neq0.
Qed.

Lemma lag_diff n (c : knots R p n) t t' lam lam' (s s' : sol c) :
  symmetric c -> gth_sym c -> kkt mu t lam s -> kkt mu t' lam' s' ->
  lag mu t' s' - lag mu t s =
  half * (dot (sol_x s' - sol_x s) (lam + lam') + dot (t' - t) (dtheta t s + dtheta t' s')).
Proof.
elim: c lam lam' s s' => [n' nu nc m k|n' nu nc m k c IH] lam lam' /=.
  move=> [[x u] v] [[x' u'] v'] [SQ SR] ST [hx hu hv] [hx' hu' hv'].
  rewrite (knot_diff t t' x x' u u' v v' SQ SR ST) hx hx' hu hu' hv hv' !subrr !addr0 !dot0r /=.
  by rewrite !addr0.
move=> [[[[x u] v] l] s] [[[[x' u'] v'] l'] s'] [[SQ SR] Sc] [ST STc] [hx hu hv hd hs] [hx' hu' hv' hd' hs'].
have E := IH _ _ _ _ Sc STc hs hs'.
rewrite -hd -hd' !subrr !dot0r !addr0.
have -> : knot_lag mu t' k x' u' v' + lag mu t' s' - (knot_lag mu t k x u v + lag mu t s) =
  (knot_lag mu t' k x' u' v' - knot_lag mu t k x u v) + (lag mu t' s' - lag mu t s).
  move: (lag mu t s) (lag mu t' s') (knot_lag mu t k x u v) (knot_lag mu t' k x' u' v') => a b a' b'.
  by fold_ops R; ring.
rewrite E (knot_diff t t' x x' u u' v v' SQ SR ST).
have hv0 : Cm k *m x + Dm k *m u + dv k + Gv k *m t - mu *: v = 0 by rewrite hv subrr.
have hv0' : Cm k *m x' + Dm k *m u' + dv k + Gv k *m t' - mu *: v' = 0 by rewrite hv' subrr.
have hx0 : Qm k *m x + Sm k *m u + qv k + (Cm k)^T *m v + Gx k *m t = lam - (Am k)^T *m l.
  by rewrite -hx; mx_open R; ring.
have hx0' : Qm k *m x' + Sm k *m u' + qv k + (Cm k)^T *m v' + Gx k *m t' = lam' - (Am k)^T *m l'.
  by rewrite -hx'; mx_open R; ring.
have hu0 : (Sm k)^T *m x + Rm k *m u + rv k + (Dm k)^T *m v + Gu k *m t = - ((Bm k)^T *m l).
  by rewrite -[RHS]add0r -hu; mx_open R; ring.
have hu0' : (Sm k)^T *m x' + Rm k *m u' + rv k + (Dm k)^T *m v' + Gu k *m t' = - ((Bm k)^T *m l').
  by rewrite -[RHS]add0r -hu'; mx_open R; ring.
rewrite hv0 hv0' hx0 hx0' hu0 hu0' hd hd' addr0 dot0r.
have cl (n1 n2 : nat) (A : 'M[R]_(n1, n2)) a b : dot b (A^T *m a) = dot a (A *m b).
  by rewrite dot_tr trmxK dotC.
move: (gam k + _ + _ + _ + _) (gam k + _ + _ + _ + _) (dtheta t s) (dtheta t' s') => w1 w2 w3 w4.
rewrite !(dotDl, dotDr, dotNl, dotNr, dotZl, dotZr) !cl.
rewrite ![dot (_ *m _) l]dotC ![dot (_ *m _) l']dotC.
by do ?move: (dot _ _) => ?; fold_ops R; field; exact/eqP/two_neq0.
Qed.
Lemma lagrangian_diff n nc0 (c : knots R p n) (G0 : 'M[R]_(nc0, n)) g0 t t' (r r' : 'cV[R]_nc0 * sol c) :
  symmetric c -> gth_sym c -> kkt_system mu t G0 g0 r -> kkt_system mu t' G0 g0 r' ->
  lagrangian mu t' G0 g0 r' - lagrangian mu t G0 g0 r =
  half * dot (t' - t) (dtheta t r.2 + dtheta t' r'.2).
Proof.
move=> S ST [h1 h2] [h1' h2']; rewrite /lagrangian h2 h2' !dot0r !add0r.
rewrite (lag_diff S ST h1 h1').
have e : G0 *m sol_x r.2 = - g0 by apply/eqP; rewrite -subr_eq0 opprK h2.
have e' : G0 *m sol_x r'.2 = - g0 by apply/eqP; rewrite -subr_eq0 opprK h2'.
have -> : dot (sol_x r'.2 - sol_x r.2) (- (G0^T *m r.1) + - (G0^T *m r'.1)) = 0.
  by rewrite -opprD -mulmxDr dotNr dot_tr trmxK mulmxBr e e' subrr dot0l oppr0.
by rewrite add0r.
Qed.

(** ** convex problems are solvable *)
Lemma dot_pos n (x : 'cV[R]_n) : 0 <= dot x x.
Proof. by rewrite dot_sum sumr_ge0 // => i _; rewrite -expr2 sqr_ge0. Qed.
Lemma dot_eq0 n (x : 'cV[R]_n) : dot x x = 0 -> x = 0.
Proof.
rewrite dot_sum => /eqP; rewrite psumr_eq0 => [/allP h|i _]; last by rewrite -expr2 sqr_ge0.
apply/matrixP => i j; rewrite ord1 [RHS]mxE.
have := h i; rewrite mem_index_enum => /(_ isT).
by rewrite -expr2 sqrf_eq0 => /eqP.
Qed.
(** a matrix with no kernel is invertible *)
Lemma unit_kernel n (M : 'M[R]_n) : (forall x : 'cV[R]_n, M *m x = 0 -> x = 0) -> M \in unitmx.
Proof.
move=> H; rewrite -unitmx_tr -row_free_unit -kermx_eq0; apply/eqP/trmx_inj/matrixP => i j.
have K : M *m (row j (kermx M^T))^T = 0.
  by apply: trmx_inj; rewrite trmx_mul trmxK trmx0 -row_mul mulmx_ker row0.
by have := H _ K => /matrixP /(_ i 0); rewrite !mxE.
Qed.
Lemma kkt_unit nu nc (R' : 'M[R]_nu) (D : 'M[R]_(nc, nu)) : 0 < mu -> pd R' ->
  kkt_mat mu R' D \in unitmx.
Proof.
move=> m0 P; apply: unit_kernel => w E.
have : kkt_mat mu R' D *m w = col_mx 0 0 by rewrite E col_mx0.
case/kkt_rows; set u := usubmx w; set v := dsubmx w => h1 h2.
have z : qform R' u + mu * dot v v = 0.
  have a : dot u (R' *m u + D^T *m v) = 0 by rewrite h1 dot0r.
  have b : dot v (D *m u - mu *: v) = 0 by rewrite h2 dot0r.
  rewrite dotDr [dot u (D^T *m v)]dot_tr trmxK [dot (D *m u) v]dotC in a.
  rewrite dotDr dotNr dotZr in b.
  by rewrite /qform; move/eqP: b; rewrite subr_eq0 => /eqP <-.
have u0 : u = 0.
  apply/eqP; apply/negPn/negP => n0; have := P _ n0; rewrite ltNge => /negP; apply.
  by rewrite -z ler_addl mulr_ge0 ?dot_pos // ltW.
rewrite u0 /qform mulmx0 dot0r add0r in z.
have v0 : v = 0 by apply: dot_eq0; move/eqP: z; rewrite mulf_eq0 gt_eqF //= => /eqP.
by rewrite -[w]vsubmxK -/u -/v u0 v0 col_mx0.
Qed.
Lemma qform_block n m (Q : 'M[R]_n) (S : 'M[R]_(n, m)) (P : 'M[R]_m) x u :
  qform (block_mx Q S S^T P) (col_mx x u) = dot x (Q *m x + S *m u) + dot u (S^T *m x + P *m u).
Proof. by rewrite /qform mul_block_col dot_col. Qed.

(** the cost-to-go of a convex stage is positive semidefinite *)
Lemma psd_local n nu nc (Q : 'M[R]_n) (S : 'M[R]_(n, nu)) (P : 'M[R]_nu) (C : 'M[R]_(nc, n)) D
  (fb : 'M[R]_(nu + nc, n)) : 0 < mu -> psd (block_mx Q S S^T P) ->
  kkt_mat mu P D *m fb = col_mx (- S^T) (- C) ->
  psd (Q + S *m usubmx fb + C^T *m dsubmx fb).
Proof.
move=> m0 H E x.
have : kkt_mat mu P D *m (fb *m x) = col_mx (- (S^T *m x)) (- (C *m x)).
  by rewrite mulmxA E mul_col_mx !mulNmx.
case/kkt_rows; rewrite -mul_usub_mx -mul_dsub_mx; set u := usubmx fb *m x; set v := dsubmx fb *m x => h1 h2.
have -> : qform (Q + S *m usubmx fb + C^T *m dsubmx fb) x =
  qform (block_mx Q S S^T P) (col_mx x u) + mu * dot v v; last first.
  by rewrite addr_ge0 // mulr_ge0 ?dot_pos // ltW.
rewrite qform_block /qform !mulmxDl -!mulmxA -/u -/v.
have -> : S^T *m x + P *m u = - (D^T *m v).
  have -> : P *m u = - (S^T *m x) - D^T *m v by rewrite -h1 addrK.
  by mx_open R; ring.
rewrite !dotDr dotNr [dot x (C^T *m v)]dot_tr [dot u (D^T *m v)]dot_tr !trmxK.
have -> : mu * dot v v = dot (C *m x) v + dot (D *m u) v.
  rewrite -dotZl.
  have -> : mu *: v = C *m x + D *m u by have -> : D *m u = - (C *m x) + mu *: v; [rewrite -h2 subrK|rewrite addNKr].
  by rewrite dotDl.
by do ?move: (dot _ _) => ?; fold_ops R; ring.
Qed.
Lemma psd_hat n nu m (Q : 'M[R]_n) (S : 'M[R]_(n, nu)) (P : 'M[R]_nu) (A : 'M[R]_(m, n)) (B : 'M[R]_(m, nu)) V :
  V^T = V -> psd V -> psd (block_mx Q S S^T P) ->
  psd (block_mx (Q + A^T *m V *m A) (S + A^T *m V *m B) (S + A^T *m V *m B)^T (P + B^T *m V *m B)).
Proof.
move=> SV PV H w; rewrite -[w]vsubmxK; set x := usubmx w; set u := dsubmx w.
have -> : qform (block_mx (Q + A^T *m V *m A) (S + A^T *m V *m B) (S + A^T *m V *m B)^T (P + B^T *m V *m B)) (col_mx x u)
  = qform (block_mx Q S S^T P) (col_mx x u) + qform V (A *m x + B *m u); last by rewrite addr_ge0.
rewrite !qform_block /qform linearD /= !trmx_mul trmxK SV !mulmxDl !mulmxDr !dotDl !dotDr -!mulmxA.
rewrite ![dot _ (A^T *m _)]dot_tr ![dot _ (B^T *m _)]dot_tr !trmxK.
by do ?move: (dot _ _) => ?; fold_ops R; ring.
Qed.
Lemma pd_hat nu m (P : 'M[R]_nu) (B : 'M[R]_(m, nu)) V : psd V -> pd P -> pd (P + B^T *m V *m B).
Proof.
move=> PV H x n0; rewrite /qform mulmxDl dotDr -!mulmxA [dot x (B^T *m _)]dot_tr trmxK.
by rewrite ltr_paddr ?H //; exact: PV.
Qed.
Lemma pd_psd_block n nu (Q : 'M[R]_n) (S : 'M[R]_(n, nu)) P : psd (block_mx Q S S^T P) -> psd Q.
Proof.
move=> H x; have := H (col_mx x 0); rewrite qform_block !mulmx0 !addr0 dot0l addr0; exact.
Qed.
Lemma convex_symmetric n (c : knots R p n) : convex c -> symmetric c.
Proof. by elim: c => [n' nu nc m k [? ? ? ?]|n' nu nc m k c IH /= [[? ? ? ?] /IH]] /=. Qed.

Theorem convex_backward n (c : knots R p n) : 0 < mu -> convex c -> no_gv c ->
  terminal_unit mu c /\
  exists ds, [/\ backwardImpl mu c = Some ds, (Vxx (head_vm ds))^T = Vxx (head_vm ds) & psd (Vxx (head_vm ds))].
Proof.
move=> m0; elim: c => [n' nu nc m k|n' nu nc m k c IH].
  move=> [SQ SR PS PD] G; split; first exact: (@kkt_unit _ _ (Rm k) (Dm k)).
  have U := @kkt_unit _ _ (Rm k) (Dm k) m0 PD.
  exists (terminalSolve mu k); split=> //=.
    by have [] := @good_term R p mu _ _ _ _ k (conj SQ SR) G U.
  have [_ E _] := terminal_ok SR U.
  by rewrite addrAC; apply: (psd_local m0 PS E).
move=> [[SQ SR PS PD] Cc] [G Gc].
have [U [ds [E SV PV]]] := IH Cc Gc; split=> //.
have U2 := @kkt_unit _ _ (Rm k + (Bm k)^T *m Vxx (head_vm ds) *m Bm k) (Dm k) m0 (pd_hat (Bm k) PV PD).
have SRh : (Rm k + (Bm k)^T *m Vxx (head_vm ds) *m Bm k)^T = Rm k + (Bm k)^T *m Vxx (head_vm ds) *m Bm k.
  by rewrite linearD /= SR !trmx_mul trmxK SV mulmxA.
rewrite [backwardImpl _ _]/= E.
case E2 : (stageKernelSolve mu k (head_vm ds)) => [[d vn]|]; last first.
  by move: E2; rewrite /stageKernelSolve sym_vm_id // lower_sym ?kkt_mat_sym // U2.
exists (d, set_head_vm ds vn); split=> //.
  have Gd : good mu ds by apply: backward_good E => //; exact: convex_symmetric.
  by have [] := good_stage (conj (conj SQ SR) (convex_symmetric Cc)) (conj G Gc) Gd E2.
move: E2; rewrite /stageKernelSolve sym_vm_id // lower_sym ?kkt_mat_sym // U2 /= => [[<- _]] /=.
apply: (psd_local m0 (psd_hat (Am k) (Bm k) SV PV PS)).
apply: solveP; first by rewrite kkt_mat_sym. exact: U2.
Qed.
(** the initial stage when G0 is a bijection, e.g. x0 - xbar = 0 *)
Lemma kkt0_unit n (V : ctg R p n) (G0 : 'M[R]_n) : G0 \in unitmx -> kkt0_mat V G0 \in unitmx.
Proof.
move=> U; apply: unit_kernel => w; rewrite -{1}[w]vsubmxK /kkt0_mat mul_block_col mul0mx addr0 => E.
have : col_mx (Vxx V *m usubmx w + G0^T *m dsubmx w) (G0 *m usubmx w) = col_mx 0 0 by rewrite E col_mx0.
move=> /eq_col_mx [h1 h2].
have u0 : usubmx w = 0 by rewrite -[LHS](mulKmx U) h2 mulmx0.
rewrite u0 mulmx0 add0r in h1.
have d0 : dsubmx w = 0 by rewrite -unitmx_tr in U; rewrite -[LHS](mulKmx U) h1 mulmx0.
by rewrite -[w]vsubmxK u0 d0 col_mx0.
Qed.
(** the initial stage of a convex problem: V positive definite, G0 onto *)
Lemma kkt0_unit_pd n nc0 (V : ctg R p n) (G0 : 'M[R]_(nc0, n)) :
  pd (Vxx V) -> (forall l, G0^T *m l = 0 -> l = 0 :> 'cV_nc0) -> kkt0_mat V G0 \in unitmx.
Proof.
move=> P O; apply: unit_kernel => w; rewrite -{1}[w]vsubmxK /kkt0_mat mul_block_col mul0mx addr0 => E.
have : col_mx (Vxx V *m usubmx w + G0^T *m dsubmx w) (G0 *m usubmx w) = col_mx 0 0 by rewrite E col_mx0.
move=> /eq_col_mx [h1 h2].
have u0 : usubmx w = 0.
  apply/eqP; apply/negPn/negP => n0; have := P _ n0.
  have : dot (usubmx w) (Vxx V *m usubmx w + G0^T *m dsubmx w) = 0 by rewrite h1 dot0r.
  by rewrite dotDr [dot _ (G0^T *m _)]dot_tr trmxK h2 dot0l addr0 /qform => ->; rewrite ltxx.
rewrite u0 mulmx0 add0r in h1.
by rewrite -[w]vsubmxK u0 (O _ h1) col_mx0.
Qed.

(** ** a solution of the KKT system of a convex problem is a minimiser *)
Lemma knot_ge t n nu nc m (k : knot R p n nu nc m) x u v x' u' : 0 < mu -> convex_knot k ->
  Cm k *m x + Dm k *m u + dv k + Gv k *m t = mu *: v ->
  knot_cost mu t k x u
  + dot (x' - x) (Qm k *m x + Sm k *m u + qv k + (Cm k)^T *m v + Gx k *m t)
  + dot (u' - u) ((Sm k)^T *m x + Rm k *m u + rv k + (Dm k)^T *m v + Gu k *m t)
  <= knot_cost mu t k x' u'.
Proof.
move=> m0 [SQ SR PS PD] hv.
pose dx := x' - x; pose du := u' - u; pose w := Cm k *m dx + Dm k *m du.
have n0 : mu != 0 by rewrite gt_eqF.
have Ex : x' = x + dx by rewrite /dx addrC subrK.
have Eu : u' = u + du by rewrite /du addrC subrK.
rewrite -subr_ge0.
have e' : Cm k *m x' + Dm k *m u' + dv k + Gv k *m t = mu *: v + w.
  by rewrite Ex Eu /w -hv !mulmxDr; mx_open R; ring.
suff -> : knot_cost mu t k x' u' - (knot_cost mu t k x u
  + dot (x' - x) (Qm k *m x + Sm k *m u + qv k + (Cm k)^T *m v + Gx k *m t)
  + dot (u' - u) ((Sm k)^T *m x + Rm k *m u + rv k + (Dm k)^T *m v + Gu k *m t)) =
  half * qform (block_mx (Qm k) (Sm k) (Sm k)^T (Rm k)) (col_mx dx du) + half * mu^-1 * dot w w.
  have h0 : 0 <= half by rewrite invr_ge0 addr_ge0 // ler01.
  by rewrite addr_ge0 // mulr_ge0 ?dot_pos // mulr_ge0 // invr_ge0 ltW.
rewrite -/dx -/du /knot_cost e' hv qform_block /qform.
rewrite Ex Eu.
have cl (n1 n2 : nat) (A : 'M[R]_(n1, n2)) a b : dot b (A^T *m a) = dot a (A *m b).
  by rewrite dot_tr trmxK dotC.
have sw (n1 : nat) (A : 'M[R]_n1) a b : A^T = A -> dot b (A *m a) = dot a (A *m b).
  by move=> E; rewrite -{1}E cl.
have hw : dot v w = dot v (Cm k *m dx) + dot v (Dm k *m du) by rewrite /w dotDr.
clearbody dx du w; rewrite !mulmxDr !(dotDl, dotDr, dotNl, dotNr, dotZl, dotZr) !cl [dot w v]dotC hw.
rewrite [dot dx (Qm k *m x)]sw // [dot du (Rm k *m u)]sw //.
rewrite ![dot dx (qv k)]dotC ![dot du (rv k)]dotC.
by do ?move: (dot _ _) => ?; fold_ops R; field; split; apply/eqP => //; exact: two_neq0.
Qed.
Lemma objective_ge t n (c : knots R p n) : 0 < mu -> convex c -> forall lam (s : sol c), kkt mu t lam s ->
  forall x' (us' : controls c), objective mu t (sol_x s) (sol_us s) + dot (x' - sol_x s) lam <= objective mu t x' us'.
Proof.
move=> m0; elim: c => [n' nu nc m k|n' nu nc m k c IH] /=.
  move=> cv lam [[x u] v] [hx hu hv] x' u' /=.
  have := knot_ge x' u' m0 cv hv.
  by rewrite hx hu dot0r addr0.
move=> [cv cc] lam [[[[x u] v] l] s] [hx hu hv hd hs] x' [u' us'] /=.
have h1 := knot_ge x' u' m0 cv hv.
have h2 := IH cc _ _ hs (Am k *m x' + Bm k *m u' + fv k) us'.
rewrite -hd; apply: le_trans (ler_add h1 h2).
have -> : Qm k *m x + Sm k *m u + qv k + (Cm k)^T *m v + Gx k *m t = lam - (Am k)^T *m l.
  by rewrite -hx; mx_open R; ring.
have -> : (Sm k)^T *m x + Rm k *m u + rv k + (Dm k)^T *m v + Gu k *m t = - ((Bm k)^T *m l).
  by rewrite -[RHS]add0r -hu; mx_open R; ring.
rewrite {3}hd.
have cl (n1 n2 : nat) (A : 'M[R]_(n1, n2)) a b : dot b (A^T *m a) = dot a (A *m b).
  by rewrite dot_tr trmxK dotC.
rewrite le_eqVlt; apply/orP; left; apply/eqP.
rewrite !(dotDl, dotDr, dotNl, dotNr) !cl ![dot (_ *m _) l]dotC.
move: (knot_cost _ _ _ _ _) (objective _ _ _ _) => a b.
by do ?move: (dot _ _) => ?; fold_ops R; ring.
Qed.
Theorem minimiser t n nc0 (c : knots R p n) (G0 : 'M[R]_(nc0, n)) g0 (r : 'cV[R]_nc0 * sol c) : 0 < mu -> convex c ->
  kkt_system mu t G0 g0 r ->
  forall x (us : controls c), G0 *m x + g0 = 0 ->
    objective mu t (sol_x r.2) (sol_us r.2) <= objective mu t x us.
Proof.
move=> m0 cc [hk h0] x us hx.
have := objective_ge m0 cc hk x us.
rewrite dotNr [dot _ (G0^T *m _)]dot_tr trmxK mulmxBr.
have -> : G0 *m x - G0 *m sol_x r.2 = 0.
  have -> : G0 *m x = - g0 by apply/eqP; rewrite -subr_eq0 opprK hx.
  have -> : G0 *m sol_x r.2 = - g0 by apply/eqP; rewrite -subr_eq0 opprK h0.
  by rewrite subrr.
by rewrite dot0l oppr0 addr0.
Qed.
End Proofs.
