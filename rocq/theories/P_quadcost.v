(** C38 (and the costs of C42): derivatives of the quadratic costs. *)
From mathcomp Require Import all_ssreflect all_algebra.
From Verif Require Import MxRing FunModel P_fun QuadCostModel.
Set Implicit Arguments.
Unset Strict Implicit.
Import GRing.Theory.
Local Open Scope ring_scope.

Section Cost.
Variable F : fieldType.
Hypothesis two0 : (2%:R : F) != 0.
Add Ring Fring : (ops_ring F).
Notation h := (half F).

Lemma halves : h + h = 1.
Proof. by rewrite /half -[X in X + X]mulr1 -mulrDr; exact: mulVf. Qed.
Lemma with_half (A B T : F) : A = B + (h + h - 1) * T -> A = B.
Proof. by rewrite halves subrr mul0r addr0. Qed.

(** ** Specification *)

(** data that any sequence of calls can leave *)
Inductive creach n m (c : cost F n m) : cst c -> Prop :=
| creach_new : creach (cnew c)
| creach_eval s x u : creach s -> creach (ceval x u s)
| creach_grad s x u : creach s -> creach (cgrads x u s)
| creach_hess s x u s' : creach s -> chesss x u s = Some s' -> creach s'.

(** [g] and [H] are the gradient and the Hessian of the quadratic function [f] at
    (x,u): f moves by g.d + 1/2 d.Hd along every move d, and H is symmetric *)
Definition quad_at n m (f : 'cV[F]_n -> 'cV[F]_m -> F) x u (g : 'cV[F]_(n + m)) (H : 'M[F]_(n + m)) :=
  (forall dx du, let d := col_mx dx du in
     f (x + dx) (u + du) = f x u + dot g d + h * dot d (H *m d)) /\ H^T = H.

(** whatever was called before, evaluate leaves the value [f x u], and evaluate,
    computeGradients, computeHessians leave the value and its derivatives *)
Definition exact n m (c : cost F n m) (f : 'cV[F]_n -> 'cV[F]_m -> F) :=
  forall s, creach s -> forall x u,
  let s1 := ceval (c := c) x u s in
  let s2 := cgrads x u s1 in
  if chesss x u s2 is Some s3 then
    [/\ cval (cout s1) = f x u, cval (cout s3) = f x u, cgrad (cout s2) = cgrad (cout s3)
      & quad_at f x u (cgrad (cout s3)) (chess (cout s3))]
  else False.

(** ** Constant and quadratic costs *)

Lemma const_zero n m (c : F) s : creach (c := const_cost n m c) s -> cgrad s = 0 /\ chess s = 0.
Proof. by elim=> //= {}s x u s' _ [E1 E2] [<-]. Qed.

Theorem C38_constant n m (c : F) : exact (const_cost n m c) (fun x u => c).
Proof.
move=> s R x u; have [E1 E2] := const_zero R.
split=> //; split; last by rewrite [chess _]E2; exact: trmx0.
by move=> dx du d; rewrite [cgrad _]E1 [chess _]E2 dot0l mul0mx dot0r mulr0 !addr0.
Qed.

Section Quad.
Variables (n m : nat) (W : 'M[F]_n) (R : 'M[F]_m) (N : option 'M[F]_(n, m))
          (p : 'cV[F]_n) (q : 'cV[F]_m).
Hypothesis (WT : W^T = W) (RT : R^T = R).

(** the cost function of QuadraticCost *)
Definition quad_fun (x : 'cV[F]_n) (u : 'cV[F]_m) : F :=
  h * dot x (W *m x) + dot x (odflt 0 N *m u) + h * dot u (R *m u) + dot p x + dot q u.

Lemma quad_value x u (d : qdata F n m) : cval (qbase (quad_eval W R N p q x u d)) = quad_fun x u.
Proof.
rewrite /quad_fun /=; case: N => [M|] /=; rewrite ?mul0mx !dotDr !dotZr ?dot0r.
- rewrite (dotC x p) (dotC u q) (dot_tr M^T) trmxK (dotC (M *m u) x).
  apply: (with_half (T := dot x (M *m u) + dot p x + dot q u)).
  by do ?move: (dot _ _) => ?; fold_ops F; ring.
- rewrite (dotC x p) (dotC u q).
  apply: (with_half (T := dot p x + dot q u)).
  by do ?move: (dot _ _) => ?; fold_ops F; ring.
Qed.

Lemma dot_sym k (A : 'M[F]_k) x y : A^T = A -> dot x (A *m y) = dot y (A *m x).
Proof. by move=> E; rewrite dot_tr E dotC. Qed.

Lemma quad_expand x u :
  quad_at quad_fun x u
    (col_mx (W *m x + odflt 0 N *m u + p) (R *m u + (odflt 0 N)^T *m x + q))
    (block_mx W (odflt 0 N) (odflt 0 N)^T R).
Proof.
split; last by rewrite tr_block_mx trmxK WT RT.
move=> dx du d; rewrite /d dot_col mul_block_col dot_col /quad_fun.
move: (odflt 0 N) => M.
rewrite !mulmxDr !(dotDl, dotDr).
rewrite (dot_tr M^T) trmxK (dotC (M *m du)).
rewrite (dotC (M^T *m x)) (dot_tr M^T) trmxK (dotC (M *m du) x).
rewrite (dot_sym x dx WT) (dot_sym u du RT) (dotC (W *m x)) (dotC (R *m u)) (dotC (M *m u)).
apply: (with_half (T := dot dx (W *m x) + dot du (R *m u) - dot dx (M *m du))).
by do ?move: (dot _ _) => ?; fold_ops F; ring.
Qed.

Lemma quad_hess (s : qdata F n m) : creach (c := quad_cost W R N p q) s ->
  chess (qbase s) = block_mx W (odflt 0 N) (odflt 0 N)^T R.
Proof. by elim=> //= {}s x u s' _ E [<-]. Qed.

(** C38: QuadraticCost, for symmetric weights. *)
Theorem C38_quadratic : exact (quad_cost W R N p q) quad_fun.
Proof.
move=> s Hs x u; rewrite /exact /=.
have E : chess (qbase s) = block_mx W (odflt 0 N) (odflt 0 N)^T R := quad_hess Hs.
split; [exact: quad_value|exact: quad_value|by []|].
rewrite E; have := quad_expand x u; case: N => [M|] //=.
by rewrite !mul0mx trmx0 mul0mx !addr0.
Qed.
End Quad.

(** ** Residual costs *)
Section Res.
Variables (n m r : nat) (f : sfun F n m r) (W : 'M[F]_r).

Lemma creach_res gn s : creach (c := res_cost f W gn) s -> reach (rres s).
Proof.
elim=> [|{}s x u _ H|{}s x u _ H|{}s x u s' _ H] /=.
- exact: reach_new.
- exact: reach_eval.
- exact: reach_jac.
- rewrite /res_hess; case: (gn) => [[<-] //|].
  by case E: (fvhps _ _ _ _) => [rd|] // [<-] /=; apply: (reach_vhp H E).
Qed.

(** C38: for every residual the value is 1/2 r.Wr, the gradient J'Wr and the
    Hessian the Gauss-Newton matrix J'WJ. *)
Theorem C38_residual_any fv J s x u : computes f fv J -> creach (c := res_cost f W true) s ->
  let s1 := ceval (c := res_cost f W true) x u s in
  if chesss (c := res_cost f W true) x u (cgrads (c := res_cost f W true) x u s1) is Some s3 then
    [/\ cval (cout (c := res_cost f W true) s1) = h * dot (fv x u) (W *m fv x u),
        cval (cout (c := res_cost f W true) s3) = h * dot (fv x u) (W *m fv x u),
        cgrad (cout (c := res_cost f W true) s3) = (J x u)^T *m W *m fv x u
      & chess (cout (c := res_cost f W true) s3) = (J x u)^T *m W *m J x u]
  else False.
Proof.
move=> Hf Hs /=; have [E1 E2 E3] := Hf _ (creach_res Hs) x u.
by split; rewrite ?E1 ?E2 ?E3 ?mulmxA.
Qed.

(** C38: affine residual, symmetric weights: exact. *)
Theorem C38_residual (A : 'M[F]_(r, n)) (B : 'M[F]_(r, m)) c :
  W^T = W ->
  computes f (fun x u => c + A *m x + B *m u) (fun x u => row_mx A B) ->
  exact (res_cost f W true)
    (fun x u => let v := c + A *m x + B *m u in h * dot v (W *m v)).
Proof.
move=> WT Hf s Hs x u; have := C38_residual_any x u Hf Hs.
rewrite /=; case=> E1 E2 E3 E4.
split; [exact: E1|exact: E2|by []|split].
- move=> dx du d; rewrite E3 E4.
  set v := c + A *m x + B *m u; set J := row_mx A B.
  have -> : c + A *m (x + dx) + B *m (u + du) = v + J *m d.
    rewrite /J /d mul_row_col !mulmxDr /v; by mx_open F; ring.
  move: v (J) d => v K d.
  rewrite -!mulmxA -(dot_tr K (W *m v) d) (dot_tr K^T d) trmxK mulmxDr !(dotDl, dotDr).
  rewrite (dotC (W *m v)) (dot_sym v (K *m d) WT).
  apply: (with_half (T := dot (K *m d) (W *m v))).
  by do ?move: (dot _ _) => ?; fold_ops F; ring.
- by rewrite E4 !trmx_mul trmxK WT mulmxA.
Qed.
End Res.

(** ** Direct sums *)
Section Sum.
Variables (n1 m1 n2 m2 : nat) (c1 : cost F n1 m1) (c2 : cost F n2 m2).

Definition blocks0 (H : 'M[F]_((n1 + n2) + (m1 + m2))) :=
  [/\ ursubmx (ulsubmx H) = 0, dlsubmx (ulsubmx H) = 0,
      ursubmx (drsubmx H) = 0, dlsubmx (drsubmx H) = 0
    & ursubmx (ursubmx H) = 0 /\ dlsubmx (ursubmx H) = 0].

Lemma sum_hess_parts (d : sdata c1 c2) x u :
  if sum_hess x u d is Some d' then
    [/\ chesss (usubmx x) (usubmx u) (s1 d) = Some (s1 d'),
        chesss (dsubmx x) (dsubmx u) (s2 d) = Some (s2 d'),
        cval (sbase d') = cval (sbase d), cgrad (sbase d') = cgrad (sbase d)
      & blocks0 (chess (sbase d)) -> blocks0 (chess (sbase d')) /\
        chess (sbase d') =
        block_mx (block_mx (ulsubmx (chess (cout (s1 d')))) 0 0 (ulsubmx (chess (cout (s2 d')))))
                 (block_mx (ursubmx (chess (cout (s1 d')))) 0 0 (ursubmx (chess (cout (s2 d')))))
                 (block_mx (ursubmx (chess (cout (s1 d')))) 0 0 (ursubmx (chess (cout (s2 d')))))^T
                 (block_mx (drsubmx (chess (cout (s1 d')))) 0 0 (drsubmx (chess (cout (s2 d')))))]
  else True.
Proof.
rewrite /sum_hess; case E1: (chesss _ _ (s1 d)) => [d1|] //.
case E2: (chesss _ _ (s2 d)) => [d2|] //=; split=> //.
case=> -> -> -> -> [-> ->]; split=> //.
by rewrite /blocks0 block_mxKul block_mxKur block_mxKdr !block_mxKur !block_mxKdl.
Qed.

Lemma creach_sum s : creach (c := sum_cost c1 c2) s ->
  [/\ creach (s1 s), creach (s2 s) & blocks0 (chess (sbase s))].
Proof.
elim=> [|{}s x u _ [R1 R2 B]|{}s x u _ [R1 R2 B]|{}s x u s' _ [R1 R2 B] E].
- split; [exact: creach_new|exact: creach_new|].
  by rewrite /blocks0 /=; do !split; apply/matrixP => i j; rewrite !mxE.
- by split=> //=; apply: creach_eval.
- by split=> //=; apply: creach_grad.
- have := sum_hess_parts s x u; rewrite [sum_hess x u s]E => -[H1 H2 _ _ H3].
  split; [exact: creach_hess R1 H1|exact: creach_hess R2 H2|by case: (H3 B)].
Qed.

(** C38: the direct sum of exact costs is exact for the sum of the functions of the
    two parts. *)
Theorem C38_sum f1 f2 : exact c1 f1 -> exact c2 f2 ->
  exact (sum_cost c1 c2) (fun x u => f1 (usubmx x) (usubmx u) + f2 (dsubmx x) (dsubmx u)).
Proof.
move=> X1 X2 s Hs x u; have [R1 R2 B] := creach_sum Hs.
have P1 := X1 _ R1 (usubmx x) (usubmx u); have P2 := X2 _ R2 (dsubmx x) (dsubmx u).
have HP := sum_hess_parts (sum_grads x u (sum_eval x u s)) x u.
move: P1 P2; cbv zeta.
case E1: (chesss _ _ (cgrads _ _ (ceval _ _ (s1 s)))) => [d1|] //.
case E2: (chesss _ _ (cgrads _ _ (ceval _ _ (s2 s)))) => [d2|] //.
move: HP; rewrite /= /sum_hess /= E1 E2 /=.
case=> _ _ _ _ /(_ B) [_ EH].
case=> V1 V1' G1 [Q1 S1]; case=> V2 V2' G2 [Q2 S2].
split; [by rewrite V1 V2|by rewrite V1 V2|by []|].
rewrite G1 G2; move: (cgrad (cout d1)) (cgrad (cout d2)) Q1 Q2 {G1 G2} => g1 g2 Q1 Q2.
rewrite EH; move: (chess (cout d1)) (chess (cout d2)) S1 S2 Q1 Q2 => H1 H2 S1 S2 Q1 Q2.
split; last first.
  have F1 : (ulsubmx H1)^T = ulsubmx H1 by rewrite trmx_ulsub S1.
  have F2 : (ulsubmx H2)^T = ulsubmx H2 by rewrite trmx_ulsub S2.
  have G1 : (drsubmx H1)^T = drsubmx H1 by rewrite trmx_drsub S1.
  have G2 : (drsubmx H2)^T = drsubmx H2 by rewrite trmx_drsub S2.
  by rewrite tr_block_mx !trmxK !(tr_block_mx (ulsubmx H1)) !(tr_block_mx (drsubmx H1)) F1 F2 G1 G2 !trmx0.
move=> dx du; rewrite -(vsubmxK dx) -(vsubmxK du).
move: (usubmx dx) (dsubmx dx) (usubmx du) (dsubmx du) => a b a' b' d.
have T1 : (ursubmx H1)^T = dlsubmx H1 by rewrite trmx_ursub S1.
have T2 : (ursubmx H2)^T = dlsubmx H2 by rewrite trmx_ursub S2.
rewrite !linearD /= !col_mxKu !col_mxKd (Q1 a a') (Q2 b b') {}/d.
rewrite -{1}(vsubmxK g1) -{1}(vsubmxK g2) -{1}(submxK H1) -{1}(submxK H2).
rewrite !tr_block_mx !trmx0 T1 T2 !(mul_block_col, dot_col, add_col_mx).
rewrite !mul0mx !addr0 !add0r !dotDr.
do ?move: (dot _ _) => ?; move: (f1 _ _) (f2 _ _) => ? ?; by fold_ops F; ring.
Qed.
End Sum.

(** ** Finite-difference gradients *)
Definition cevaluates n m (c : cost F n m) (f : 'cV[F]_n -> 'cV[F]_m -> F) :=
  forall s, creach s -> forall x u, cval (cout (ceval (c := c) x u s)) = f x u.

Section Fd.
Variables (n m : nat) (c : cost F n m) (eps : F) (f : 'cV[F]_n -> 'cV[F]_m -> F).
Hypothesis Hc : cevaluates c f.

Definition cfd_ok (s : cfd_data c) := creach (k_c1 s) /\ creach (k_c2 s).

Lemma cfd_loop_x x u l (s : cfd_data c) :
  cfd_ok s -> k_dx s = 0 ->
  let s' := foldl (cfd_turn_x eps x u) s l in
  [/\ cfd_ok s', k_c1 s' = k_c1 s, cval (k_base s') = cval (k_base s)
    & cval (cout (k_c1 s)) = f x u ->
      (forall i, cgrad (k_base s') (lshift m i) 0
         = if i \in l then (f (x + eps *: delta_mx i 0) u - f x u) / eps
           else cgrad (k_base s) (lshift m i) 0) /\
      (forall i, cgrad (k_base s') (rshift n i) 0 = cgrad (k_base s) (rshift n i) 0)].
Proof.
elim: l s => [|j l IH] s Hs Ex //=.
have [R1 R2] := Hs.
have Hs1 : cfd_ok (cfd_turn_x eps x u s j) by split=> //=; apply: creach_eval.
have Ex1 : k_dx (cfd_turn_x eps x u s j) = 0 by rewrite /= Ex set_entry_back.
have [H1 H2 H3 H4] := IH _ Hs1 Ex1.
split=> // V; have [H5 H6] := H4 V; split=> i.
- rewrite H5 in_cons; case: (i \in l); first by rewrite orbT.
  rewrite orbF /= col_mxEu !mxE; case: (i =P j) => [->|_] //.
  by rewrite Ex set_entry_delta (Hc R2) V.
- by rewrite H6 /= col_mxEd mxE.
Qed.

Lemma cfd_loop_u x u l (s : cfd_data c) :
  cfd_ok s -> k_du s = 0 ->
  let s' := foldl (cfd_turn_u eps x u) s l in
  [/\ cfd_ok s', cval (k_base s') = cval (k_base s)
    & cval (cout (k_c1 s)) = f x u ->
      (forall i, cgrad (k_base s') (rshift n i) 0
         = if i \in l then (f x (u + eps *: delta_mx i 0) - f x u) / eps
           else cgrad (k_base s) (rshift n i) 0) /\
      (forall i, cgrad (k_base s') (lshift m i) 0 = cgrad (k_base s) (lshift m i) 0)].
Proof.
elim: l s => [|j l IH] s Hs Ex //=.
have [R1 R2] := Hs.
have Hs1 : cfd_ok (cfd_turn_u eps x u s j) by split=> //=; apply: creach_eval.
have Ex1 : k_du (cfd_turn_u eps x u s j) = 0 by rewrite /= Ex set_entry_back.
have [H1 H3 H4] := IH _ Hs1 Ex1.
split=> // V; have [H5 H6] := H4 V; split=> i.
- rewrite H5 in_cons; case: (i \in l); first by rewrite orbT.
  rewrite orbF /= col_mxEd !mxE; case: (i =P j) => [->|_] //.
  by rewrite Ex set_entry_delta (Hc R2) V.
- by rewrite H6 /= col_mxEu mxE.
Qed.

Lemma cfd_grads_ok x u (s : cfd_data c) : cfd_ok s ->
  let s' := cfd_grads eps x u s in
  [/\ cfd_ok s', cval (k_base s') = cval (k_base s)
    & cgrad (k_base s') = col_mx (\col_i ((f (x + eps *: delta_mx i 0) u - f x u) / eps))
                                 (\col_i ((f x (u + eps *: delta_mx i 0) - f x u) / eps))].
Proof.
case=> R1 R2 s'.
set s0 := CfdData (k_base s) (ceval x u (k_c1 s)) (k_c2 s) 0 (k_du s).
have H0 : cfd_ok s0 by split=> //=; apply: creach_eval.
have [A1 A2 A3 A4] := cfd_loop_x x u (enum 'I_n) H0 erefl.
set sx := foldl _ s0 _ in A1 A2 A3 A4.
set sx0 := CfdData (k_base sx) (k_c1 sx) (k_c2 sx) (k_dx sx) 0.
have Hx : cfd_ok sx0 by case: A1.
have [B1 B2 B3] := cfd_loop_u x u (enum 'I_m) Hx erefl.
have V : cval (cout (k_c1 s0)) = f x u by exact: Hc.
have Vx : cval (cout (k_c1 sx0)) = f x u by rewrite /= A2.
have [C1 C2] := A4 V; have [D1 D2] := B3 Vx.
split; [exact: B1|by rewrite B2 A3|].
apply/matrixP => i j; rewrite (ord1 j) -(splitK i); case: (split i) => k /=.
- by rewrite col_mxEu mxE D2 C1 mem_enum.
- by rewrite col_mxEd mxE D1 mem_enum.
Qed.

Lemma cfd_reach s : creach (c := cost_fd c eps) s -> cfd_ok s.
Proof.
elim=> [|{}s x u _ [R1 R2]|{}s x u _ H|{}s x u s' _ H [<-]] //.
- by split; apply: creach_new.
- by split=> //=; apply: creach_eval.
- by case: (cfd_grads_ok x u H).
Qed.

(** C42: the finite-difference helper of a cost keeps the value and returns the
    forward difference quotients as gradient, whatever was called before. *)
Theorem C42_cost s x u : creach (c := cost_fd c eps) s ->
  let s1 := ceval (c := cost_fd c eps) x u s in
  let s2 := cgrads (c := cost_fd c eps) x u s1 in
  [/\ cval (cout s1) = f x u, cval (cout s2) = f x u
    & cgrad (cout s2) = col_mx (\col_i ((f (x + eps *: delta_mx i 0) u - f x u) / eps))
                               (\col_i ((f x (u + eps *: delta_mx i 0) - f x u) / eps))].
Proof.
move=> R s1 s2; have [R1 R2] := cfd_reach R.
have V : cval (cout s1) = f x u by exact: Hc.
have [|_ E2 E3] := @cfd_grads_ok x u s1; first by split=> //=; apply: creach_eval.
by split=> //; rewrite -V; exact: E2.
Qed.
End Fd.

Lemma dot_delta n (p : 'cV[F]_n) i : dot p (delta_mx i 0) = p i 0.
Proof. by rewrite /dot -colE !mxE. Qed.

(** C42: exact on affine costs, for every step but zero. *)
Theorem C42_cost_affine n m (c : cost F n m) (eps k : F) p q s x u :
  eps != 0 -> cevaluates c (fun x u => k + dot p x + dot q u) ->
  creach (c := cost_fd c eps) s ->
  cgrad (cout (cgrads (c := cost_fd c eps) x u (ceval (c := cost_fd c eps) x u s))) = col_mx p q.
Proof.
move=> He Hc R; have [_ _ ->] := C42_cost Hc x u R.
congr col_mx; apply/matrixP => i j; rewrite (ord1 j) mxE dotDr dotZr dot_delta.
- rewrite (_ : _ - _ = eps * p i 0); first by rewrite mulrAC divff // mul1r.
  by do ?move: (dot _ _) => ?; fold_ops F; norm_entries F; ring.
- rewrite (_ : _ - _ = eps * q i 0); first by rewrite mulrAC divff // mul1r.
  by do ?move: (dot _ _) => ?; fold_ops F; norm_entries F; ring.
Qed.
End Cost.

(** ** Witnesses and refutations *)
Notation QF := rat_fieldType.
Add Ring QFring : (ops_ring QF).

(** A quadratic cost with cross term, plus a residual cost, as a direct sum. *)
Definition ex_W : 'M[QF]_2 := \matrix_(i, j) (i + j)%:R.
Definition ex_N : 'M[QF]_(2, 1) := \matrix_(i, j) (i + 1)%:R.
Definition ex_c1 := quad_cost ex_W (const_mx 3%:R) (Some ex_N) (const_mx 1) (const_mx (-1)).
Definition ex_c2 := res_cost (linear_fun (const_mx 2%:R : 'M[QF]_1) (const_mx 1 : 'M[QF]_1) (const_mx 1)) (const_mx 5%:R) true.
Lemma ex_WT : ex_W^T = ex_W.
Proof. by apply/matrixP => i j; rewrite !mxE addnC. Qed.
Lemma const1T (a : QF) : (const_mx a : 'M_1)^T = const_mx a.
Proof. by rewrite trmx_const. Qed.

Definition ex_v (x : 'cV[QF]_1) (u : 'cV[QF]_1) : 'cV[QF]_1 :=
  const_mx 1 + (const_mx 2%:R : 'M_1) *m x + (const_mx 1 : 'M_1) *m u.
Example C38_example : exact (sum_cost ex_c1 ex_c2)
  (fun x u => quad_fun ex_W (const_mx 3%:R) (Some ex_N) (const_mx 1) (const_mx (-1)) (usubmx x) (usubmx u)
     + half QF * dot (ex_v (dsubmx x) (dsubmx u)) (const_mx 5%:R *m ex_v (dsubmx x) (dsubmx u))).
Proof.
have t0 : (2%:R : QF) != 0 by [].
apply: (C38_sum (f1 := quad_fun ex_W (const_mx 3%:R) (Some ex_N) (const_mx 1) (const_mx (-1)))
  (f2 := fun x u => half QF * dot (ex_v x u) (const_mx 5%:R *m ex_v x u))).
- by apply: (C38_quadratic t0); [exact: ex_WT|exact: const1T].
- apply: (C38_residual t0); first exact: const1T.
  exact: C41_linear.
Qed.

(** the derivatives that a call sequence evaluate, computeGradients,
    computeHessians on [s] reports at (x,u) predict the value at (x+dx, u+du) *)
Definition predicts n m (c : cost QF n m) (s : cst c) x u dx du :=
  if chesss (c := c) x u (cgrads x u (ceval x u s)) is Some s3 then
    cval (cout (ceval (c := c) (x + dx) (u + du) s))
    = cval (cout s3) + dot (cgrad (cout s3)) (col_mx dx du)
      + half QF * dot (col_mx dx du) (chess (cout s3) *m col_mx dx du)
  else False.

(** exact costs predict *)
Lemma exact_predicts n m (c : cost QF n m) f (s : cst c) x u dx du :
  exact c f -> creach s -> predicts s x u dx du.
Proof.
move=> X R; have := X s R x u; have := X s R (x + dx) (u + du); rewrite /predicts /=.
case: (chesss (x + dx) _ _) => [s4|] //; case=> V _ _ _.
case: (chesss x _ _) => [s3|] //; case=> V' V3 _ [E _].
by rewrite V E V3.
Qed.

(** C38: symmetry is needed, and is not checked: the gradient of x1 x2 / 2 written
    with the weights [0 1; 0 0] is (x2, 0). *)
Theorem C38_symmetry_refuted :
  exists (W : 'M[QF]_(1 + 1)) x dx,
    ~ predicts (cnew (quad_cost W (0 : 'M[QF]_1) None 0 0)) x 0 dx 0.
Proof.
exists (block_mx 0 1%:M 0 0), (col_mx 0 1), (col_mx 1 0).
rewrite /predicts /= !mul_block_col !(mul0mx, mulmx0, mul1mx, addr0, add0r, add_col_mx, scaler0, trmx0).
rewrite !(dot_col, dot0l, dot0r, addr0, add0r, mulr0).
by rewrite mul_block_col !(mul0mx, mul1mx, add0r, addr0) dot_col dot0r addr0 !dot1 !mxE.
Qed.

(** C38: without Gauss-Newton the Hessian loses the term J'WJ: for the residual
    x - 0 with weight 1 it is 0. *)
Theorem C38_gauss_newton_refuted :
  exists dx, ~ predicts (cnew (res_cost (state_error 1 (0 : 'cV[QF]_1)) 1%:M false)) 0 0 dx 0.
Proof.
exists 1; rewrite /predicts /= !(subr0, mulmx0, mul0mx, dot0r, dot0l, mulr0, addr0, add0r, mul1mx).
by rewrite dot1 !mxE.
Qed.

(** C38: data made before setCrossWeight keep the old Hessian: with weights zero
    and the cross weight set to 1 afterwards. *)
Theorem C38_cross_stale_refuted :
  exists dx du, ~ predicts (c := quad_cost (0 : 'M[QF]_1) (0 : 'M[QF]_1) (Some 1%:M) 0 0)
    (quad_new 0 0 None) 0 0 dx du.
Proof.
exists 1, 1; rewrite /predicts /= trmx0 !block_mx_const.
rewrite !(trmx1, mul0mx, mulmx0, mul1mx, scaler0, addr0, add0r, dot0r, dot0l, mulr0) col_mx0 dot0l.
by rewrite !dot1 !mxE.
Qed.

Print Assumptions C38_constant.
Print Assumptions C38_quadratic.
Print Assumptions C38_residual_any.
Print Assumptions C38_residual.
Print Assumptions C38_sum.
Print Assumptions C38_symmetry_refuted.
Print Assumptions C38_gauss_newton_refuted.
Print Assumptions C38_cross_stale_refuted.
Print Assumptions C42_cost.
Print Assumptions C42_cost_affine.
