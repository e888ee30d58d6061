(** C66: consequences for the criterion, for the outer passes and for the solution. *)
From Coq Require Import Ring.
From mathcomp Require Import all_ssreflect all_algebra.
From Verif Require Import MxRing RiccatiModel RiccatiProofs RiccatiValue P_riccati LagrModel P_lagr IterModel P_iter.
Set Implicit Arguments.
Unset Strict Implicit.
Import Order.Theory GRing.Theory Num.Theory.
Local Open Scope ring_scope.

Section Criterion.
Variable R : realFieldType.
Add Ring Rring4 : (ops_ring R).

Lemma maxM (t x y : R) : 0 <= t -> Num.max (t * x) (t * y) = t * Num.max x y.
Proof. by move=> t0; rewrite maxr_pmulr. Qed.
Lemma norm_scale (t : R) k (z : 'cV[R]_k) : norm (t *: z) = `|t| * norm z.
Proof.
rewrite /norm (big_morph ( *%R `|t|) (id1 := 0) (op1 := Num.max)) ?mulr0 //.
  by apply: eq_bigr => i _; rewrite mxE normrM.
by move=> x y; rewrite maxM.
Qed.
Lemma norm0 k : norm (0 : 'cV[R]_k) = 0.
Proof. by rewrite -(scale0r 0) norm_scale normr0 mul0r. Qed.

Lemma crit_shrunk (a rd : R) n (c : prob R n) (r d : iter c) :
  crit_loop (`|1 - a| * rd) (shrunk a 0 r d) = `|1 - a| * crit_loop rd r.
Proof.
elim: c r d rd => [{}n nc s|{}n nu nc m s c IH] /=.
  by move=> r d rd; rewrite mulr0 scale0r subr0 !norm_scale maxM.
move=> [[[[rx ru] rv] rg] r] [[[[dx du] dv] dl] d] rd /=.
by rewrite !mulr0 !scale0r !subr0 !norm_scale IH !maxM.
Qed.
Lemma dual_shrunk (a : R) n (c : prob R n) (r d : iter c) :
  dual_infeas (shrunk a 0 r d) = `|1 - a| * dual_infeas r.
Proof.
elim: c r d => [{}n nc s|{}n nu nc m s c IH] /=.
  by move=> r d; rewrite mulr0 scale0r subr0 !norm_scale.
move=> [[[[rx ru] rv] rg] r] [[[[dx du] dv] dl] d] /=.
by rewrite !mulr0 !scale0r !subr0 !norm_scale IH !maxM.
Qed.
Lemma shrunk1 n (c : prob R n) (r d : iter c) : shrunk 1 0 r d = zeros c.
Proof.
elim: c r d => [{}n nc s|{}n nu nc m s c IH] /=.
  by move=> r d; rewrite mulr0 scale0r subr0 subrr !scale0r.
move=> [[[[rx ru] rv] rg] r] [[[[dx du] dv] dl] d] /=.
by rewrite mulr0 !scale0r !subr0 subrr !scale0r IH.
Qed.
Lemma rows_eq_wf n (c : prob R n) : rows (@is_eq R) c -> rows (@row_wf R) c.
Proof.
have E (k : row R) : is_eq k -> row_wf k by case: k.
elim: c => [{}n nc s H i|{}n nu nc m s c IH /= [H /IH]]; first exact: E.
by split=> // i; exact: E.
Qed.
Lemma rows_eq_pieces mu n (c : prob R n) : rows (@is_eq R) c -> forall (i j : iter c) w, same_pieces mu i j w.
Proof.
have E (k : row R) z y : is_eq k -> bound k z = bound k y by case: k.
elim: c => [{}n nc s H i j w k|{}n nu nc m s c IH /= [H Hc]]; first exact: E.
by move=> [[[[x u] v] l] i] [[[[x' u'] v'] l'] j] w; split=> [k|]; [exact: E|exact: IH].
Qed.

Section Iteration.
Variables (n : nat) (c : prob R n) (G0 : 'M[R]_n) (e0 : 'cV[R]_n) (mu : R) (exact : bool).

(** with preg = 0 the step size alone decides by how much the criteria decrease *)
Theorem C66_criterion_partial : forall (force : bool) (a : R) (w : vecs c) (s s' : state n c),
  mu != 0 -> sym_costs c -> rows (@row_wf R) c -> G0 \in unitmx ->
  (force -> G0 *m first_x s.2 + e0 = 0) ->
  iterate G0 e0 mu 0 exact force a w s = Some s' -> same_pieces mu s.2 s'.2 w ->
  inner_criterion (init_gap G0 e0 s') (all_residuals G0 mu force w s')
    = `|1 - a| * inner_criterion (init_gap G0 e0 s) (all_residuals G0 mu force w s) /\
  dual_infeas (all_residuals G0 mu force w s') = `|1 - a| * dual_infeas (all_residuals G0 mu force w s).
Proof.
move=> force a w s s' m0 Sc wf UG hf it B.
have [d [_ _ E1 E2]] := C66_residuals_partial m0 Sc wf UG hf it B.
by rewrite E2 /inner_criterion /init_gap E1 norm_scale crit_shrunk dual_shrunk.
Qed.

(** with equality constraints one full step solves the subproblem of the outer pass
    from any iterate *)
Theorem C66_one_step : forall (force : bool) (w : vecs c) (s s' : state n c),
  mu != 0 -> sym_costs c -> rows (@is_eq R) c -> G0 \in unitmx ->
  (force -> G0 *m first_x s.2 + e0 = 0) ->
  iterate G0 e0 mu 0 exact force 1 w s = Some s' ->
  [/\ G0 *m first_x s'.2 + e0 = 0, all_residuals G0 mu force w s' = zeros c &
      inner_criterion (init_gap G0 e0 s') (all_residuals G0 mu force w s') = 0].
Proof.
move=> force w s s' m0 Sc eqs UG hf it.
have wf := rows_eq_wf eqs; have B := rows_eq_pieces mu eqs s.2 s'.2 w.
have [d [_ _ E1 E2]] := C66_residuals_partial m0 Sc wf UG hf it B.
have [-> _] := C66_criterion_partial m0 Sc wf UG hf it B.
by rewrite E1 E2 shrunk1 subrr scale0r normr0 mul0r.
Qed.
End Iteration.
End Criterion.

(** ** Outer passes *)
Section Outer.
Variable R : realFieldType.
Add Ring Rring5 : (ops_ring R).

(** what zero residuals mean for a row *)
Lemma row_prox mu (k : row R) (z v : R) : 0 < mu -> row_wf k -> ncp k z - mu * v = 0 ->
  in_set k (z - mu * v) /\ normal k (z - mu * v) v.
Proof.
move=> m0 wf /eqP; rewrite subr_eq0 => /eqP E.
suff [H1 H2] : in_set k (z - ncp k z) /\ normal k (z - ncp k z) (ncp k z).
  rewrite -E; split=> // y /H2; rewrite {1}E -mulrA pmulr_rle0 //.
rewrite ncp_bound //; clear E; case: k wf => [_|_|lo up wf] /=.
- by rewrite subr0 subrr; split=> // y /= ->; rewrite subrr mulr0.
- case: (ltrP 0 z) => h; rewrite subr0; last by split=> // y _; rewrite mul0r.
  by rewrite subrr; split=> // y /= y0; rewrite subr0 pmulr_rle0.
case: (ltrP up z) => h1.
  rewrite subKr wf lexx; split=> // y /= /andP [_ y1].
  by rewrite pmulr_rle0 ?subr_gt0 // subr_le0.
case: (ltrP z lo) => h2.
  rewrite subKr wf lexx; split=> // y /= /andP [y1 _].
  by rewrite nmulr_rle0 ?subr_lt0 // subr_ge0.
by rewrite subr0 h1 h2; split=> // y _; rewrite mul0r.
Qed.
Lemma rows_mono mu nc (k : 'I_nc -> row R) (z zs v vs w : 'cV[R]_nc) : 0 < mu -> (forall i, row_wf (k i)) ->
  Lv_of mu k (shifted mu z w) v = 0 ->
  (forall i, in_set (k i) (zs i 0) /\ normal (k i) (zs i 0) (vs i 0)) ->
  0 <= dot (v - vs) (z - zs) + mu * dot (v - vs) (w - v).
Proof.
move=> m0 wf L K; rewrite !dot_sum mulr_sumr -big_split /= sumr_ge0 // => i _.
move/colP: L => /(_ i); rewrite !mxE => /(row_prox m0 (wf i)) [S1 N1].
have [S2 N2] := K i.
rewrite -oppr_le0.
have <- : v i 0 * (zs i 0 - (z i 0 + mu * w i 0 - mu * v i 0)) + vs i 0 * (z i 0 + mu * w i 0 - mu * v i 0 - zs i 0)
  = - ((v i 0 - vs i 0) * (z i 0 - zs i 0) + mu * ((v i 0 - vs i 0) * (w i 0 - v i 0))) by fold_ops R; ring.
by rewrite -[X in _ <= X](addr0 0) ler_add ?N1 ?N2.
Qed.

(** the state satisfies the first-order conditions of the augmented Lagrangian *)
Fixpoint aug_point mu n (c : prob R n) : 'cV[R]_n -> iter c -> vecs c -> Prop :=
  match c in prob _ n return 'cV[R]_n -> iter c -> vecs c -> Prop with
  | @PTerm _ n nc s => fun inc i w =>
      inc + eQ s *m i.1 + eq_ s + (eC s)^T *m i.2 = 0 /\ Lv_of mu (ek s) (shifted mu (tval s i.1) w) i.2 = 0
  | @PCons _ n nu nc m s c' => fun inc i w =>
      let: (x, u, v, l, i') := i in
      [/\ inc + pQ s *m x + pS s *m u + pq s + (pA s)^T *m l + (pC s)^T *m v = 0,
          (pS s)^T *m x + pR s *m u + pr s + (pB s)^T *m l + (pD s)^T *m v = 0,
          first_x i' = pA s *m x + pB s *m u + pf s,
          Lv_of mu (pk s) (shifted mu (cval s x u) w.1) v = 0 & aug_point mu (- l) i' w.2]
  end.
Lemma zero_point mu n (c : prob R n) (i : iter c) w inc :
  residuals mu w (gr false i inc) = zeros c -> aug_point mu inc i w.
Proof.
elim: c i w inc => [{}n nc s|{}n nu nc m s c IH] /=.
  by move=> [x v] w inc [] /= E1 E2; rewrite addrA in E1.
move=> [[[[x u] v] l] i] w inc [] /= E1 E2 E3 E4 E5; split=> //.
- by rewrite -E1; mx_open R; ring.
- by move/eqP: E4; rewrite subr_eq0 => /eqP.
- exact: IH.
Qed.
(** if the gradient in the first state is zeroed it is so for another multiplier *)
Lemma zero_point_forced mu n (c : prob R n) (i : iter c) w inc :
  residuals mu w (gr true i inc) = zeros c -> exists inc', aug_point mu inc' i w.
Proof.
case: c i w inc => [{}n nc s|{}n nu nc m s c] /=.
  move=> [x v] w inc [] /= E2; exists (- (eQ s *m x + eq_ s + (eC s)^T *m v)); split=> //.
  by rewrite -!addrA addNr.
move=> [[[[x u] v] l] i] w inc [] /= E2 E3 E4 E5.
exists (- (pQ s *m x + pS s *m u + pq s + (pA s)^T *m l + (pC s)^T *m v)); split=> //.
- by rewrite -!addrA addNr.
- by move/eqP: E4; rewrite subr_eq0 => /eqP.
- exact: zero_point.
Qed.

Lemma dotA m n (A : 'M[R]_(m, n)) x y : dot x (A *m y) = dot y (A^T *m x).
Proof. by rewrite dot_tr dotC. Qed.
Lemma sq_dist nc (v vs w : 'cV[R]_nc) :
  dot (w - vs) (w - vs) = dot (v - vs) (v - vs) + dot (v - w) (v - w) + (1 + 1) * dot (v - vs) (w - v).
Proof.
rewrite !dotDl !dotNl !dotDr !dotNr (dotC vs w) (dotC vs v) (dotC w v).
by do ?move: (dot _ _) => ?; fold_ops R; ring.
Qed.

Lemma outer_mono mu n (c : prob R n) : 0 < mu -> convex_costs c -> rows (@row_wf R) c ->
  forall (i j : iter c) w inc inc', aug_point mu inc i w -> kkt_point inc' j ->
  mu * (vdist2 (vs_of i) (vs_of j) + vdist2 (vs_of i) w) + (1 + 1) * dot (first_x i - first_x j) (inc - inc')
  <= mu * vdist2 w (vs_of j).
Proof.
move=> m0; elim: c => [{}n nc s|{}n nu nc m s c IH] /=.
  move=> [_ P] wf [x v] [xs vs] w inc inc' /= [E L] [Es Ks].
  have M := rows_mono m0 wf L Ks.
  have H : dot (x - xs) (inc - inc') + qform (eQ s) (x - xs) + dot (v - vs) (eC s *m (x - xs)) = 0.
    rewrite /qform [dot (v - vs) _]dotA -!dotDr.
    rewrite -[RHS](dot0r (x - xs)); congr dot.
    by rewrite -[RHS](subrr 0) -{1}E -Es !mulmxBr; mx_open R; ring.
  have Ec : tval s x - (eC s *m xs + ed s) = eC s *m (x - xs) by rewrite /tval mulmxBr; mx_open R; ring.
  rewrite Ec in M; rewrite (sq_dist v vs w) [X in _ <= X]mulrDr ler_add2l mulrCA ler_pmul2l ?addr_gt0 ?ltr01 //.
  rewrite -subr_ge0; apply: le_trans M _; move: (P (x - xs)) => Q.
  rewrite -subr_ge0.
  have -> : mu * dot (v - vs) (w - v) - dot (x - xs) (inc - inc')
    - (dot (v - vs) (eC s *m (x - xs)) + mu * dot (v - vs) (w - v)) = qform (eQ s) (x - xs) -
    (dot (x - xs) (inc - inc') + qform (eQ s) (x - xs) + dot (v - vs) (eC s *m (x - xs))).
    by move: (dot _ _) (dot (v - vs) (_ *m _)) (dot _ _) (qform _ _) => a b d e; fold_ops R; ring.
  by rewrite H subr0.
move=> [[SQ SR P PR] Sc] [wf wfc] [[[[x u] v] l] i] [[[[xs us] vs] ls] j] w inc inc' /=.
move=> [E1 E2 E3 L E4] [F1 F2 F3 Ks F4].
have M := rows_mono m0 wf L Ks.
have {}IH := IH Sc wfc i j w.2 (- l) (- ls) E4 F4.
set dx := x - xs; set du := u - us; set dv := v - vs; set dl := l - ls.
have H : dot dx (inc - inc') + qform (block_mx (pQ s) (pS s) (pS s)^T (pR s)) (col_mx dx du)
  + dot (first_x i - first_x j) dl + dot dv (pC s *m dx + pD s *m du) = 0.
  have -> : first_x i - first_x j = pA s *m dx + pB s *m du.
    by rewrite E3 F3 /dx /du !mulmxBr; mx_open R; ring.
  rewrite qform_block [dot _ dl]dotC ![dot dl _]dotDr ![dot dv _]dotDr ![dot dl _]dotA ![dot dv _]dotA.
  have X1 : dot dx (inc - inc' + (pQ s *m dx + pS s *m du) + (pA s)^T *m dl + (pC s)^T *m dv) = 0.
    rewrite -[RHS](dot0r dx); congr dot.
    by rewrite -[RHS](subrr 0) -{1}E1 -F1 /dx /du /dl /dv !mulmxBr; mx_open R; ring.
  have X2 : dot du ((pS s)^T *m dx + pR s *m du + (pB s)^T *m dl + (pD s)^T *m dv) = 0.
    rewrite -[RHS](dot0r du); congr dot.
    by rewrite -[RHS](subrr 0) -{1}E2 -F2 /dx /du /dl /dv !mulmxBr; mx_open R; ring.
  rewrite -[RHS](addr0 0) -{1}X1 -X2 !dotDr.
  by do ?move: (dot _ _) => ?; fold_ops R; ring.
have Ec : cval s x u - (pC s *m xs + pD s *m us + ph s) = pC s *m dx + pD s *m du.
  by rewrite /cval /dx /du !mulmxBr; mx_open R; ring.
rewrite Ec in M; rewrite (sq_dist v vs w.1) -/dv.
have El : - l - - ls = - dl by rewrite /dl opprB opprK addrC.
move: IH M H (P (col_mx dx du)); rewrite El dotNr.
move: (vdist2 (vs_of i) _) (vdist2 (vs_of i) _) (vdist2 w.2 _) => B A C.
move: (dot _ dl) (dot dx _) (qform _ _) (dot dv dv) (dot (v - w.1) _) (dot dv (w.1 - v)) (dot dv _).
move=> e h q d1 d2 g f IH M H Q; rewrite -subr_ge0.
have -> : mu * (d1 + d2 + (1 + 1) * g + C) - (mu * (d1 + A + (d2 + B)) + (1 + 1) * h)
  = (mu * C - (mu * (A + B) + (1 + 1) * - e)) + (1 + 1) * ((f + mu * g) + q - (h + q + e + f)).
  by fold_ops R; ring.
rewrite H subr0; apply: addr_ge0; first by rewrite subr_ge0.
by apply: mulr_ge0; [rewrite addr_ge0 ?ler01|exact: addr_ge0].
Qed.

(** largest component and sum of squares *)
Lemma norm_sq k (z : 'cV[R]_k) : 0 <= norm z /\ norm z * norm z <= dot z z.
Proof.
rewrite /norm; apply: (big_ind (fun x => 0 <= x /\ x * x <= dot z z)).
- by rewrite mul0r dot_pos.
- by move=> x y hx hy; case: (leP x y).
move=> i _; split=> //; rewrite -normrM -expr2 ger0_norm ?sqr_ge0 //.
rewrite dot_sum (bigD1 i) //= -expr2 ler_addl sumr_ge0 // => j _.
by rewrite -expr2 sqr_ge0.
Qed.
Lemma infeas_sq mu nc (k : 'I_nc -> row R) (z v w : 'cV[R]_nc) : 0 < mu -> Lv_of mu k (shifted mu z w) v = 0 ->
  infeas_of mu k (shifted mu z w) w = mu *: (v - w).
Proof.
move=> m0 /colP L; rewrite /infeas_of; congr (_ *: (_ - _)); apply/colP => i.
move: (L i); rewrite !mxE => /eqP; rewrite subr_eq0 => /eqP ->.
by rewrite mulKf // lt0r_neq0.
Qed.
Lemma dot_subC k (v w : 'cV[R]_k) : dot (v - w) (v - w) = dot (w - v) (w - v).
Proof. by rewrite -opprB dotNl dotNr opprK. Qed.
Lemma vdist2_ge0 n (c : prob R n) (v w : vecs c) : 0 <= vdist2 v w.
Proof. by elim: c v w => [{}n nc s|{}n nu nc m s c IH] v w /=; rewrite ?addr_ge0 ?dot_pos. Qed.
Lemma prim_sq mu n (c : prob R n) (i : iter c) w inc : 0 < mu -> aug_point mu inc i w ->
  0 <= prim_loop mu i w /\ prim_loop mu i w * prim_loop mu i w <= mu * mu * vdist2 (vs_of i) w.
Proof.
move=> m0; elim: c i w inc => [{}n nc s|{}n nu nc m s c IH] /=.
  move=> [x v] w inc /= [_ L]; rewrite (infeas_sq m0 L); have [h1 h2] := norm_sq (mu *: (v - w)).
  by split=> //; apply: le_trans h2 _; rewrite dotZl dotZr mulrA.
move=> [[[[x u] v] l] i] w inc [_ _ G L K].
have [h1 h2] := IH _ _ _ K; rewrite (infeas_sq m0 L); have [h3 h4] := norm_sq (mu *: (v - w.1)).
have m2 : 0 <= mu * mu by rewrite mulr_ge0 ?ltW.
rewrite /gap G subrr norm0 (max_l h3).
case: (leP (norm (mu *: (v - w.1))) (prim_loop mu i w.2)) => _; split=> //; rewrite mulrDr.
  by apply: le_trans h2 _; rewrite ler_addr mulr_ge0 ?dot_pos.
apply: le_trans h4 _; rewrite dotZl dotZr mulrA ler_addl mulr_ge0 //; exact: vdist2_ge0.
Qed.
(** first-order conditions are sufficient *)
Lemma quad_ge k (H : 'M[R]_k) (x y : 'cV[R]_k) : H^T = H -> psd H ->
  dot (y - x) (H *m x) <= (1 + 1)^-1 * qform H y - (1 + 1)^-1 * qform H x.
Proof.
move=> S P; rewrite qform_diff // -subr_ge0.
have -> : (1 + 1)^-1 * dot (y - x) (H *m x + H *m y) - dot (y - x) (H *m x) = (1 + 1)^-1 * qform H (y - x).
  rewrite /qform mulmxBr !dotDr dotNr.
  move: (half2 R) (dot _ _) (dot _ _); set h := _^-1 => E b a.
  have -> : h * (a + b) - a = h * (a + b) - (h + h) * a by rewrite E mul1r.
  by fold_ops R; ring.
by rewrite mulr_ge0 ?invr_ge0 ?addr_ge0 ?ler01.
Qed.
Lemma rows_dot nc (k : 'I_nc -> row R) (z y v : 'cV[R]_nc) :
  (forall i, in_set (k i) (z i 0) /\ normal (k i) (z i 0) (v i 0)) -> (forall i, in_set (k i) (y i 0)) ->
  dot v (y - z) <= 0.
Proof.
move=> K S; rewrite dot_sum -oppr_ge0 -sumrN sumr_ge0 // => i _; rewrite !mxE oppr_ge0.
by have [_] := K i; apply.
Qed.
Lemma kkt_optimal n (c : prob R n) : convex_costs c -> forall (i j : iter c) inc, kkt_point inc i -> feasible j ->
  cost i <= cost j + dot (first_x j - first_x i) inc.
Proof.
elim: c => [{}n nc s|{}n nu nc m s c IH] /=.
  move=> [S P] [x v] [y t] inc /= [E K] F.
  have H := rows_dot K F; have Q := quad_ge x y S P.
  have Ed : eC s *m y + ed s - (eC s *m x + ed s) = eC s *m (y - x) by rewrite mulmxBr; mx_open R; ring.
  rewrite Ed dotA in H.
  have X : dot (y - x) (inc + eQ s *m x + eq_ s + (eC s)^T *m v) = 0 by rewrite E dot0r.
  move: H Q X; rewrite !dotDr [dot (eq_ s) x]dotC [dot (eq_ s) y]dotC [dot (y - x) (eq_ s)]dotDl dotNl => H Q X.
  rewrite -subr_ge0; move: H Q X.
  move: (dot (y - x) inc) (dot (y - x) _) (dot (y - x) _) (dot y _) (dot x _) (_ * qform _ y) (_ * qform _ x).
  move=> a b d e f g h H Q X.
  have -> : g + e + a - (h + f) = (g - h - b) - d + (a + b + (e - f) + d) by fold_ops R; ring.
  by rewrite X addr0 addr_ge0 ?oppr_ge0 // subr_ge0.
move=> [[SQ SR P PR] Sc] [[[[x u] v] l] i] [[[[y t] v'] l'] j] inc /=.
move=> [E1 E2 E3 K E4] [F1 F2 F3].
have {}IH := IH Sc i j (- l) E4 F3.
have H := rows_dot K F2.
have SB : (block_mx (pQ s) (pS s) (pS s)^T (pR s))^T = block_mx (pQ s) (pS s) (pS s)^T (pR s).
  by rewrite tr_block_mx trmxK SQ SR.
have Q := quad_ge (col_mx x u) (col_mx y t) SB P.
have Ed : pC s *m y + pD s *m t + ph s - (pC s *m x + pD s *m u + ph s) = pC s *m (y - x) + pD s *m (t - u).
  by rewrite !mulmxBr; mx_open R; ring.
rewrite Ed dotDr ![dot v _]dotA in H.
have X1 : dot (y - x) (inc + pQ s *m x + pS s *m u + pq s + (pA s)^T *m l + (pC s)^T *m v) = 0 by rewrite E1 dot0r.
have X2 : dot (t - u) ((pS s)^T *m x + pR s *m u + pr s + (pB s)^T *m l + (pD s)^T *m v) = 0 by rewrite E2 dot0r.
have G : dot (first_x j - first_x i) (- l) = - (dot (y - x) ((pA s)^T *m l) + dot (t - u) ((pB s)^T *m l)).
  rewrite dotNr -!dotA -dotDr dotC; congr (- dot _ _).
  by rewrite F1 E3 !mulmxBr; mx_open R; ring.
move: Q; rewrite mul_block_col opp_col_mx add_col_mx dot_col => Q.
have Y1 : dot (pq s) y = dot (pq s) x + dot (y - x) (pq s) by rewrite dotDl dotNl !(dotC (pq s)) addrC subrK.
have Y2 : dot (pr s) t = dot (pr s) u + dot (t - u) (pr s) by rewrite dotDl dotNl !(dotC (pr s)) addrC subrK.
rewrite G in IH; rewrite Y1 Y2.
move: H Q X1 X2 IH; rewrite !dotDr.
move: (dot (y - x) (_ *m v)) (dot (t - u) (_ *m v)) (dot (y - x) (_ *m l)) (dot (t - u) (_ *m l)) => a1 a2 a3 a4.
move: (dot (y - x) (pq s)) (dot (t - u) (pr s)) (dot (y - x) (pQ s *m x)) (dot (y - x) (pS s *m u)) => b1 b2 b3 b4.
move: (dot (t - u) (_ *m x)) (dot (t - u) (_ *m u)) (dot (y - x) inc) (dot (pq s) x) (dot (pr s) u) => d1 d2 d3 d4 d5.
move: (_ * qform _ _) (_ * qform _ _) (cost i) (cost j) => f2 f1 ci cj H Q X1 X2 IH.
rewrite -subr_ge0.
have -> : f1 + (d4 + b1) + (d5 + b2) + cj + d3 - (f2 + d4 + d5 + ci)
  = (f1 - f2 - (b3 + b4 + (d1 + d2))) + (cj - (a3 + a4) - ci) - (a1 + a2) + (d3 + b3 + b4 + b1 + a3 + a1)
    + (d1 + d2 + b2 + a4 + a2) by fold_ops R; ring.
by rewrite X1 X2 !addr0 addr_ge0 ?oppr_ge0 // addr_ge0 ?subr_ge0.
Qed.
Lemma aug_kkt mu n (c : prob R n) (i : iter c) inc : 0 < mu -> rows (@row_wf R) c ->
  aug_point mu inc i (vs_of i) -> kkt_point inc i.
Proof.
move=> m0; elim: c i inc => [{}n nc s|{}n nu nc m s c IH] /=.
  move=> [x v] inc wf /= [E /colP L]; split=> // k.
  move: (L k); rewrite !mxE => /(row_prox m0 (wf k)); rewrite addrK.
  by rewrite /tval ?mxE.
move=> [[[[x u] v] l] i] inc [wf wfc] [E1 E2 E3 /colP L E4]; split=> // [k|]; last exact: IH.
move: (L k); rewrite !mxE => /(row_prox m0 (wf k)); rewrite addrK.
by rewrite /cval ?mxE.
Qed.
Lemma kkt_feasible n (c : prob R n) (i : iter c) inc : kkt_point inc i -> feasible i.
Proof.
elim: c i inc => [{}n nc s|{}n nu nc m s c IH] /=; first by move=> i inc [_ K] k; have [] := K k.
move=> [[[[x u] v] l] i] inc [E1 E2 E3 K /IH E4]; split=> // k; by have [] := K k.
Qed.

Lemma norm_eq0 k (z : 'cV[R]_k) : norm z = 0 -> z = 0.
Proof.
move=> E; apply/colP => i; rewrite mxE; apply: normr0_eq0; apply/eqP; rewrite eq_le normr_ge0 andbT -E.
rewrite /norm; have := mem_index_enum i; elim: (index_enum _) => // j t IH.
by rewrite big_cons inE le_maxr => /orP [/eqP <-|/IH ->]; rewrite ?lexx ?orbT.
Qed.
Lemma max_eq0 (x y : R) : 0 <= x -> 0 <= y -> Num.max x y = 0 -> x = 0 /\ y = 0.
Proof.
move=> x0 y0 E; split; apply/eqP; rewrite eq_le ?x0 ?y0 andbT -E le_maxr lexx ?orbT //.
Qed.
Lemma prim_eq0 mu n (c : prob R n) (i : iter c) w inc : 0 < mu -> aug_point mu inc i w ->
  prim_loop mu i w = 0 -> vs_of i = w.
Proof.
move=> m0; elim: c i w inc => [{}n nc s|{}n nu nc m s c IH] /=.
  move=> [x v] w inc /= [_ L]; rewrite (infeas_sq m0 L) => /norm_eq0 /eqP.
  by rewrite scaler_eq0 (negbTE (lt0r_neq0 m0)) subr_eq0 => /eqP.
move=> [[[[x u] v] l] i] [w w'] inc [_ _ G L K] /=.
rewrite (infeas_sq m0 L) => /(max_eq0 _ (prim_sq m0 K).1) [|].
  by rewrite le_maxr (norm_sq _).1.
rewrite /gap G subrr norm0 max_l ?(norm_sq _).1 // => /norm_eq0 /eqP.
rewrite scaler_eq0 (negbTE (lt0r_neq0 m0)) subr_eq0 /= => /eqP -> /(IH _ _ _ K) /= -> //.
Qed.

Section Passes.
Variables (n : nat) (c : prob R n) (G0 : 'M[R]_n) (e0 : 'cV[R]_n).

Lemma zero_state force mu (w : vecs c) (s : state n c) : all_residuals G0 mu force w s = zeros c ->
  exists inc, aug_point mu inc s.2 w /\ (force \/ inc = G0^T *m s.1).
Proof.
case: force => /= E; first by have [inc K] := zero_point_forced E; exists inc; split; [|left].
by exists (G0^T *m s.1); split; [exact: zero_point E|right].
Qed.

(** an outer pass whose inner loop has converged brings the multipliers closer to those
    of every solution *)
Theorem C66_outer : forall (force : bool) (mu : R) (w : vecs c) (s : state n c) (ls : 'cV[R]_n) (star : iter c),
  0 < mu -> convex_costs c -> rows (@row_wf R) c -> G0 \in unitmx ->
  G0 *m first_x s.2 + e0 = 0 -> all_residuals G0 mu force w s = zeros c ->
  G0 *m first_x star + e0 = 0 -> kkt_point (G0^T *m ls) star ->
  vdist2 (vs_of s.2) (vs_of star) + vdist2 (vs_of s.2) w <= vdist2 w (vs_of star).
Proof.
move=> force mu w s ls star m0 Cc wf UG I0 Z I1 K.
have [inc [A _]] := zero_state Z.
have := outer_mono m0 Cc wf A K.
have -> : first_x s.2 - first_x star = 0.
  apply: (can_inj (mulKmx UG)); rewrite mulmxBr mulmx0.
  by apply/eqP; rewrite subr_eq0 -(inj_eq (addIr e0)) I0 I1.
by rewrite dot0l mulr0 addr0 ler_pmul2l.
Qed.

(** and the passes after which the multipliers are accepted while the primal
    infeasibility is at least eps are finitely many *)
Theorem C66_passes : forall (force : bool) (M eps : R) (N : nat) (mu : nat -> R) (w : nat -> vecs c)
    (s : nat -> state n c) (acc : nat -> bool) (ls : 'cV[R]_n) (star : iter c),
  convex_costs c -> rows (@row_wf R) c -> G0 \in unitmx -> 0 < eps ->
  G0 *m first_x star + e0 = 0 -> kkt_point (G0^T *m ls) star ->
  (forall k, (k < N)%N ->
    [/\ 0 < mu k <= M, G0 *m first_x (s k).2 + e0 = 0, all_residuals G0 (mu k) force (w k) (s k) = zeros c,
        w k.+1 = (if acc k then vs_of (s k).2 else w k) &
        acc k -> eps <= prim_infeas (mu k) (init_gap G0 e0 (s k)) (s k).2 (w k)]) ->
  (\sum_(k < N) acc k)%:R * eps ^+ 2 <= M ^+ 2 * vdist2 (w 0%N) (vs_of star).
Proof.
move=> force M eps N mu w s acc ls star Cc wf UG e1 I1 K H.
suff : (\sum_(k < N) acc k)%:R * eps ^+ 2 + M ^+ 2 * vdist2 (w N) (vs_of star)
       <= M ^+ 2 * vdist2 (w 0%N) (vs_of star).
  by apply: le_trans; rewrite ler_addl mulr_ge0 ?sqr_ge0 ?vdist2_ge0.
elim: N H => [|N IH] H; first by rewrite big_ord0 mul0r add0r.
apply: le_trans (IH _); last by move=> k kN; apply: H; rewrite ltnW.
have [/andP [m0 mM] I0 Z -> ha] := H N (leqnn _).
rewrite big_ord_recr /= natrD mulrDl -addrA ler_add2l.
case: (acc N) ha => ha; last by rewrite mul0r add0r.
have D := C66_outer m0 Cc wf UG I0 Z I1 K; rewrite mul1r.
apply: le_trans (_ : M ^+ 2 * (vdist2 (vs_of (s N).2) (vs_of star) + vdist2 (vs_of (s N).2) (w N)) <= _); last first.
  by rewrite ler_wpmul2l // sqr_ge0.
rewrite mulrDr [X in X <= _]addrC ler_add2l.
have [inc [A _]] := zero_state Z; have [h1 h2] := prim_sq m0 A.
have {}ha : eps <= prim_loop (mu N) (s N).2 (w N).
  by apply: le_trans (ha isT) _; rewrite /prim_infeas /init_gap I0 norm0 max_r.
apply: le_trans (_ : mu N * mu N * vdist2 (vs_of (s N).2) (w N) <= _).
  by apply: le_trans h2; rewrite expr2 ler_pmul // ltW.
by rewrite ler_wpmul2r ?vdist2_ge0 // expr2 ler_pmul // ltW.
Qed.

(** when both the inner residuals and the primal infeasibility vanish the trajectory is
    feasible and no feasible trajectory costs less *)
Theorem C66_solution : forall (force : bool) (mu : R) (w : vecs c) (s : state n c),
  0 < mu -> convex_costs c -> rows (@row_wf R) c -> G0 \in unitmx ->
  all_residuals G0 mu force w s = zeros c -> prim_infeas mu (init_gap G0 e0 s) s.2 w = 0 ->
  [/\ G0 *m first_x s.2 + e0 = 0, feasible s.2 &
      forall j : iter c, G0 *m first_x j + e0 = 0 -> feasible j -> cost s.2 <= cost j].
Proof.
move=> force mu w s m0 Cc wf UG Z.
have [inc [A _]] := zero_state Z; have [h1 h2] := prim_sq m0 A.
rewrite /prim_infeas => /(max_eq0 (norm_sq _).1 h1) [/norm_eq0 I0 /(prim_eq0 m0 A) Ew].
rewrite /init_gap in I0; rewrite -{}Ew in A; have K := aug_kkt m0 wf A; split=> //; first exact: kkt_feasible K.
move=> j Ij Fj; have := kkt_optimal Cc K Fj.
have -> : first_x j - first_x s.2 = 0.
  apply: (can_inj (mulKmx UG)); rewrite mulmxBr mulmx0.
  by apply/eqP; rewrite subr_eq0 -(inj_eq (addIr e0)) Ij I0.
by rewrite dot0l addr0.
Qed.
End Passes.
End Outer.
