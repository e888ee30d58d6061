(** C29: KKT error certificate. *)
From Coq Require Import Ring.
From mathcomp Require Import all_ssreflect all_algebra.
From Verif Require Import MxRing RiccatiModel RiccatiProofs KktModel.
Set Implicit Arguments.
Unset Strict Implicit.
Import Order.Theory GRing.Theory Num.Theory.
Local Open Scope ring_scope.

Section Ord.
Variable R : realFieldType.
Variable p : nat.
Variable mu : R.
Add Ring Rring : (ops_ring R).

(** Specification: every component of every residual of the KKT equations is
    at most [eps] in absolute value. *)
Definition small (eps : R) n (z : 'cV[R]_n) : Prop := forall i, `|z i 0| <= eps.
Fixpoint kkt_within (ed ec es : R) (th : 'cV[R]_p) n (c : knots R p n) : 'cV[R]_n -> sol c -> Prop :=
  match c in knots _ _ n return 'cV[R]_n -> sol c -> Prop with
  | @Term _ _ n nu nc m k => fun lam s =>
      let: (x, u, v) := s in
      [/\ small es (Qm k *m x + Sm k *m u + qv k + (Cm k)^T *m v + Gx k *m th - lam),
          small es ((Sm k)^T *m x + Rm k *m u + rv k + (Dm k)^T *m v + Gu k *m th) &
          small ec (Cm k *m x + Dm k *m u + dv k - mu *: v)]
  | @Cons _ _ n nu nc m k c' => fun lam s =>
      let: (x, u, v, l', s') := s in
      [/\ small es (Qm k *m x + Sm k *m u + qv k + (Am k)^T *m l' + (Cm k)^T *m v + Gx k *m th - lam),
          small es ((Sm k)^T *m x + Rm k *m u + rv k + (Bm k)^T *m l' + (Dm k)^T *m v + Gu k *m th),
          small ec (Cm k *m x + Dm k *m u + dv k - mu *: v),
          small ed (Am k *m x + Bm k *m u + fv k - sol_x s') &
          kkt_within ed ec es th l' s']
  end.

Lemma infty_norm_le n (z : 'cV[R]_n) eps : 0 <= eps -> (infty_norm z <= eps) <-> small eps z.
Proof.
move=> e0; rewrite /infty_norm; split.
  move=> h i; apply: le_trans h.
  have: i \in index_enum (ordinal_finType n) by rewrite mem_index_enum.
  elim: (index_enum _) => // a l IH; rewrite inE big_cons le_maxr => /orP[/eqP ->|/IH ->].
    by rewrite lexx.
  by rewrite orbT.
move=> h; elim/big_ind: _ => // a b ha hb.
by rewrite le_maxl ha hb.
Qed.
Lemma small0 n (z : 'cV[R]_n) : small 0 z <-> z = 0.
Proof.
split=> [h|-> i]; last by rewrite mxE normr0.
by apply/colP => i; rewrite mxE; apply/eqP; rewrite -normr_le0; exact: h.
Qed.

Lemma cst_open n nu nc m (k : knot R p n nu nc m) x u v :
  e_cst mu k x u v = Cm k *m x + Dm k *m u + dv k - mu *: v.
Proof.
rewrite /e_cst; case: ltnP => [_|h]; first by mx_open R; ring.
have -> : Dm k *m u = 0.
  by apply/matrixP => i j; rewrite !mxE big1 // => -[l hl]; move: (leq_trans hl h).
by rewrite addr0.
Qed.
Lemma thin0 a b (M : 'M[R]_(a, b)) (u : 'cV[R]_b) : (b <= 0)%N -> M *m u = 0.
Proof.
by move=> h; apply/matrixP => i j; rewrite !mxE big1 // => -[l hl]; move: (leq_trans hl h).
Qed.
Lemma gx_open n nu nc m (k : knot R p n nu nc m) x u v th g al :
  e_gx k x u v th g al = Qm k *m x + Sm k *m u + qv k + al + (Cm k)^T *m v + Gx k *m odflt 0 th + g.
Proof.
rewrite /e_gx; case: ltnP => [_|h]; case: th => [t|] /=; rewrite ?mulmx0 ?(thin0 (Sm k) u h); by mx_open R; ring.
Qed.
Lemma gu_open n nu nc m (k : knot R p n nu nc m) x u v th bl :
  e_gu k x u v th bl = (Sm k)^T *m x + Rm k *m u + rv k + bl + (Dm k)^T *m v + Gu k *m odflt 0 th.
Proof.
rewrite /e_gu; case: ltnP => [_|h]; case: th => [t|] /=; rewrite ?mulmx0 ?(thin0 (Rm k) u h); by mx_open R; ring.
Qed.

Lemma loop_le (ed ec es : R) th n (c : knots R p n) : 0 <= ed -> 0 <= ec -> 0 <= es ->
  forall g s e, let: (d1, c1, s1) := kkt_loop mu th g s e in
    [/\ d1 <= ed, c1 <= ec & s1 <= es] <->
    [/\ e.1.1 <= ed, e.1.2 <= ec, e.2 <= es & kkt_within ed ec es (odflt 0 th) (c := c) (- g) s].
Proof.
move=> d0 c0 s0; elim: c => [{}n nu nc m k|{}n nu nc m k c IH] g.
  case=> [[x u] v] [[a b] d] /=.
  rewrite !le_maxl cst_open gx_open gu_open !addr0 opprK.
  split.
    case=> h1 /andP[h2 /(infty_norm_le _ c0) h3] /andP[/andP[h4 /(infty_norm_le _ s0) h5] /(infty_norm_le _ s0) h6].
    by split.
  case=> h1 h2 h3 [/(infty_norm_le _ s0) h4 /(infty_norm_le _ s0) h5 /(infty_norm_le _ c0) h6].
  by split=> //; rewrite ?h2 ?h3 ?h4 ?h5 ?h6.
case=> [[[[x u] v] l'] s'] [[a b] d] /=.
set e' := (_, _, _); have := IH (- l') s' e'.
case: (kkt_loop mu th (- l') s' e') => [[d1 c1] s1] ->.
rewrite /e' /= !le_maxl cst_open gx_open gu_open opprK opprK.
split.
  case=> /andP[h1 /(infty_norm_le _ d0) h2] /andP[h3 /(infty_norm_le _ c0) h4].
  move=> /andP[/andP[h5 /(infty_norm_le _ s0) h6] /(infty_norm_le _ s0) h7] h8.
  by split.
case=> h1 h2 h3 [/(infty_norm_le _ s0) h4 /(infty_norm_le _ s0) h5 /(infty_norm_le _ c0) h6 /(infty_norm_le _ d0) h7 h8].
by split=> //; rewrite ?h1 ?h2 ?h3 ?h4 ?h5 ?h6.
Qed.

(** C29a: the three numbers are at most ed, ec, es exactly when every dynamics
    (and initial condition), path and stationarity residual is.  The path
    residual is without the parametric term Gv theta. *)
Theorem C29_error n nc0 (c : knots R p n) (G0 : 'M[R]_(nc0, n)) g0 r th ed ec es :
  0 <= ed -> 0 <= ec -> 0 <= es ->
  let: (d1, c1, s1) := lqrComputeKktError mu G0 g0 r th in
  [/\ d1 <= ed, c1 <= ec & s1 <= es] <->
  (kkt_within ed ec es (odflt 0 th) (- (G0^T *m r.1)) r.2 /\ small ed (G0 *m sol_x (c := c) r.2 + g0)).
Proof.
move=> d0 c0 s0; rewrite /lqrComputeKktError.
set e := (_, _, _); have := loop_le th d0 c0 s0 (G0^T *m r.1) r.2 e.
case: (kkt_loop _ _ _ _ _) => [[d1 c1] s1] ->.
rewrite /e /= le_maxl d0 /= [g0 + _]addrC.
split; first by case=> /(infty_norm_le _ d0).
by case=> h /(infty_norm_le _ d0).
Qed.

Lemma within0 th n (c : knots R p n) lam s : (th = 0 \/ no_gv c) ->
  kkt_within 0 0 0 th lam s <-> kkt mu th (c := c) lam s.
Proof.
move=> G; elim: c G lam s => [{}n nu nc m k|{}n nu nc m k c IH] G lam.
  case=> [[x u] v] /=.
  have E : Gv k *m th = 0 by case: G => [->|/= ->]; rewrite ?mulmx0 ?mul0mx.
  rewrite E addr0; split.
    by case=> /small0/eqP; rewrite subr_eq0 => /eqP h1 /small0 h2 /small0/eqP; rewrite subr_eq0 => /eqP h3.
  by case=> h1 h2 h3; split; apply/small0; rewrite ?h1 ?h2 ?h3 ?subrr.
case=> [[[[x u] v] l'] s'] /=.
have E : Gv k *m th = 0 by case: G => [->|/= [-> _]]; rewrite ?mulmx0 ?mul0mx.
have G' : th = 0 \/ no_gv c by case: G => [->|/= [_ h]]; [left|right].
rewrite E addr0; split.
  case=> /small0/eqP; rewrite subr_eq0 => /eqP h1 /small0 h2 /small0/eqP; rewrite subr_eq0 => /eqP h3.
  by move/small0/eqP; rewrite subr_eq0 => /eqP h4 /(IH G') h5.
case=> h1 h2 h3 h4 /(IH G') h5.
by split=> //; apply/small0; rewrite ?h1 ?h2 ?h3 ?h4 ?subrr.
Qed.
Lemma loop_ge th n (c : knots R p n) g s e : let: (d1, c1, s1) := kkt_loop (c := c) mu th g s e in
  [/\ e.1.1 <= d1, e.1.2 <= c1 & e.2 <= s1].
Proof.
elim: c g s e => [{}n nu nc m k|{}n nu nc m k c IH] g.
  by case=> [[x u] v] [[a b] d] /=; rewrite !le_maxr !lexx.
case=> [[[[x u] v] l'] s'] [[a b] d] /=.
set e' := (_, _, _); have := IH (- l') s' e'.
case: (kkt_loop mu th (- l') s' e') => [[d1 c1] s1] /=.
by rewrite !le_maxl => -[/andP[-> _] /andP[-> _] /andP[/andP[-> _] _]].
Qed.
(** C29b: the zero triple certifies the KKT equations, and nothing else does;
    when theta is given the path constraints may not depend on it. *)
Theorem C29_zero n nc0 (c : knots R p n) (G0 : 'M[R]_(nc0, n)) g0 r th : (th = None \/ no_gv c) ->
  lqrComputeKktError mu G0 g0 r th = (0, 0, 0) <-> kkt_system mu (odflt 0 th) (c := c) G0 g0 r.
Proof.
move=> G; have G' : odflt 0 th = 0 \/ no_gv c by case: G => [->|]; [left|right].
have := C29_error (c := c) G0 g0 r th (lexx 0) (lexx 0) (lexx 0).
move=> H0; have := loop_ge th (G0^T *m r.1) r.2 (Num.max 0 (infty_norm (g0 + G0 *m sol_x r.2)), 0, 0).
rewrite -/(lqrComputeKktError mu G0 g0 r th).
move: H0; case: (lqrComputeKktError _ _ _ _ _) => [[d1 c1] s1] /= H.
rewrite le_maxl => -[/andP[h1 _] h2 h3].
split.
  by case=> e1 e2 e3; move: H; rewrite e1 e2 e3 lexx => -[H _]; case: H => // /(within0 _ _ G') k1 /small0 k2.
case=> /(within0 _ _ G') k1 /small0 k2; have /H [h1' h2' h3'] := conj k1 k2.
by congr (_, _, _); apply/eqP; rewrite eq_le ?h1' ?h2' ?h3' ?h1 ?h2 ?h3.
Qed.
End Ord.

(** ** The sparse matrix *)
Section Sparse.
Variable F : fieldType.
Variable p : nat.
Variable mu : F.
Add Ring Fring : (ops_ring F).

(** the system with the dynamics written A x + B u + f + x' = 0 *)
Fixpoint kkt_plus n (c : knots F p n) : 'cV[F]_n -> sol c -> Prop :=
  match c in knots _ _ n return 'cV[F]_n -> sol c -> Prop with
  | @Term _ _ n nu nc m k => fun lam s =>
      let: (x, u, v) := s in
      [/\ Qm k *m x + Sm k *m u + qv k + (Cm k)^T *m v = lam,
          (Sm k)^T *m x + Rm k *m u + rv k + (Dm k)^T *m v = 0 &
          Cm k *m x + Dm k *m u + dv k = mu *: v]
  | @Cons _ _ n nu nc m k c' => fun lam s =>
      let: (x, u, v, l', s') := s in
      [/\ Qm k *m x + Sm k *m u + qv k + (Am k)^T *m l' + (Cm k)^T *m v = lam,
          (Sm k)^T *m x + Rm k *m u + rv k + (Bm k)^T *m l' + (Dm k)^T *m v = 0,
          Cm k *m x + Dm k *m u + dv k = mu *: v,
          Am k *m x + Bm k *m u + fv k + sol_x s' = 0 &
          kkt_plus (- l') s']
  end.

Lemma col0P a b (x : 'cV[F]_a) (y : 'cV[F]_b) : col_mx x y = 0 <-> x = 0 /\ y = 0.
Proof.
split; last by case=> -> ->; rewrite col_mx0.
by rewrite -[0]col_mx0 => /eq_col_mx.
Qed.
Lemma stack_x n (c : knots F p n) (s : sol c) : exists t, stack s = col_mx (sol_x s) t.
Proof.
by case: c s => [{}n nu nc m k|{}n nu nc m k c] /= s;
  [case: s => [[x u] v]|case: s => [[[[x u] v] l'] s']]; eexists.
Qed.

Lemma stage_system n (c : knots F p n) g (s : sol c) :
  stage_mat mu c *m stack s + stage_rhs c + col_mx g 0 = 0 <-> kkt_plus (- g) s.
Proof.
elim: c g s => [{}n nu nc m k|{}n nu nc m k c IH] g.
  case=> [[x u] v] /=.
  rewrite mul_block_col mul_row_col mul_col_mx mul_block_col mul_scalar_mx !add_col_mx addr0.
  split.
    case/col0P=> h1 /col0P [h2 h3]; split.
    - by apply/eqP; rewrite -subr_eq0 opprK -h1; apply/eqP; mx_open F; ring.
    - by rewrite -h2; mx_open F; ring.
    - by apply/eqP; rewrite -subr_eq0 -h3; apply/eqP; mx_open F; ring.
  case=> h1 h2 h3; apply/col0P; split; last apply/col0P; try split.
  - by apply/eqP; rewrite addr_eq0 -h1; apply/eqP; mx_open F; ring.
  - by rewrite -h2; mx_open F; ring.
  - by rewrite scaleNr -h3; mx_open F; ring.
case=> [[[[x u] v] l'] s'] /=.
rewrite !(mul_block_col, mul_row_col, mul_col_mx) !mul0mx !mul1mx mul_scalar_mx.
have [t Et] := stack_x s'.
have -> : row_mx 1%:M 0 *m stack s' = sol_x s' by rewrite Et mul_row_col mul1mx mul0mx addr0.
rewrite !(add0r, addr0) !add_col_mx !(add0r, addr0).
have := IH l' s'; set T := stage_mat _ _ *m _ => {}IH.
split.
  case/col0P=> h1 /col0P [h2 /col0P [h3 /col0P [h4 h5]]]; split.
  - by apply/eqP; rewrite -subr_eq0 opprK -h1; apply/eqP; mx_open F; ring.
  - by rewrite -h2; mx_open F; ring.
  - by apply/eqP; rewrite -subr_eq0 -h3; apply/eqP; mx_open F; ring.
  - by rewrite -h4; mx_open F; ring.
  - by apply/IH; rewrite -h5 -[RHS]addrA [RHS]addrC.
case=> h1 h2 h3 h4 /IH h5; apply/col0P; split; last (apply/col0P; split; last (apply/col0P; split; last (apply/col0P; split))).
- by apply/eqP; rewrite addr_eq0 -h1; apply/eqP; mx_open F; ring.
- by rewrite -h2; mx_open F; ring.
- by rewrite scaleNr -h3; mx_open F; ring.
- by rewrite -h4; mx_open F; ring.
- by rewrite -h5 -[LHS]addrA [LHS]addrC.
Qed.

(** C29c: what the sparse system says.  The matrix is symmetric, and
    [mat z + rhs = 0] is the KKT system with the dynamics
    A x + B u + f + x' = 0. *)
Theorem C29_sparse n nc0 (c : knots F p n) (G0 : 'M[F]_(nc0, n)) g0 (l0 : 'cV[F]_nc0) (s : sol c) :
  sparse_mat mu c G0 *m col_mx l0 (stack s) + sparse_rhs c g0 = 0 <->
  (kkt_plus (- (G0^T *m l0)) s /\ G0 *m sol_x s + g0 = 0).
Proof.
rewrite /sparse_mat /sparse_rhs mul_block_col mul0mx add0r mul_col_mx mul0mx add_col_mx.
have [t Et] := stack_x s.
have -> : row_mx G0 0 *m stack s = G0 *m sol_x s by rewrite Et mul_row_col mul0mx addr0.
have := stage_system (G0^T *m l0) s; set T := stage_mat _ _ *m _ => H.
split.
  by case/col0P=> h1 h2; split=> //; apply/H; rewrite -h2 -[RHS]addrA [RHS]addrC.
by case=> /H h1 h2; apply/col0P; split=> //; rewrite -h1 -[LHS]addrA [LHS]addrC.
Qed.
Lemma stage_mat_sym n (c : knots F p n) : symmetric c -> (stage_mat mu c)^T = stage_mat mu c.
Proof.
elim: c => [{}n nu nc m k [h1 h2]|{}n nu nc m k c IH [[h1 h2] h3]] /=.
  by rewrite !tr_block_mx tr_row_mx tr_col_mx !trmxK h1 h2 tr_scalar_mx.
by rewrite !(tr_block_mx, tr_row_mx, tr_col_mx, trmxK, h1, h2, trmx0, tr_scalar_mx, IH h3).
Qed.
Theorem C29_sparse_sym n nc0 (c : knots F p n) (G0 : 'M[F]_(nc0, n)) : symmetric c ->
  (sparse_mat mu c G0)^T = sparse_mat mu c G0.
Proof.
move=> /stage_mat_sym h; rewrite /sparse_mat !tr_block_mx tr_row_mx tr_col_mx !trmxK !trmx0.
by rewrite h.
Qed.

(** C29d: the number of rows reserved is the number of rows written exactly
    when the first and the last state have the same dimension. *)
Fixpoint last_nx n (c : knots F p n) : nat :=
  match c with @Term _ _ n nu nc m k => n | @Cons _ _ n nu nc m k c' => last_nx c' end.
Theorem C29_rows n nc0 (c : knots F p n) : lqrNumRows nc0 c = (nc0 + (n + rest c))%N <-> n = last_nx c.
Proof.
rewrite /lqrNumRows; set T := (_ = _); suff -> : T <-> (stage_rows c + last_nx c = n + rest c + last_nx c)%N.
  have -> : (stage_rows c + last_nx c = n + (n + rest c))%N.
    elim: c {T} => [{}n nu nc m k|{}n nu nc m k c IH] /=; first by rewrite addnC -!addnA.
    by rewrite -addnA IH -!addnA; congr (_ + _)%N; rewrite [RHS]addnCA; congr (_ + _)%N; rewrite [RHS]addnCA.
  split; last by move=> <-; rewrite addnC.
  by rewrite addnC => /eqP; rewrite eqn_add2l => /eqP.
rewrite {}/T; split; first by move/eqP; rewrite eqn_add2l => /eqP ->.
by move/eqP; rewrite eqn_add2r => /eqP ->.
Qed.

(** C29e: cutting up the dense vector gives back the trajectory. *)
Definition entries m (z : 'cV[F]_m) (i : nat) : F := oapp (fun j => z j 0) 0 (insub i).
Lemma entries_col a b (x : 'cV[F]_a) (y : 'cV[F]_b) :
  (forall i, (i < a)%N -> entries (col_mx x y) i = entries x i) /\
  (forall i, entries (col_mx x y) (a + i) = entries y i).
Proof.
split=> i.
  move=> h; rewrite /entries.
  have h' : (i < a + b)%N by rewrite (leq_trans h) // leq_addr.
  rewrite (insubT (fun i => (i < a)%N) h) (insubT (fun i => (i < a + b)%N) h') /=.
  have -> : Sub i h' = lshift b (Ordinal h) :> 'I_(a + b) by exact/val_inj.
  by rewrite col_mxEu.
rewrite /entries; case: insubP => [j /= hj ej|/= hj]; case: insubP => [k /= hk ek|/= hk] //=.
- have -> : j = rshift a k by apply/val_inj; rewrite /= ej ek.
  by rewrite col_mxEd.
- by rewrite ltn_add2l (negbTE hk) in hj.
- by rewrite ltn_add2l hk in hj.
Qed.
Lemma seg_eq (w : nat -> F) i m (z : 'cV[F]_m) : (forall j, (j < m)%N -> w (i + j)%N = entries z j) -> seg w i m = z.
Proof.
move=> h; apply/colP => j; rewrite mxE h // /entries.
by rewrite (insubT (fun i => (i < m)%N) (ltn_ord j)) /=; congr (z _ _); exact/val_inj.
Qed.
Lemma to_trajK n (c : knots F p n) (s : sol c) w idx :
  (forall i, (i < n + rest c)%N -> w (idx + i)%N = entries (stack s) i) -> to_traj w c idx = s.
Proof.
elim: c s idx => [{}n nu nc m k|{}n nu nc m k c IH].
  case=> [[x u] v] idx /= h.
  have [e1 e2] := entries_col x (col_mx u v); have [e3 e4] := entries_col u v.
  congr (_, _, _); apply: seg_eq => j hj.
  - by rewrite h ?e1 // (leq_trans hj) // leq_addr.
  - by rewrite -addnA h ?e2 ?e3 // ltn_add2l (leq_trans hj) // leq_addr.
  - by rewrite -addnA -addnA h ?e2 ?e4 // !ltn_add2l.
case=> [[[[x u] v] l'] s'] idx /= h.
have [e1 e2] := entries_col x (col_mx u (col_mx v (col_mx l' (stack s')))).
have [e3 e4] := entries_col u (col_mx v (col_mx l' (stack s'))).
have [e5 e6] := entries_col v (col_mx l' (stack s')).
have [e7 e8] := entries_col l' (stack s').
congr (_, _, _, _, _).
- by apply: seg_eq => j hj; rewrite h ?e1 // (leq_trans hj) // leq_addr.
- by apply: seg_eq => j hj; rewrite -addnA h ?e2 ?e3 // ltn_add2l (leq_trans hj) // leq_addr.
- by apply: seg_eq => j hj; rewrite -addnA -addnA h ?e2 ?e4 ?e5 // !ltn_add2l (leq_trans hj) // leq_addr.
- apply: seg_eq => j hj; rewrite -!addnA h ?e2 ?e4 ?e6 ?e7 // !ltn_add2l (leq_trans hj) // leq_addr //.
- by apply: IH => i hi; rewrite -!addnA h ?e2 ?e4 ?e6 ?e8 // !ltn_add2l.
Qed.
Theorem C29_traj n nc0 (c : knots F p n) (l0 : 'cV[F]_nc0) (s : sol c) :
  lqrDenseSolutionToTraj nc0 c (entries (col_mx l0 (stack s))) = (l0, s).
Proof.
have [e1 e2] := entries_col l0 (stack s).
congr (_, _); first by apply: seg_eq => j hj; rewrite add0n e1.
by apply: to_trajK => i hi; rewrite e2.
Qed.
End Sparse.

(** ** Counterexamples and witnesses *)
Section Wit.
Notation QF := rat_realFieldType.
(** x' = x + 1, cost x^2/2 at both knots, x0 = 0 *)
Definition ck : knot QF 0 1 0 0 1 := Knot 1%:M 0 0 0 0 1%:M 0 1%:M 0 0 0 0 0 0 0 0.
Definition ct : knot QF 0 1 0 0 0 := Knot 1%:M 0 0 0 0 0 0 0 0 0 0 0 0 0 0 0.
Definition cprob : knots QF 0 1 := Cons ck (Term ct).
Definition ctraj : sol cprob := (0, 0, 0, 1%:M, (1%:M, 0, 0)).

(** C29f: a trajectory which satisfies the KKT equations, and is certified with
    zero error, but is not a solution of the sparse system. *)
Theorem C29_sparse_refuted : exists (c : knots QF 0 1) (G0 : 'M[QF]_1) g0 (r : 'cV[QF]_1 * sol c),
  [/\ symmetric c, kkt_system 1 0 G0 g0 r, lqrComputeKktError 1 G0 g0 r None = (0, 0, 0),
      lqrNumRows 1 c = (1 + (1 + rest c))%N &
      sparse_mat 1 c G0 *m col_mx r.1 (stack r.2) + sparse_rhs c g0 <> 0].
Proof.
exists cprob, 1%:M, 0, (- 1%:M, ctraj).
have K : kkt_system 1 0 (1%:M : 'M[QF]_1) 0 (- 1%:M, ctraj).
  split; rewrite /= ?mul0mx ?mulmx0 ?trmx0 ?trmx1 ?mul1mx ?mulmx1 ?addr0 ?add0r ?mul0mx ?mulmx0 ?addr0 ?scaler0.
    by split; rewrite ?opprK ?(mul0mx, mulmx0, trmx0, addr0, add0r) //; apply: flatmx0.
  by [].
split=> //.
- by rewrite /= !trmx1 trmx0.
- by apply/C29_zero => //; left.
case/C29_sparse => -[_ _ _ + _] _ /=; rewrite mulmx0 mul0mx !add0r => /matrixP /(_ 0 0).
by rewrite !mxE.
Qed.

(** C29g: when theta is given, the path residual misses Gv theta. *)
Definition gt : knot QF 1 1 0 1 0 := Knot 0 0 0 0 0 0 0 0 0 0 0 0 0 0 1%:M 0.
Theorem C29_gv_refuted : exists (c : knots QF 1 1) (G0 : 'M[QF]_1) g0 (r : 'cV[QF]_1 * sol c) th,
  [/\ symmetric c, lqrComputeKktError 1 G0 g0 r (Some th) = (0, 0, 0) & ~ kkt_system 1 th G0 g0 r].
Proof.
exists (Term gt), 1%:M, 0, (0, (0, 0, 0)), 1%:M.
split.
- by rewrite /= !trmx0.
- have N0 m : infty_norm (0 : 'cV[QF]_m) = 0.
    apply/eqP; rewrite eq_le; apply/andP; split; first by apply/infty_norm_le => // i; rewrite mxE normr0.
    by rewrite /infty_norm; elim/big_ind: _ => // a b ha hb; rewrite le_maxr ha.
  rewrite /lqrComputeKktError /= /e_gx /e_gu /e_cst /=.
  by rewrite !(mul0mx, mulmx0, trmx0, addr0, add0r, scaler0, subr0, oppr0) !N0 !maxxx.
case=> -[/= _ _ h] _; move: h => /matrixP /(_ 0 0).
by rewrite !(mul0mx, mulmx0, add0r, addr0, scaler0, mulmx1) !mxE.
Qed.

(** C29h: with a state dimension that changes the matrix has too few or too
    many rows. *)
Definition nk : knot QF 0 2 0 0 1 := Knot 0 0 0 0 0 0 0 0 0 0 0 0 0 0 0 0.
Theorem C29_rows_refuted : exists c : knots QF 0 2, lqrNumRows 2 c <> (2 + (2 + rest c))%N.
Proof. by exists (Cons nk (Term ct)). Qed.

(** Witness: the trajectory above satisfies the hypotheses of C29_zero and
    C29_traj and has a non-zero state; a perturbed one has a non-zero error. *)
Example C29_witness : sol_x ctraj = 0 /\ lqrComputeKktError 1 (c := cprob) 1%:M 0 (- 1%:M, ctraj) None = (0, 0, 0) /\
  lqrComputeKktError 1 (c := cprob) 1%:M 0 (0, ctraj) None <> (0, 0, 0) /\
  lqrDenseSolutionToTraj 1 cprob (entries (col_mx (- 1%:M) (stack ctraj))) = (- 1%:M, ctraj).
Proof.
split=> //; split; last split; last exact: C29_traj.
- apply/C29_zero; first by left.
  split; rewrite /= ?mul0mx ?mulmx0 ?trmx0 ?trmx1 ?mul1mx ?mulmx1 ?addr0 ?add0r ?mul0mx ?mulmx0 ?addr0 ?scaler0 //.
  by split; rewrite ?opprK ?(mul0mx, mulmx0, trmx0, addr0, add0r) //; apply: flatmx0.
- have G : @None 'cV[QF]_0 = None \/ no_gv cprob by left.
  move/(C29_zero 1 1%:M 0 (0, ctraj) G) => -[[/= h _ _ _ _] _]; move: h.
   rewrite !(mul0mx, mulmx0, trmx0, addr0, add0r) trmx1 mul1mx oppr0 => /matrixP /(_ 0 0).
  by rewrite !mxE.
Qed.
End Wit.

Print Assumptions C29_error.
Print Assumptions C29_zero.
Print Assumptions C29_sparse.
Print Assumptions C29_sparse_sym.
Print Assumptions C29_rows.
Print Assumptions C29_traj.
Print Assumptions C29_sparse_refuted.
Print Assumptions C29_gv_refuted.
