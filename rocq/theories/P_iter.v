(** C66: one iteration of the inner loop on affine-quadratic problems. *)
From Coq Require Import Ring.
From mathcomp Require Import all_ssreflect all_algebra.
From Verif Require Import MxRing RiccatiModel RiccatiProofs RiccatiValue P_riccati LagrModel P_lagr IterModel.
Set Implicit Arguments.
Unset Strict Implicit.
Import Order.Theory GRing.Theory Num.Theory.
Local Open Scope ring_scope.

Section Spec.
Variable R : realFieldType.

(** the bound of the set on which the normal-cone projection of [z] leans, if any *)
Definition bound (k : row R) (z : R) : option R :=
  match k with
  | Req => Some 0
  | Rneg => if 0 < z then Some 0 else None
  | Rbox lo up => if up < z then Some up else if z < lo then Some lo else None
  end.
(** boxes are not empty *)
Definition row_wf (k : row R) : Prop := match k with Rbox lo up => lo <= up | _ => True end.
Definition is_eq (k : row R) : Prop := match k with Req => True | _ => False end.
Fixpoint rows (P : row R -> Prop) n (c : prob R n) : Prop :=
  match c with
  | @PTerm _ n nc s => forall i, P (ek s i)
  | @PCons _ n nu nc m s c' => (forall i, P (pk s i)) /\ rows P c'
  end.
(** the Hessians of the costs are symmetric *)
Fixpoint sym_costs n (c : prob R n) : Prop :=
  match c with
  | @PTerm _ n nc s => (eQ s)^T = eQ s
  | @PCons _ n nu nc m s c' => ((pQ s)^T = pQ s /\ (pR s)^T = pR s) /\ sym_costs c'
  end.
(** the costs are convex, strictly in the controls *)
Fixpoint convex_costs n (c : prob R n) : Prop :=
  match c with
  | @PTerm _ n nc s => (eQ s)^T = eQ s /\ psd (eQ s)
  | @PCons _ n nu nc m s c' =>
      [/\ (pQ s)^T = pQ s, (pR s)^T = pR s, psd (block_mx (pQ s) (pS s) (pS s)^T (pR s)) & pd (pR s)]
      /\ convex_costs c'
  end.
(** no row changes its bound between two iterates, for the previous multipliers w *)
Fixpoint same_pieces (mu : R) n (c : prob R n) : iter c -> iter c -> vecs c -> Prop :=
  match c in prob _ n return iter c -> iter c -> vecs c -> Prop with
  | @PTerm _ n nc s => fun i j w => forall k,
      bound (ek s k) ((eC s *m i.1 + ed s) k 0 + mu * w k 0)
      = bound (ek s k) ((eC s *m j.1 + ed s) k 0 + mu * w k 0)
  | @PCons _ n nu nc m s c' => fun i j w =>
      let: (x, u, _, _, i') := i in let: (x', u', _, _, j') := j in
      (forall k,
        bound (pk s k) ((pC s *m x + pD s *m u + ph s) k 0 + mu * w.1 k 0)
        = bound (pk s k) ((pC s *m x' + pD s *m u' + ph s) k 0 + mu * w.1 k 0))
      /\ same_pieces mu i' j' w.2
  end.
(** (1 - a) r - a preg (dx, du, 0, 0) *)
Fixpoint shrunk (a preg : R) n (c : prob R n) : iter c -> iter c -> iter c :=
  match c in prob _ n return iter c -> iter c -> iter c with
  | @PTerm _ n nc s => fun r d => ((1 - a) *: r.1 - (a * preg) *: d.1, (1 - a) *: r.2)
  | @PCons _ n nu nc m s c' => fun r d =>
      let: (rx, ru, rv, rg, r') := r in let: (dx, du, dv, dl, d') := d in
      ((1 - a) *: rx - (a * preg) *: dx, (1 - a) *: ru - (a * preg) *: du, (1 - a) *: rv, (1 - a) *: rg,
       shrunk a preg r' d')
  end.
Fixpoint zeros n (c : prob R n) : iter c :=
  match c in prob _ n return iter c with
  | @PTerm _ n nc s => (0, 0)
  | @PCons _ n nu nc m s c' => (0, 0, 0, 0, zeros c')
  end.
(** *** the problem: minimise [cost] over the feasible trajectories *)
Fixpoint cost n (c : prob R n) : iter c -> R :=
  match c in prob _ n return iter c -> R with
  | @PTerm _ n nc s => fun i => (1 + 1)^-1 * qform (eQ s) i.1 + dot (eq_ s) i.1
  | @PCons _ n nu nc m s c' => fun i =>
      let: (x, u, _, _, i') := i in
      (1 + 1)^-1 * qform (block_mx (pQ s) (pS s) (pS s)^T (pR s)) (col_mx x u) + dot (pq s) x + dot (pr s) u + cost i'
  end.
Definition in_set (k : row R) (z : R) : Prop :=
  match k with Req => z = 0 | Rneg => z <= 0 | Rbox lo up => lo <= z <= up end.
Fixpoint feasible n (c : prob R n) : iter c -> Prop :=
  match c in prob _ n return iter c -> Prop with
  | @PTerm _ n nc s => fun i => forall k, in_set (ek s k) ((eC s *m i.1 + ed s) k 0)
  | @PCons _ n nu nc m s c' => fun i =>
      let: (x, u, _, _, i') := i in
      [/\ first_x i' = pA s *m x + pB s *m u + pf s,
          forall k, in_set (pk s k) ((pC s *m x + pD s *m u + ph s) k 0) & feasible i']
  end.
(** the multiplier v of a row of value z is normal to the set *)
Definition normal (k : row R) (z v : R) : Prop := forall y, in_set k y -> v * (y - z) <= 0.
(** first-order conditions; [inc] is the part of the gradient in the first state which
    comes from before *)
Fixpoint kkt_point n (c : prob R n) : 'cV[R]_n -> iter c -> Prop :=
  match c in prob _ n return 'cV[R]_n -> iter c -> Prop with
  | @PTerm _ n nc s => fun inc i =>
      inc + eQ s *m i.1 + eq_ s + (eC s)^T *m i.2 = 0
      /\ forall k, in_set (ek s k) ((eC s *m i.1 + ed s) k 0) /\ normal (ek s k) ((eC s *m i.1 + ed s) k 0) (i.2 k 0)
  | @PCons _ n nu nc m s c' => fun inc i =>
      let: (x, u, v, l, i') := i in
      let z := pC s *m x + pD s *m u + ph s in
      [/\ inc + pQ s *m x + pS s *m u + pq s + (pA s)^T *m l + (pC s)^T *m v = 0,
          (pS s)^T *m x + pR s *m u + pr s + (pB s)^T *m l + (pD s)^T *m v = 0,
          first_x i' = pA s *m x + pB s *m u + pf s,
          forall k, in_set (pk s k) (z k 0) /\ normal (pk s k) (z k 0) (v k 0) & kkt_point (- l) i']
  end.
Fixpoint vdist2 n (c : prob R n) : vecs c -> vecs c -> R :=
  match c in prob _ n return vecs c -> vecs c -> R with
  | @PTerm _ n nc s => fun v w => dot (v - w) (v - w)
  | @PCons _ n nu nc m s c' => fun v w => dot (v.1 - w.1) (v.1 - w.1) + vdist2 v.2 w.2
  end.
End Spec.

Section Step.
Variable R : realFieldType.
Add Ring Rring : (ops_ring R).
Variables mu preg : R.
Variable exact : bool.
Hypothesis mu0 : mu != 0.

Lemma ncp_bound (k : row R) z : row_wf k ->
  ncp k z = match bound k z with Some b => z - b | None => 0 end.
Proof.
case: k => [|_|lo up] /=; first by rewrite subr0.
  by case: (ltrP 0 z) => h; rewrite ?subr0.
move=> h; case: (ltrP up z) => h1.
  by rewrite max_l.
case: (ltrP z lo) => h2; first by [].
by rewrite subrr.
Qed.
Lemma active_bound (k : row R) z : row_wf k -> active k z = (bound k z : bool).
Proof.
case: k => [|_|lo up] //=; first by case: ifP.
by case: (up < z) => //=; case: (z < lo).
Qed.

(** one row: the step removes the part [a] of its residual *)
Lemma row_shrinks (k : row R) z dz v dv a : row_wf k ->
  (if active k z then dz + (ncp k z - mu * v) = mu * dv else ncp k z - mu * v = mu * dv) ->
  bound k z = bound k (z + a * dz) ->
  ncp k (z + a * dz) - mu * (v + a * dv) = (1 - a) * (ncp k z - mu * v).
Proof.
move=> wf; rewrite active_bound // !ncp_bound // => H <-.
move: H; case: (bound k z) => [b|] /= H.
  have -> : mu * (v + a * dv) = mu * v + a * (dz + (z - b - mu * v)) by rewrite H mulrDr mulrCA.
  by fold_ops R; ring.
have -> : mu * (v + a * dv) = mu * v + a * (0 - mu * v) by rewrite H mulrDr mulrCA.
by fold_ops R; ring.
Qed.

(** the gradients from a stage on; [b]: the first one is set to zero *)
Definition gr (b : bool) n (c : prob R n) (i : iter c) (inc : 'cV[R]_n) : xus (traj_of i) :=
  let g := grad_loop true (traj_of i) inc in if b then zero_grad g else g.

Lemma kept n nu nc (act : 'I_nc -> bool) (Jx : 'M[R]_(nc, n)) (Ju : 'M[R]_(nc, nu)) Lv (dv : 'cV[R]_nc) dx du i
  (th : 'cV[R]_0) :
  keep_rows act Jx *m dx + keep_rows act Ju *m du + Lv + 0 *m th = mu *: dv ->
  if act i then (Jx *m dx + Ju *m du) i 0 + Lv i 0 = mu * dv i 0 else Lv i 0 = mu * dv i 0.
Proof.
rewrite mul0mx addr0 => /keep_rows_dv /(_ i); case: (act i) => // <-.
by rewrite mxE.
Qed.
Lemma corr_of k n nu nc (act : 'I_nc -> bool) (J : 'M[R]_(nc, k)) (Jx : 'M[R]_(nc, n)) (Ju : 'M[R]_(nc, nu)) Lv (dv : 'cV[R]_nc) dx du
  (th : 'cV[R]_0) :
  keep_rows act Jx *m dx + keep_rows act Ju *m du + Lv + 0 *m th = mu *: dv ->
  (keep_rows act J)^T *m dv = J^T *m dv - corr mu act J Lv.
Proof.
rewrite mul0mx addr0 => /keep_rows_dv /rows_inactive H.
by rewrite -(corr_full mu0 J H) [X in X - _]addrC addrK.
Qed.
Lemma keep0 k nc (act : 'I_nc -> bool) : keep_rows act 0 = 0 :> 'M[R]_(nc, k).
Proof. by apply/matrixP => i j; rewrite !mxE; case: (act i). Qed.

Lemma Lv_shrinks nc (k : 'I_nc -> row R) (c c' w v dv : 'cV[R]_nc) dc a :
  (forall i, row_wf (k i)) -> c' = c + a *: dc ->
  (forall i, if act_of k (shifted mu c w) i
             then dc i 0 + Lv_of mu k (shifted mu c w) v i 0 = mu * dv i 0
             else Lv_of mu k (shifted mu c w) v i 0 = mu * dv i 0) ->
  (forall i, bound (k i) (c i 0 + mu * w i 0) = bound (k i) (c' i 0 + mu * w i 0)) ->
  Lv_of mu k (shifted mu c' w) (v + a *: dv) = (1 - a) *: Lv_of mu k (shifted mu c w) v.
Proof.
move=> wf Ec H B; apply/colP => i; move: (H i) (B i); rewrite /act_of /shifted Ec !mxE.
move=> {}H {}B.
have E : c i 0 + a * dc i 0 + mu * w i 0 = (c i 0 + mu * w i 0) + a * dc i 0 by rewrite addrAC.
by rewrite E; apply: row_shrinks; rewrite -?E.
Qed.

Lemma first_x_step a n (c : prob R n) (i d : iter c) : first_x (lin_step a i d) = first_x i + a *: first_x d.
Proof.
by case: c i d => [{}n nc s|{}n nu nc m s c'] /= => [i d //|[[[[x u] v] l] i'] [[[[dx du] dv] dl] d'] //].
Qed.
Lemma first_x_dirs n (c : prob R n) (i : iter c) w g H0 (r : sol (lq_problem mu preg exact (lq_of mu (i := i) w g) H0)) :
  first_x (dirs r) = sol_x r.
Proof.
by case: c i w g H0 r => [{}n nc s|{}n nu nc m s c'] /= => [i w g H0 r //|[[[[x u] v] l] i'] w g H0 r //].
Qed.

Lemma kept_term n nu nc (act : 'I_nc -> bool) (Jx : 'M[R]_(nc, n)) Lv (dv : 'cV[R]_nc) dx (du : 'cV[R]_nu) i
  (th : 'cV[R]_0) :
  keep_rows act Jx *m dx + 0 *m du + Lv + 0 *m th = mu *: dv ->
  if act i then (Jx *m dx) i 0 + Lv i 0 = mu * dv i 0 else Lv i 0 = mu * dv i 0.
Proof.
rewrite -{1}(keep0 nu act) => /(kept i); case: (act i) => //.
by rewrite mul0mx addr0.
Qed.
Lemma corr_term n nu nc (act : 'I_nc -> bool) (Jx : 'M[R]_(nc, n)) Lv (dv : 'cV[R]_nc) dx (du : 'cV[R]_nu)
  (th : 'cV[R]_0) :
  keep_rows act Jx *m dx + 0 *m du + Lv + 0 *m th = mu *: dv ->
  (keep_rows act Jx)^T *m dv = Jx^T *m dv - corr mu act Jx Lv.
Proof. by rewrite -{1}(keep0 nu act) => /corr_of ->. Qed.

Lemma contract a n (c : prob R n) : rows (@row_wf R) c ->
  forall b (i : iter c) w inc lam r,
  kkt mu 0 lam (r : sol (lq_problem mu preg exact (lq_of mu w (gr b i inc)) 0)) ->
  (b -> sol_x r = 0) ->
  same_pieces mu i (lin_step a i (dirs r)) w ->
  residuals mu w (gr b (lin_step a i (dirs r)) (inc - a *: lam)) =
  shrunk a preg (residuals mu w (gr b i inc)) (dirs r).
Proof.
elim: c => [{}n nc s|{}n nu nc m s c IH] /=.
  move=> wf b [x v] w inc lam [[dx du] dv] /= [hx _ hv] hb B.
  rewrite /gr /=; congr (_, _); last first.
    apply: (Lv_shrinks wf) => // [|j].
      by rewrite /tval mulmxDr -scalemxAr addrAC.
    exact: (kept_term j hv).
  case: b hb hx hv => /= [hb _ _|_ hx hv]; first by rewrite hb // !scaler0 subr0.
  rewrite -hx (corr_term hv) /reg !mulmxDl !mulmxDr mul_scalar_mx !mul0mx -!scalemxAr.
  move: (corr _ _ _ _) => K.
  by mx_open R; ring.
move=> [wf wfc] b [[[[x u] v] l] i] w inc lam.
have fin (h : 'cV[R]_nu) dx du dv dl r
  (hu : (pS s + when_exact exact 0)^T *m dx + (reg preg (pR s) + when_exact exact 0) *m du +
    (h + corr mu (act_of (pk s) (shifted mu (cval s x u) w.1)) (pD s)
          (Lv_of mu (pk s) (shifted mu (cval s x u) w.1) v)) + (pB s)^T *m dl
    + (keep_rows (act_of (pk s) (shifted mu (cval s x u) w.1)) (pD s))^T *m dv + 0 *m (0 : 'cV[R]_0) = 0)
  (hv : keep_rows (act_of (pk s) (shifted mu (cval s x u) w.1)) (pC s) *m dx +
        keep_rows (act_of (pk s) (shifted mu (cval s x u) w.1)) (pD s) *m du +
        Lv_of mu (pk s) (shifted mu (cval s x u) w.1) v + 0 *m (0 : 'cV[R]_0) = mu *: dv)
  (hd : sol_x r = pA s *m dx + pB s *m du + gap s x u (first_x i))
  (hk : kkt mu 0 dl (r : sol (lq_problem mu preg exact (lq_of mu w.2 (gr false i (- l))) 0)))
  (B : forall k, bound (pk s k) (cval s x u k 0 + mu * w.1 k 0)
        = bound (pk s k) (cval s (x + a *: dx) (u + a *: du) k 0 + mu * w.1 k 0))
  (Bc : same_pieces mu i (lin_step a i (dirs r)) w.2) :
  h = (pS s)^T *m x + pR s *m u + pr s + (pB s)^T *m l + (pD s)^T *m v ->
  [/\ (pS s)^T *m (x + a *: dx) + pR s *m (u + a *: du) + pr s + (pB s)^T *m (l + a *: dl)
        + (pD s)^T *m (v + a *: dv) = (1 - a) *: h - (a * preg) *: du,
      Lv_of mu (pk s) (shifted mu (cval s (x + a *: dx) (u + a *: du)) w.1) (v + a *: dv)
        = (1 - a) *: Lv_of mu (pk s) (shifted mu (cval s x u) w.1) v,
      gap s (x + a *: dx) (u + a *: du) (first_x (lin_step a i (dirs r))) = (1 - a) *: gap s x u (first_x i) &
      residuals mu w.2 (gr false (lin_step a i (dirs r)) (- (l + a *: dl)))
        = shrunk a preg (residuals mu w.2 (gr false i (- l))) (dirs r)].
  move=> Eh; split.
  - apply/eqP; rewrite -subr_eq0; apply/eqP; rewrite -[RHS](scaler0 _ a) -hu.
    rewrite (corr_of (pD s) hv) Eh /reg /when_exact.
    have -> : (if exact then 0 else 0) = 0 :> 'M[R]_(n, nu) by case: exact.
    have -> : (if exact then 0 else 0) = 0 :> 'M[R]_nu by case: exact.
    rewrite !addr0 !mulmxDl !mulmxDr mul_scalar_mx mul0mx -!scalemxAr.
    move: (corr _ _ _ _) => K.
    by mx_open R; ring.
  - apply: (Lv_shrinks wf) B => [|j].
      by rewrite /cval !mulmxDr -!scalemxAr -/(cval s x u); instantiate (1 := pC s *m dx + pD s *m du);
        rewrite /cval scalerDr; mx_open R; ring.
    exact: (kept j hv).
  - rewrite first_x_step first_x_dirs hd /gap !mulmxDr -!scalemxAr.
    by mx_open R; ring.
  - by rewrite -(IH wfc false i w.2 (- l) dl r hk _ Bc) // opprD.
rewrite /gr; case: b => /= -[[[[dx du] dv] dl] r] /= [hx hu hv hd hk] hb [B Bc].
  have [//|E1 E2 E3 E4] := fin _ dx du dv dl r hu hv hd hk B Bc.
  congr (_, _, _, _, _) => //.
  by rewrite hb // !scaler0 subr0.
have [//|E1 E2 E3 E4] := fin _ dx du dv dl r hu hv hd hk B Bc.
congr (_, _, _, _, _) => //.
rewrite -hx (corr_of (pC s) hv) /reg /when_exact.
have -> : (if exact then 0 else 0) = 0 :> 'M[R]_n by case: exact.
have -> : (if exact then 0 else 0) = 0 :> 'M[R]_(n, nu) by case: exact.
rewrite !addr0 !mulmxDl !mulmxDr mul_scalar_mx !mul0mx -!scalemxAr.
move: (corr _ _ _ _) => K.
by mx_open R; ring.
Qed.
End Step.

(** ** The whole iteration *)
Section Top.
Variable R : realFieldType.
Add Ring Rring3 : (ops_ring R).

Lemma when0 m n (b : bool) : when_exact b (0 : 'M[R]_(m, n)) = 0.
Proof. by case: b. Qed.
Lemma sub_symmetric mu preg exact n (c : prob R n) : sym_costs c -> forall (i : iter c) w g,
  symmetric (lq_problem mu preg exact (lq_of mu (i := i) w g) 0).
Proof.
elim: c => [{}n nc s|{}n nu nc m s c IH] /=.
  by move=> S i w g /=; rewrite addr0 /reg linearD /= tr_scalar_mx S trmx0.
move=> [[SQ SR] Sc] [[[[x u] v] l] i] w g /=; split; last exact: IH.
by rewrite !when0 !addr0 /reg !linearD /= !tr_scalar_mx SQ SR.
Qed.
Lemma sub_terminal mu preg exact n (c : prob R n) : mu != 0 -> forall (i : iter c) w g H0,
  terminal_unit mu (lq_problem mu preg exact (lq_of mu (i := i) w g) H0).
Proof.
move=> m0; elim: c => [{}n nc s|{}n nu nc m s c IH] /=; last first.
  by move=> [[[[x u] v] l] i] w g H0 /=; exact: IH.
move=> i w g H0 /=; apply: unit_kernel => x.
rewrite -[x]vsubmxK mul_block_col [usubmx x]flatmx0 !mulmx0 !add0r -col_mx0 => /eq_col_mx [_].
rewrite mul_scalar_mx => /eqP; rewrite scaler_eq0 oppr_eq0 (negbTE m0) /= => /eqP ->.
by rewrite col_mx0.
Qed.
Lemma gr_true n (c : prob R n) (i : iter c) a b : gr true i a = gr true i b.
Proof. by case: c i a b => [{}n nc s|{}n nu nc m s c'] //= => [[[[[x u] v] l] i]]. Qed.
Lemma zero_dx_id n (c : prob R n) (d : iter c) : first_x d = 0 -> zero_dx d = d.
Proof.
by case: c d => [{}n nc s|{}n nu nc m s c'] /= => [[dx dv] /= ->|[[[[dx du] dv] dl] d] /= ->].
Qed.

Lemma sub_convex mu preg exact n (c : prob R n) : 0 <= preg -> convex_costs c -> forall (i : iter c) w g,
  convex (lq_problem mu preg exact (lq_of mu (i := i) w g) 0).
Proof.
have psd_reg k (H : 'M[R]_k) : 0 <= preg -> psd H -> psd (reg preg H).
  move=> p0 P x; rewrite /reg /qform mulmxDl dotDr addr_ge0 ?P // mul_scalar_mx dotZr.
  by rewrite mulr_ge0 ?dot_pos.
move=> p0; elim: c => [{}n nc s|{}n nu nc m s c' IH] /=.
  move=> [S P] i w g; rewrite /convex_knot /= addr0; split.
  - by rewrite /reg linearD /= tr_scalar_mx S.
  - by rewrite trmx0.
  - move=> x; rewrite -[x]vsubmxK qform_block [dsubmx x]flatmx0 trmx0 !mulmx0 !addr0 dot0l addr0.
    exact: psd_reg.
  - by move=> x; rewrite [x]flatmx0 eqxx.
move=> [[SQ SR P PR] Sc] [[[[x u] v] l] i] w g /=; split; last exact: IH.
rewrite /convex_knot /= !when0 !addr0; split.
- by rewrite /reg linearD /= tr_scalar_mx SQ.
- by rewrite /reg linearD /= tr_scalar_mx SR.
- move=> z; rewrite -[z]vsubmxK qform_block /reg !mulmxDl !mul_scalar_mx.
  move: (usubmx z) (dsubmx z) => y t; move: (P (col_mx y t)); rewrite qform_block.
  rewrite !dotDr !dotZr => h.
  have -> (a b d e f k : R) : a + b + d + (e + (f + k)) = a + d + (e + f) + (b + k) by fold_ops R; ring.
  by rewrite addr_ge0 // addr_ge0 // mulr_ge0 ?dot_pos.
- by move=> z z0; rewrite /reg /qform mulmxDl dotDr ltr_paddr ?PR // mul_scalar_mx dotZr mulr_ge0 ?dot_pos.
Qed.
Lemma convex_sym n (c : prob R n) : convex_costs c -> sym_costs c.
Proof. by elim: c => [{}n nc s [] //|{}n nu nc m s c' IH /= [[-> -> _ _] /IH]]. Qed.

Section Iteration.
Variables (n : nat) (c : prob R n) (G0 : 'M[R]_n) (e0 : 'cV[R]_n) (mu preg : R) (exact : bool).

Lemma direction_kkt (force : bool) (w : vecs c) (s d : state n c) :
  mu != 0 -> sym_costs c -> G0 \in unitmx -> direction G0 e0 mu preg exact force w s = Some d ->
  exists (l : 'cV[R]_n) (r : sol (subproblem G0 mu preg exact force w s)),
    [/\ kkt mu 0 (- (G0^T *m l)) r, G0 *m sol_x r + (G0 *m first_x s.2 + e0) = 0 &
        d = if force then (0, zero_dx (dirs r)) else (l, dirs r)].
Proof.
move=> m0 Sc UG; rewrite /direction; case Eb : (backward _ _ _ _) => [bd|//] E.
have [[hk h0] _] := C21_kkt (sub_symmetric mu preg exact Sc w (grads G0 force s))
       (sub_terminal preg exact m0 w (grads G0 force s) 0) Eb (kkt0_unit _ UG).
exists (forward bd None).1, (forward bd None).2; split=> //.
exact: (esym (Some_inj E)).
Qed.

(** C66: on a problem with quadratic costs, affine dynamics and any product of equality,
    inequality and box constraints, after a linear step of size a every residual of the
    inner loop is (1 - a) times what it was, minus a preg times the step for the
    gradients, provided that no row leaves its piece; the initial condition determines
    the first state, and holds if it is forced. *)
Theorem C66_residuals_partial : forall (force : bool) (a : R) (w : vecs c) (s s' : state n c),
  mu != 0 -> sym_costs c -> rows (@row_wf R) c -> G0 \in unitmx ->
  (force -> G0 *m first_x s.2 + e0 = 0) ->
  iterate G0 e0 mu preg exact force a w s = Some s' -> same_pieces mu s.2 s'.2 w ->
  exists d, [/\ direction G0 e0 mu preg exact force w s = Some d,
    s'.2 = lin_step a s.2 d.2,
    G0 *m first_x s'.2 + e0 = (1 - a) *: (G0 *m first_x s.2 + e0) &
    all_residuals G0 mu force w s' = shrunk a preg (all_residuals G0 mu force w s) d.2].
Proof.
move=> force a w s s' m0 Sc wf UG hf; rewrite /iterate.
case D : (direction _ _ _ _ _ _ w s) => [d|//] [<-] /= B; exists d.
suff [H1 H2] : G0 *m first_x (lin_step a s.2 d.2) + e0 = (1 - a) *: (G0 *m first_x s.2 + e0) /\
  all_residuals G0 mu force w (s.1 + a *: d.1, lin_step a s.2 d.2) =
    shrunk a preg (all_residuals G0 mu force w s) d.2 by [].
have [l [r [hk h0 Ed]]] := direction_kkt m0 Sc UG D.
have A (z : 'cV[R]_n) : G0 *m z + (G0 *m first_x s.2 + e0) = 0 ->
  G0 *m (first_x s.2 + a *: z) + e0 = (1 - a) *: (G0 *m first_x s.2 + e0).
  move=> /eqP; rewrite addr_eq0 mulmxDr -scalemxAr => /eqP ->.
  by rewrite scalerN scalerBl scale1r addrAC.
move: B; rewrite {}Ed {D}; case: force hf r hk h0 => hf r hk h0 /= B.
  have h1 : sol_x r = 0.
    by apply: (can_inj (mulKmx UG)); rewrite mulmx0; move: h0; rewrite /init_gap hf // addr0.
  move: B; rewrite zero_dx_id ?first_x_dirs // => B; split.
    by rewrite first_x_step first_x_dirs; exact: A.
  rewrite /all_residuals -(@contract _ mu preg exact m0 a n c wf true s.2 w (G0^T *m s.1) _ r hk) //.
  by congr residuals; exact: gr_true.
split; first by rewrite first_x_step first_x_dirs; exact: A.
rewrite /all_residuals -(@contract _ mu preg exact m0 a n c wf false s.2 w (G0^T *m s.1) _ r hk) //.
by rewrite scalerN opprK scalemxAr -mulmxDr.
Qed.

(** on a convex problem every iteration is defined, whatever the iterate *)
Theorem C66_defined : forall (force : bool) (a : R) (w : vecs c) (s : state n c),
  0 < mu -> 0 <= preg -> convex_costs c -> G0 \in unitmx ->
  exists s', iterate G0 e0 mu preg exact force a w s = Some s'.
Proof.
move=> force a w s m0 p0 Cc UG; rewrite /iterate /direction.
have [d [-> _ _]] := C21_convex (init_gap G0 e0 s) m0 (sub_convex mu exact p0 Cc w (grads G0 force s)) UG.
by eexists.
Qed.
End Iteration.
End Top.
