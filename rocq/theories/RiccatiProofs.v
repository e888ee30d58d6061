From Coq Require Import Ring Field.
From mathcomp Require Import all_ssreflect all_algebra.
From Verif Require Import MxRing RiccatiModel.
Set Implicit Arguments.
Unset Strict Implicit.
Import GRing.Theory.
Local Open Scope ring_scope.

(** * Specification *)
Section Spec.
Variable F : fieldType.
Variable p : nat.
Variable mu : F.
Variable th : 'cV[F]_p.

(** KKT equations from a stage on, where [lam] is the costate which multiplies
    the state of that stage: stationarity in x and u, path constraint with dual
    regularisation, dynamics.  From the second stage on [lam] is the multiplier
    [lbdas[t]] of the dynamics. *)
Fixpoint kkt n (c : knots F p n) : 'cV[F]_n -> sol c -> Prop :=
  match c in knots _ _ n return 'cV[F]_n -> sol c -> Prop with
  | @Term _ _ n nu nc m k => fun lam s =>
      let: (x, u, v) := s in
      [/\ Qm k *m x + Sm k *m u + qv k + (Cm k)^T *m v + Gx k *m th = lam,
          (Sm k)^T *m x + Rm k *m u + rv k + (Dm k)^T *m v + Gu k *m th = 0 &
          Cm k *m x + Dm k *m u + dv k + Gv k *m th = mu *: v]
  | @Cons _ _ n nu nc m k c' => fun lam s =>
      let: (x, u, v, l', s') := s in
      [/\ Qm k *m x + Sm k *m u + qv k + (Am k)^T *m l' + (Cm k)^T *m v + Gx k *m th = lam,
          (Sm k)^T *m x + Rm k *m u + rv k + (Bm k)^T *m l' + (Dm k)^T *m v + Gu k *m th = 0,
          Cm k *m x + Dm k *m u + dv k + Gv k *m th = mu *: v,
          sol_x s' = Am k *m x + Bm k *m u + fv k &
          kkt l' s']
  end.
(** the whole problem: initial constraint G0 x0 + g0 = 0 with multiplier l0 *)
Definition kkt_system n nc0 (c : knots F p n) (G0 : 'M[F]_(nc0, n)) (g0 : 'cV[F]_nc0)
  (r : 'cV[F]_nc0 * sol c) : Prop :=
  kkt (- (G0^T *m r.1)) r.2 /\ G0 *m sol_x r.2 + g0 = 0.
End Spec.

Section Wf.
Variable F : fieldType.
Variable p : nat.
(** the Hessian blocks Q and R of every knot are symmetric *)
Fixpoint symmetric n (c : knots F p n) : Prop :=
  match c with
  | @Term _ _ n nu nc m k => (Qm k)^T = Qm k /\ (Rm k)^T = Rm k
  | @Cons _ _ n nu nc m k c' => ((Qm k)^T = Qm k /\ (Rm k)^T = Rm k) /\ symmetric c'
  end.
(** no parameter in the path constraints *)
Fixpoint no_gv n (c : knots F p n) : Prop :=
  match c with
  | @Term _ _ n nu nc m k => Gv k = 0
  | @Cons _ _ n nu nc m k c' => Gv k = 0 /\ no_gv c'
  end.
(** the KKT matrix in (u, v) of the terminal stage is invertible *)
Fixpoint terminal_unit (mu : F) n (c : knots F p n) : bool :=
  match c with
  | @Term _ _ n nu nc m k => block_mx (Rm k) (Dm k)^T (Dm k) ((- mu)%:M) \in unitmx
  | @Cons _ _ n nu nc m k c' => terminal_unit mu c'
  end.
(** derivative of the Lagrangian in the parameter *)
Fixpoint dtheta (th : 'cV[F]_p) n (c : knots F p n) : sol c -> 'cV[F]_p :=
  match c in knots _ _ n return sol c -> 'cV[F]_p with
  | @Term _ _ n nu nc m k => fun s => let: (x, u, v) := s in
      gam k + Gth k *m th + (Gx k)^T *m x + (Gu k)^T *m u + (Gv k)^T *m v
  | @Cons _ _ n nu nc m k c' => fun s => let: (x, u, v, l', s') := s in
      gam k + Gth k *m th + (Gx k)^T *m x + (Gu k)^T *m u + (Gv k)^T *m v + dtheta th s'
  end.
End Wf.

Section Proofs.
Variable F : fieldType.
Variable p : nat.
Variable mu : F.
Add Ring Rring : (ops_ring F).

Lemma lower_sym n (M : 'M[F]_n) : M^T = M -> lower M = M.
Proof.
move=> S; apply/matrixP => i j; rewrite mxE; case: leqP => // _.
by rewrite -{1}S mxE.
Qed.
Lemma solveP n k (M : 'M[F]_n) (b : 'M[F]_(n, k)) : M^T = M -> M \in unitmx ->
  M *m chol_solve M b = b.
Proof. by move=> S U; rewrite /chol_solve lower_sym // mulKVmx. Qed.
Lemma kkt_mat_sym nu nc (R : 'M[F]_nu) (D : 'M[F]_(nc, nu)) : R^T = R ->
  (kkt_mat mu R D)^T = kkt_mat mu R D.
Proof. by move=> S; rewrite /kkt_mat tr_block_mx S trmxK tr_scalar_mx. Qed.
Lemma addthE n a (M : 'M[F]_(n, p)) th : addth a M th = a + M *m odflt 0 th.
Proof. by case: th => //=; rewrite mulmx0 addr0. Qed.
Lemma sym_vm_id n (v : ctg F p n) : (Vxx v)^T = Vxx v -> sym_vm v = v.
Proof. by case: v => V ? ? ? ? /= S; rewrite /sym_vm /= lower_sym. Qed.
Lemma set_head_id n (c : knots F p n) (d : factors c) : set_head_vm d (head_vm d) = d.
Proof. by case: c d => [? ? ? ? ?|? ? ? ? ? ?] //= => [[]//|[[] //]]. Qed.
Lemma sol_x_forward n (c : knots F p n) th d x : sol_x (forwardImpl (c := c) th d x) = x.
Proof. by case: c th d x. Qed.

(** rows of the equation M (u, v) = rhs *)
Lemma kkt_rows nu nc k (R : 'M[F]_nu) (D : 'M[F]_(nc, nu)) (w : 'M[F]_(nu + nc, k)) a b :
  kkt_mat mu R D *m w = col_mx a b <->
  R *m usubmx w + D^T *m dsubmx w = a /\ D *m usubmx w - mu *: dsubmx w = b.
Proof.
rewrite -{1}[w]vsubmxK /kkt_mat mul_block_col.
have -> : (- mu)%:M *m dsubmx w = - (mu *: dsubmx w) by rewrite mul_scalar_mx scaleNr.
by split => [/eq_col_mx //|[-> ->]].
Qed.

(** symmetry relation between the right-hand sides and the solutions *)
Lemma kkt_dual nu nc k l (R : 'M[F]_nu) (D : 'M[F]_(nc, nu))
  (w : 'M[F]_(nu + nc, k)) (w' : 'M[F]_(nu + nc, l)) b b' : R^T = R ->
  kkt_mat mu R D *m w = b -> kkt_mat mu R D *m w' = b' -> b^T *m w' = w^T *m b'.
Proof. by move=> S <- <-; rewrite trmx_mul kkt_mat_sym // mulmxA. Qed.

(** the gains of one stage and its cost-to-go, from the solved systems *)
Record gains_ok n nu nc (S : 'M[F]_(n, nu)) (R : 'M[F]_nu) (r : 'cV[F]_nu)
  (C : 'M[F]_(nc, n)) (D : 'M[F]_(nc, nu)) (d : 'cV[F]_nc) (gu : 'M[F]_(nu, p))
  (ff : 'cV[F]_(nu + nc)) (fb : 'M[F]_(nu + nc, n)) (ft : 'M[F]_(nu + nc, p)) := GainsOk {
  g_ff : kkt_mat mu R D *m ff = col_mx (- r) (- d);
  g_fb : kkt_mat mu R D *m fb = col_mx (- S^T) (- C);
  g_ft : kkt_mat mu R D *m ft = col_mx (- gu) 0 }.

Section Local.
Variables (n nu nc : nat) (S : 'M[F]_(n, nu)) (R : 'M[F]_nu) (r : 'cV[F]_nu)
  (C : 'M[F]_(nc, n)) (D : 'M[F]_(nc, nu)) (d : 'cV[F]_nc) (gu : 'M[F]_(nu, p))
  (ff : 'cV[F]_(nu + nc)) (fb : 'M[F]_(nu + nc, n)) (ft : 'M[F]_(nu + nc, p)).
Hypothesis H : gains_ok S R r C D d gu ff fb ft.
Hypothesis SR : R^T = R.

Lemma local_sym (Q : 'M[F]_n) : Q^T = Q ->
  (Q + S *m usubmx fb + C^T *m dsubmx fb)^T = Q + S *m usubmx fb + C^T *m dsubmx fb.
Proof.
move=> SQ; have E := kkt_dual SR (g_fb H) (g_fb H).
have E1 : (col_mx (- S^T) (- C))^T *m fb = - (S *m usubmx fb + C^T *m dsubmx fb).
  by rewrite -{1}[fb]vsubmxK tr_col_mx mul_row_col !linearN /= trmxK !mulNmx opprD.
have E2 : (S *m usubmx fb + C^T *m dsubmx fb)^T = S *m usubmx fb + C^T *m dsubmx fb.
  by apply: oppr_inj; rewrite -linearN /= -E1 trmx_mul trmxK -E.
by rewrite -!addrA linearD /= E2 SQ.
Qed.
Lemma local_cross : S *m usubmx ft + C^T *m dsubmx ft = (usubmx fb)^T *m gu.
Proof.
have := kkt_dual SR (g_fb H) (g_ft H).
rewrite -{1}[ft]vsubmxK -{1}[fb]vsubmxK !tr_col_mx !mul_row_col mulmx0 addr0 !linearN /= trmxK !mulNmx ?mulmxN.
by rewrite -opprD => /oppr_inj.
Qed.
(** residuals at the affine law *)
Lemma local_u x t : let w := ff + fb *m x + ft *m t in
  S^T *m x + R *m usubmx w + r + D^T *m dsubmx w + gu *m t = 0.
Proof.
move=> w.
have E : kkt_mat mu R D *m w = col_mx (- r - S^T *m x - gu *m t) (- d - C *m x).
  rewrite /w !mulmxDr (g_ff H) !mulmxA (g_fb H) (g_ft H) !mul_col_mx !mulNmx !add_col_mx.
  by rewrite mul0mx addr0.
case/kkt_rows: E => E _; move: E; move: (R *m _) (D^T *m _) => a b E.
by have -> : a = - r - S^T *m x - gu *m t - b; [rewrite -E addrK | mx_open F; ring].
Qed.
Lemma local_v x t : let w := ff + fb *m x + ft *m t in
  C *m x + D *m usubmx w + d = mu *: dsubmx w.
Proof.
move=> w.
have E : kkt_mat mu R D *m w = col_mx (- r - S^T *m x - gu *m t) (- d - C *m x).
  rewrite /w !mulmxDr (g_ff H) !mulmxA (g_fb H) (g_ft H) !mul_col_mx !mulNmx !add_col_mx.
  by rewrite mul0mx addr0.
case/kkt_rows: E => _ E; move: E; move: (D *m _) (mu *: _) => a b E.
by have -> : a = - d - C *m x + b; [rewrite -E subrK | mx_open F; ring].
Qed.
Lemma local_x (Q : 'M[F]_n) (q : 'cV[F]_n) (gx : 'M[F]_(n, p)) x t : let w := ff + fb *m x + ft *m t in
  Q *m x + S *m usubmx w + q + C^T *m dsubmx w + gx *m t =
  (Q + S *m usubmx fb + C^T *m dsubmx fb) *m x +
  (q + S *m usubmx ff + C^T *m dsubmx ff) + (gx + (usubmx fb)^T *m gu) *m t.
Proof.
rewrite /= -local_cross !linearD /= -!mul_usub_mx -!mul_dsub_mx !mulmxDl ?mulmxDr !mulmxA.
by mx_open F; ring.
Qed.
(** uniqueness of (u, v) *)
Lemma local_unique x t u v : kkt_mat mu R D \in unitmx ->
  S^T *m x + R *m u + r + D^T *m v + gu *m t = 0 ->
  C *m x + D *m u + d = mu *: v ->
  col_mx u v = ff + fb *m x + ft *m t.
Proof.
move=> U Hu Hv.
have E : kkt_mat mu R D *m (col_mx u v) = kkt_mat mu R D *m (ff + fb *m x + ft *m t).
  have -> : kkt_mat mu R D *m (ff + fb *m x + ft *m t) = col_mx (- r - S^T *m x - gu *m t) (- d - C *m x).
    rewrite !mulmxDr (g_ff H) !mulmxA (g_fb H) (g_ft H) !mul_col_mx !mulNmx !add_col_mx.
    by rewrite mul0mx addr0.
  apply/kkt_rows; rewrite col_mxKu col_mxKd; split.
    apply/eqP; rewrite -subr_eq0; apply/eqP; rewrite -[RHS]Hu.
    by mx_open F; ring.
  by rewrite -Hv; mx_open F; ring.
by rewrite -[LHS](mulKmx U) E mulKmx.
Qed.
End Local.

(** the terminal stage *)
Lemma unit_mu nc (D : 'M[F]_(nc, 0)) (R : 'M[F]_0) : kkt_mat mu R D \in unitmx ->
  mu = 0 -> forall k (w : 'M[F]_(nc, k)), w = 0.
Proof.
move=> U m0 k w.
have E : kkt_mat mu R D *m col_mx 0 w = 0.
  rewrite /kkt_mat mul_block_col m0 oppr0 !mulmx0 !add0r.
  have -> : (0%:M : 'M[F]_nc) *m w = 0 by rewrite mul_scalar_mx scale0r.
  by rewrite [_ *m w]flatmx0 col_mx0.
have := mulKmx U (col_mx 0 w); rewrite E mulmx0 => /esym/eqP.
by rewrite col_mx_eq0 => /andP [_ /eqP].
Qed.
Lemma terminal_ok n nu nc m (k : knot F p n nu nc m) : (Rm k)^T = Rm k ->
  kkt_mat mu (Rm k) (Dm k) \in unitmx ->
  gains_ok (Sm k) (Rm k) (rv k) (Cm k) (Dm k) (dv k) (Gu k)
    (terminal_gains mu k).1.1 (terminal_gains mu k).1.2 (terminal_gains mu k).2.
Proof.
rewrite /terminal_gains; case: eqP => [e|_] SR U; last first.
  by split; rewrite /= solveP // kkt_mat_sym.
subst nu.
have mz l (w : 'M[F]_(nc, l)) : mu *: (mu^-1 *: w) = w.
  case: (mu =P 0) => [e|/eqP n0]; first by rewrite [w](unit_mu U e) !scaler0.
  by rewrite scalerA mulfV // scale1r.
split; rewrite /=; apply/kkt_rows; rewrite ?col_mxKu ?col_mxKd; split; try by rewrite [LHS]flatmx0 [RHS]flatmx0.
- by rewrite mulmx0 add0r mz.
- by rewrite mulmx0 add0r mz.
- by rewrite mulmx0 scaler0 subr0.
Qed.
Lemma law_u nu nc n (ff : 'cV[F]_(nu + nc)) (fb : 'M[F]_(nu + nc, n)) (ft : 'M[F]_(nu + nc, p)) x t :
  usubmx (ff + fb *m x + ft *m t) = usubmx ff + usubmx fb *m x + usubmx ft *m t.
Proof. by rewrite !linearD /= -!mul_usub_mx. Qed.
Lemma law_v nu nc n (ff : 'cV[F]_(nu + nc)) (fb : 'M[F]_(nu + nc, n)) (ft : 'M[F]_(nu + nc, p)) x t :
  dsubmx (ff + fb *m x + ft *m t) = dsubmx ff + dsubmx fb *m x + dsubmx ft *m t.
Proof. by rewrite !linearD /= -!mul_dsub_mx. Qed.

(** what the backward pass achieves from a stage on *)
Definition good n (c : knots F p n) (ds : factors c) : Prop :=
  let V := head_vm ds in
  [/\ (Vxx V)^T = Vxx V,
      forall th x, let t := odflt 0 th in
        kkt mu t (Vxx V *m x + vx V + Vxt V *m t) (forwardImpl th ds x),
      forall th x, let t := odflt 0 th in
        dtheta t (forwardImpl th ds x) = vt V + Vtt V *m t + (Vxt V)^T *m x &
      forall th lam s, let t := odflt 0 th in kkt mu t lam s ->
        lam = Vxx V *m sol_x s + vx V + Vxt V *m t /\ s = forwardImpl th ds (sol_x s)].

Lemma good_term n nu nc m (k : knot F p n nu nc m) :
  symmetric (Term k) -> no_gv (Term k) -> terminal_unit mu (Term k) ->
  good (c := Term k) (terminalSolve mu k).
Proof.
move=> /= [SQ SR] G0 U; have H := terminal_ok SR U.
rewrite /good /=; move: (terminal_gains mu k) H => [[ff fb] ft] /= H.
have AC : Qm k + (Cm k)^T *m dsubmx fb + Sm k *m usubmx fb =
  Qm k + Sm k *m usubmx fb + (Cm k)^T *m dsubmx fb by rewrite addrAC.
split.
- by rewrite AC (local_sym H).
- move=> th x; rewrite !addthE; set t := odflt 0 th.
  have := (local_u H x t, local_v H x t, local_x H SR (Qm k) (qv k) (Gx k) x t).
  rewrite /= law_u law_v => [[[hu hv] hx]]; split=> //.
  + by rewrite hx AC [qv k + (Cm k)^T *m _ + _]addrAC.
  + by rewrite G0 mul0mx addr0.
- move=> th x; rewrite !addthE; set t := odflt 0 th.
  rewrite G0 trmx0 mul0mx addr0 !linearD /= trmx_mul trmxK !mulmxDl ?mulmxDr !mulmxA.
  by mx_open F; ring.
- move=> th lam [[x u] v] /=; set t := odflt 0 th => [[hx hu hv]].
  rewrite G0 mul0mx addr0 in hv.
  have := local_unique H U hu hv => E.
  have Eu : u = usubmx ff + usubmx fb *m x + usubmx ft *m t by rewrite -law_u -E col_mxKu.
  have Ev : v = dsubmx ff + dsubmx fb *m x + dsubmx ft *m t by rewrite -law_v -E col_mxKd.
  split; last by rewrite !addthE -Eu -Ev.
  have := local_x H SR (Qm k) (qv k) (Gx k) x t.
  by rewrite /= law_u law_v -Eu -Ev AC [qv k + (Cm k)^T *m _ + _]addrAC -hx.
Qed.

Lemma good_stage n nu nc m (k : knot F p n nu nc m) (c : knots F p m) ds d vn :
  symmetric (Cons k c) -> no_gv (Cons k c) -> good ds ->
  stageKernelSolve mu k (head_vm ds) = Some (d, vn) ->
  good (c := Cons k c) (d, set_head_vm ds vn).
Proof.
move=> /= [[SQ SR] _] [G0 _] [SV K TH UQ].
rewrite /stageKernelSolve sym_vm_id //.
set V := head_vm ds in SV K TH UQ *.
set Rhat := Rm k + _; set Shat := Sm k + _; set Qhat := Qm k + _.
set qhat := qv k + _; set rhat := rv k + _; set gu := Gu k + _.
have SRh : Rhat^T = Rhat by rewrite /Rhat linearD /= SR !trmx_mul trmxK SV mulmxA.
have SQh : Qhat^T = Qhat by rewrite /Qhat linearD /= SQ !trmx_mul trmxK SV mulmxA.
have -> : lower (kkt_mat mu Rhat (Dm k)) = kkt_mat mu Rhat (Dm k).
  by rewrite lower_sym // kkt_mat_sym.
case: ifPn => // /negPn U [<- <-]; rewrite set_head_id.
set ff := chol_solve _ (col_mx (- rhat) _).
set fb := chol_solve _ (col_mx (- Shat^T) _).
set ft := chol_solve _ (col_mx (- gu) _).
have H : gains_ok Shat Rhat rhat (Cm k) (Dm k) (dv k) gu ff fb ft.
  by split; rewrite solveP ?kkt_mat_sym // G0 oppr0.
pose gx := Gx k + (Am k)^T *m Vxt V.
have cr : (Gx k + (usubmx fb)^T *m Gu k + (Am k + Bm k *m usubmx fb)^T *m Vxt V) =
  gx + (usubmx fb)^T *m gu.
  rewrite /gx /gu !linearD /= trmx_mul !mulmxDl ?mulmxDr !mulmxA.
  by mx_open F; ring.
have LX := local_x H SRh Qhat qhat gx.
have SS : Shat^T = (Sm k)^T + (Bm k)^T *m Vxx V *m Am k.
  by rewrite /Shat linearD /= !trmx_mul trmxK SV mulmxA.
have AX x u l' t : l' = Vxx V *m (Am k *m x + Bm k *m u + fv k) + vx V + Vxt V *m t ->
  forall v, Qm k *m x + Sm k *m u + qv k + (Am k)^T *m l' + (Cm k)^T *m v + Gx k *m t =
  Qhat *m x + Shat *m u + qhat + (Cm k)^T *m v + gx *m t.
  move=> -> v; rewrite /Qhat /Shat /qhat /gx !mulmxDl ?mulmxDr !mulmxA.
  by mx_open F; ring.
have AU x u l' t : l' = Vxx V *m (Am k *m x + Bm k *m u + fv k) + vx V + Vxt V *m t ->
  forall v, (Sm k)^T *m x + Rm k *m u + rv k + (Bm k)^T *m l' + (Dm k)^T *m v + Gu k *m t =
  Shat^T *m x + Rhat *m u + rhat + (Dm k)^T *m v + gu *m t.
  move=> -> v; rewrite SS /Rhat /rhat /gu !mulmxDl ?mulmxDr !mulmxA.
  by mx_open F; ring.
have XN x t : fv k + Bm k *m usubmx ff + (Am k + Bm k *m usubmx fb) *m x + Bm k *m usubmx ft *m t =
  Am k *m x + Bm k *m (usubmx ff + usubmx fb *m x + usubmx ft *m t) + fv k.
  by rewrite !mulmxDl ?mulmxDr !mulmxA; mx_open F; ring.
clearbody ff fb ft.
split; rewrite ?[head_vm _]/= ?[Vxx _]/= ?[vx _]/= ?[Vxt _]/=.
- exact: (local_sym H).
- move=> th x t; rewrite cr /= !addthE -/t XN -law_u -law_v; set w := ff + _ + _.
  set x' := Am k *m x + _ + _.
  have El : vx V + Vxx V *m x' + Vxt V *m t = Vxx V *m x' + vx V + Vxt V *m t.
    by rewrite [vx V + _]addrC.
  have hx := AX x (usubmx w) _ t erefl (dsubmx w).
  have hu := AU x (usubmx w) _ t erefl (dsubmx w).
  rewrite -/V El; split.
  + by rewrite hx LX.
  + by rewrite hu (local_u H).
  + by rewrite G0 mul0mx addr0 (local_v H).
  + by rewrite sol_x_forward.
  + exact: K.
- move=> th x t; rewrite cr /= !addthE -/t TH -/t.
  rewrite G0 trmx0 mul0mx addr0 /gx /gu !linearD /= !trmx_mul trmxK !mulmxDl ?mulmxDr ?linearD /= ?mulmxDl ?trmx_mul ?trmxK !mulmxA.
  by mx_open F; ring.
- move=> th lam [[[[x u] v] l'] s] /=; set t := odflt 0 th => [[hx hu hv hd hs]].
  have [El Es] := UQ th _ _ hs; rewrite -/t -/V hd in El.
  rewrite G0 mul0mx addr0 in hv.
  rewrite (AU _ _ _ _ El) in hu.
  have E := local_unique H U hu hv.
  have Eu : u = usubmx ff + usubmx fb *m x + usubmx ft *m t by rewrite -law_u -E col_mxKu.
  have Ev : v = dsubmx ff + dsubmx fb *m x + dsubmx ft *m t by rewrite -law_v -E col_mxKd.
  split.
    rewrite cr -hx (AX _ _ _ _ El).
    by have := LX x t; rewrite /= law_u law_v -Eu -Ev => ->.
  rewrite !addthE -/t -Eu -Ev XN -Eu -/V.
  have -> : vx V + Vxx V *m (Am k *m x + Bm k *m u + fv k) + Vxt V *m t = l'.
    by rewrite El [vx V + _]addrC.
  by rewrite -hd -Es.
Qed.

Theorem backward_good n (c : knots F p n) ds : symmetric c -> no_gv c -> terminal_unit mu c ->
  backwardImpl mu c = Some ds -> good ds.
Proof.
elim: c ds => [n' nu nc m k|n' nu nc m k c IH] ds.
  by move=> S G U [<-]; exact: good_term.
move=> S G U; rewrite [backwardImpl _ _]/=.
case E : (backwardImpl mu c) => [ds'|//].
case E2 : (stageKernelSolve mu k (head_vm ds')) => [[d vn]|//] [<-].
apply: good_stage E2 => //.
by apply: IH => //; [case: S|case: G].
Qed.

(** the initial stage *)
Section Init.
Variables (n nc0 : nat) (V : ctg F p n) (G0 : 'M[F]_(nc0, n)) (g0 : 'cV[F]_nc0).
Hypothesis SV : (Vxx V)^T = Vxx V.
Hypothesis U : kkt0_mat V G0 \in unitmx.
Lemma kkt0_sym : (kkt0_mat V G0)^T = kkt0_mat V G0.
Proof. by rewrite /kkt0_mat tr_block_mx SV trmxK trmx0. Qed.
Lemma initial_ok th : let i := computeInitial (factor_initial V G0 g0) th in
  let t := odflt 0 th in
  Vxx V *m i.1 + vx V + Vxt V *m t = - (G0^T *m i.2) /\ G0 *m i.1 + g0 = 0.
Proof.
rewrite /= !addthE; set t := odflt 0 th; set a := chol_solve _ _; set b := chol_solve _ _.
have Ea : kkt0_mat V G0 *m a = col_mx (- vx V) (- g0) by rewrite solveP ?kkt0_sym.
have Eb : kkt0_mat V G0 *m b = col_mx (- Vxt V) 0 by rewrite solveP ?kkt0_sym.
clearbody a b.
have E : kkt0_mat V G0 *m (a + b *m t) = col_mx (- vx V - Vxt V *m t) (- g0).
  by rewrite mulmxDr mulmxA Ea Eb mul_col_mx mulNmx mul0mx add_col_mx addr0.
have Eu : usubmx (a + b *m t) = usubmx a + usubmx b *m t by rewrite linearD /= -mul_usub_mx.
have Ed : dsubmx (a + b *m t) = dsubmx a + dsubmx b *m t by rewrite linearD /= -mul_dsub_mx.
rewrite -Eu -Ed; move: (a + b *m t) E => w.
rewrite -{1}[w]vsubmxK /kkt0_mat mul_block_col mul0mx addr0 => /eq_col_mx [h1 ->].
split; last by rewrite addNr.
move: h1; move: (Vxx V *m _) (G0^T *m _) => x y h.
have -> : x = - vx V - Vxt V *m t - y by rewrite -h addrK.
by mx_open F; ring.
Qed.
Lemma initial_unique th x l : let t := odflt 0 th in
  Vxx V *m x + vx V + Vxt V *m t = - (G0^T *m l) -> G0 *m x + g0 = 0 ->
  (x, l) = computeInitial (factor_initial V G0 g0) th.
Proof.
rewrite /computeInitial /= !addthE; set t := odflt 0 th; set a := chol_solve _ _; set b := chol_solve _ _ => h1 h2.
have Ea : kkt0_mat V G0 *m a = col_mx (- vx V) (- g0) by rewrite solveP ?kkt0_sym.
have Eb : kkt0_mat V G0 *m b = col_mx (- Vxt V) 0 by rewrite solveP ?kkt0_sym.
clearbody a b.
have E : kkt0_mat V G0 *m (a + b *m t) = kkt0_mat V G0 *m (col_mx x l).
  rewrite mulmxDr mulmxA Ea Eb mul_col_mx mulNmx mul0mx add_col_mx addr0.
  rewrite /kkt0_mat mul_block_col mul0mx addr0; congr col_mx.
    have -> : G0^T *m l = - (Vxx V *m x + vx V + Vxt V *m t) by rewrite h1 opprK.
    by mx_open F; ring.
  by apply/eqP; rewrite eq_sym -subr_eq0 opprK h2.
have W : col_mx x l = a + b *m t by rewrite -[LHS](mulKmx U) -E mulKmx.
have Eu : usubmx (a + b *m t) = usubmx a + usubmx b *m t by rewrite linearD /= -mul_usub_mx.
have Ed : dsubmx (a + b *m t) = dsubmx a + dsubmx b *m t by rewrite linearD /= -mul_dsub_mx.
by rewrite -Eu -Ed -W col_mxKu col_mxKd.
Qed.
End Init.
End Proofs.
