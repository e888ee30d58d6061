(** C23: the stage-dense Riccati solver. *)
From Coq Require Import Ring.
From mathcomp Require Import all_ssreflect all_algebra.
From Verif Require Import MxRing RiccatiModel RiccatiProofs RiccatiValue P_riccati DenseModel.
Set Implicit Arguments.
Unset Strict Implicit.
Import GRing.Theory.
Local Open Scope ring_scope.

Section Proofs.
Variable F : fieldType.
Variable p : nat.
Variable mu : F.
Variable junk : forall n k, 'M[F]_n -> 'M[F]_(n, k) -> 'M[F]_(n, k).
Variable stale : forall n k, 'M[F]_(n, k).
Add Ring Rring : (ops_ring F).

(** ** a symmetric system with right-hand side affine in (x, theta) *)
Section Gen.
Variables (N n : nat) (M : 'M[F]_N) (a : 'cV[F]_N) (B : 'M[F]_(N, n)) (T : 'M[F]_(N, p))
  (ff : 'cV[F]_N) (fb : 'M[F]_(N, n)) (ft : 'M[F]_(N, p)).
Hypothesis SM : M^T = M.
Hypothesis Hff : M *m ff = - a.
Hypothesis Hfb : M *m fb = - B.
Hypothesis Hft : M *m ft = - T.
Lemma gen_law x t : M *m (ff + fb *m x + ft *m t) = - (a + B *m x + T *m t).
Proof. by rewrite !mulmxDr !mulmxA Hff Hfb Hft !mulNmx !opprD. Qed.
Lemma gen_cross : B^T *m ft = fb^T *m T.
Proof.
apply: oppr_inj; rewrite -mulNmx -mulmxN -Hft.
by have -> : - B^T = (M *m fb)^T; [rewrite Hfb linearN|rewrite trmx_mul SM -mulmxA].
Qed.
Lemma gen_sym (Q : 'M[F]_n) : Q^T = Q -> (Q + B^T *m fb)^T = Q + B^T *m fb.
Proof.
move=> SQ; rewrite linearD /= SQ; congr (_ + _).
have -> : B = - (M *m fb) by rewrite Hfb opprK.
by rewrite linearN /= mulNmx !linearN /= !trmx_mul !trmxK SM mulmxA.
Qed.
Lemma gen_x (Q : 'M[F]_n) (q : 'cV[F]_n) (gx : 'M[F]_(n, p)) x t :
  Q *m x + B^T *m (ff + fb *m x + ft *m t) + q + gx *m t =
  (Q + B^T *m fb) *m x + (q + B^T *m ff) + (gx + fb^T *m T) *m t.
Proof. by rewrite -gen_cross !mulmxDl ?mulmxDr !mulmxA; mx_open F; ring. Qed.
Lemma gen_t (g : 'cV[F]_p) (gt : 'M[F]_p) (gx : 'M[F]_(n, p)) x t :
  g + gt *m t + gx^T *m x + T^T *m (ff + fb *m x + ft *m t) =
  (g + T^T *m ff) + (gt + T^T *m ft) *m t + (gx + fb^T *m T)^T *m x.
Proof.
have -> : (gx + fb^T *m T)^T = gx^T + T^T *m fb by rewrite linearD /= trmx_mul trmxK.
by rewrite !mulmxDl ?mulmxDr !mulmxA; mx_open F; ring.
Qed.
Lemma gen_unique w x t : M \in unitmx -> M *m w = - (a + B *m x + T *m t) -> w = ff + fb *m x + ft *m t.
Proof. by move=> U; rewrite -gen_law => E; rewrite -[LHS](mulKmx U) E mulKmx. Qed.
(** Ptt of the code is the transpose of T^T ft *)
Lemma gen_tt : ft^T *m T = T^T *m ft.
Proof.
apply: oppr_inj; rewrite -mulmxN -Hft mulmxA; have -> : ft^T *m M = (M *m ft)^T by rewrite trmx_mul SM.
by rewrite Hft linearN mulNmx.
Qed.
End Gen.

(** ** blocks *)
Section Blocks.
Variables nu nc m : nat.
Notation N4 := ((nu + nc) + (m + m))%N.
Lemma col4K k (w : 'M[F]_(N4, k)) : col4 (bu w) (bv w) (bl w) (by_ w) = w.
Proof. by rewrite /col4 /bu /bv /bl /by_ !vsubmxK. Qed.
Lemma bu4 k a b c d : bu (@col4 F nu nc m k a b c d) = a. Proof. by rewrite /bu /col4 !col_mxKu. Qed.
Lemma bv4 k a b c d : bv (@col4 F nu nc m k a b c d) = b. Proof. by rewrite /bv /col4 col_mxKu col_mxKd. Qed.
Lemma bl4 k a b c d : bl (@col4 F nu nc m k a b c d) = c. Proof. by rewrite /bl /col4 col_mxKd col_mxKu. Qed.
Lemma by4 k a b c d : by_ (@col4 F nu nc m k a b c d) = d. Proof. by rewrite /by_ /col4 !col_mxKd. Qed.
Lemma blocksE : (forall k (v w : 'M[F]_(N4, k)), bu (v + w) = bu v + bu w) *
  (forall k (v w : 'M[F]_(N4, k)), bv (v + w) = bv v + bv w) *
  (forall k (v w : 'M[F]_(N4, k)), bl (v + w) = bl v + bl w) *
  (forall k (v w : 'M[F]_(N4, k)), by_ (v + w) = by_ v + by_ w) *
  (forall k l (v : 'M[F]_(N4, k)) (w : 'M[F]_(k, l)), bu (v *m w) = bu v *m w) *
  (forall k l (v : 'M[F]_(N4, k)) (w : 'M[F]_(k, l)), bv (v *m w) = bv v *m w) *
  (forall k l (v : 'M[F]_(N4, k)) (w : 'M[F]_(k, l)), bl (v *m w) = bl v *m w) *
  (forall k l (v : 'M[F]_(N4, k)) (w : 'M[F]_(k, l)), by_ (v *m w) = by_ v *m w).
Proof.
rewrite /bu /bv /bl /by_; repeat split; move=> *; rewrite ?(mul_usub_mx, mul_dsub_mx) //.
- by rewrite [usubmx (_ + _)]linearD /= [usubmx (_ + _)]linearD.
- by rewrite [usubmx (_ + _)]linearD /= [dsubmx (_ + _)]linearD.
- by rewrite [dsubmx (_ + _)]linearD /= [usubmx (_ + _)]linearD.
- by rewrite [dsubmx (_ + _)]linearD /= [dsubmx (_ + _)]linearD.
Qed.
Lemma col4_inj k (a a' : 'M[F]_(nu, k)) (b b' : 'M[F]_(nc, k)) (c c' d d' : 'M[F]_(m, k)) :
  col4 a b c d = col4 a' b' c' d' -> [/\ a = a', b = b', c = c' & d = d'].
Proof. by move=> /eq_col_mx [/eq_col_mx [-> ->] /eq_col_mx [-> ->]]. Qed.
Lemma oppr4 k a b c d : - (@col4 F nu nc m k a b c d) = col4 (- a) (- b) (- c) (- d).
Proof. by rewrite /col4 !opp_col_mx. Qed.
Lemma add4 k a b c d a' b' c' d' : @col4 F nu nc m k a b c d + col4 a' b' c' d' = col4 (a + a') (b + b') (c + c') (d + d').
Proof. by rewrite /col4 !add_col_mx. Qed.
Lemma mul4 k l a b c d (w : 'M[F]_(k, l)) : @col4 F nu nc m k a b c d *m w = col4 (a *m w) (b *m w) (c *m w) (d *m w).
Proof. by rewrite /col4 !mul_col_mx. Qed.
Lemma tr4_mul k l a b c d (w : 'M[F]_(N4, l)) : (@col4 F nu nc m k a b c d)^T *m w =
  a^T *m bu w + b^T *m bv w + (c^T *m bl w + d^T *m by_ w).
Proof. by rewrite -{1}[w]col4K /col4 !tr_col_mx !mul_row_col. Qed.
Lemma mul4_tr k l a b c d (w : 'M[F]_(N4, l)) : w^T *m (@col4 F nu nc m k a b c d) =
  (bu w)^T *m a + (bv w)^T *m b + ((bl w)^T *m c + (by_ w)^T *m d).
Proof. by rewrite -{1}[w]col4K /col4 !tr_col_mx !mul_row_col. Qed.
Lemma stage_mul n k (kn : knot F p n nu nc m) (vn : ctg F p m) (w : 'M[F]_(N4, k)) :
  stage_mat mu kn vn *m w =
  col4 (Rm kn *m bu w + (Dm kn)^T *m bv w + (Bm kn)^T *m bl w) (Dm kn *m bu w - mu *: bv w)
       (Bm kn *m bu w - by_ w) (Vxx vn *m by_ w - bl w).
Proof.
rewrite -{1}[w]col4K /col4 /stage_mat /kkt_mat !mul_block_col !add_col_mx.
rewrite !mul0mx !addr0 !add0r !mulNmx !mul1mx.
have -> : (- mu)%:M *m bv w = - (mu *: bv w) by rewrite mul_scalar_mx scaleNr.
by rewrite [- bl w + _]addrC.
Qed.
Lemma stage_sym n (kn : knot F p n nu nc m) (vn : ctg F p m) : (Rm kn)^T = Rm kn -> (Vxx vn)^T = Vxx vn ->
  (stage_mat mu kn vn)^T = stage_mat mu kn vn.
Proof.
move=> SR SV; rewrite /stage_mat tr_block_mx kkt_mat_sym // !tr_block_mx !trmx0 trmxK !linearN /= trmx1 SV //.
Qed.
End Blocks.
Lemma dsolveP n k (M : 'M[F]_n) (b : 'M[F]_(n, k)) : M^T = M -> M \in unitmx -> M *m dsolve junk M b = b.
Proof. by move=> S U; rewrite /dsolve lower_sym // U mulKVmx. Qed.
(** a matrix with no kernel is invertible *)
Lemma unit_kernel n (M : 'M[F]_n) : (forall x : 'cV[F]_n, M *m x = 0 -> x = 0) -> M \in unitmx.
Proof.
move=> H; rewrite -unitmx_tr -row_free_unit -kermx_eq0; apply/eqP/trmx_inj/matrixP => i j.
have K : M *m (row j (kermx M^T))^T = 0.
  by apply: trmx_inj; rewrite trmx_mul trmxK trmx0 -row_mul mulmx_ker row0.
by have := H _ K => /matrixP /(_ i 0); rewrite !mxE.
Qed.

(** ** what the backward pass achieves *)
(** every factorisation after the terminal one succeeds *)
Fixpoint stages_unit n (c : knots F p n) : bool :=
  match c with
  | @Term _ _ n nu nc m k => true
  | @Cons _ _ n nu nc m k c' => (stage_mat mu k (dhead (dstages junk stale mu c')) \in unitmx) && stages_unit c'
  end.
(** the terminal knot has neither control nor path constraint, or no next state and an
    invertible matrix *)
Fixpoint terminal_dense n (c : knots F p n) : bool :=
  match c with
  | @Term _ _ n nu nc m k => (nu + nc == 0)%N || (m == 0)%N && (block_mx (Rm k) (Dm k)^T (Dm k) ((- mu)%:M) \in unitmx)
  | @Cons _ _ n nu nc m k c' => terminal_dense c'
  end.
(** the parts of pt and Ptt which the code drops: those of the stages after the first *)
Fixpoint dropped n (c : knots F p n) : dfactors c -> 'cV[F]_p * 'M[F]_p :=
  match c in knots _ _ n return dfactors c -> 'cV[F]_p * 'M[F]_p with
  | @Term _ _ n nu nc m k => fun d => (0, 0)
  | @Cons _ _ n nu nc m k c' => fun d =>
      (vt (dhead d.2) + (dropped d.2).1, Vtt (dhead d.2) + (dropped d.2).2)
  end.
Definition dgood n (c : knots F p n) (ds : dfactors c) : Prop :=
  let V := dhead ds in
  [/\ (Vxx V)^T = Vxx V,
      forall th x, let t := odflt 0 th in
        kkt mu t (Vxx V *m x + vx V + Vxt V *m t) (dforward_from th ds x),
      forall th x, let t := odflt 0 th in
        dtheta t (dforward_from th ds x) = vt V + (dropped ds).1 + (Vtt V + (dropped ds).2) *m t + (Vxt V)^T *m x &
      forall th lam s, let t := odflt 0 th in kkt mu t lam s ->
        lam = Vxx V *m sol_x s + vx V + Vxt V *m t /\ s = dforward_from th ds (sol_x s)].
Lemma sol_x_dforward n (c : knots F p n) th d x : sol_x (dforward_from (c := c) th d x) = x.
Proof. by case: c th d x. Qed.

Lemma dgood_term n nu nc m (k : knot F p n nu nc m) : symmetric (Term k) -> terminal_dense (Term k) ->
  dgood (c := Term k) (dterminal junk stale mu k).
Proof.
move=> /= [SQ SR] /orP [|].
  rewrite addn_eq0 => /andP [/eqP e1 /eqP e2]; subst nu nc.
  rewrite /dgood /=.
  have e0 a b (A : 'M[F]_(a, 0)) (B : 'M[F]_(0, b)) : A *m B = 0 by rewrite [A]thinmx0 mul0mx.
  split.
  - by rewrite !e0 !addr0.
  - move=> th x; rewrite !e0 !addr0; split; first by [].
    + by rewrite [LHS]flatmx0.
    + by rewrite [LHS]flatmx0 [RHS]flatmx0.
  - by move=> th x; rewrite !e0 !addr0.
  - move=> th lam [[x u] v] /= [<- _ _]; rewrite !e0 !addr0; split=> //.
    by rewrite [u]flatmx0 [v]flatmx0; congr (_, _, _); rewrite [RHS]flatmx0.
move=> /andP [/eqP e U]; subst m.
set M := terminal_mat mu k.
have SM : M^T = M by rewrite /M /terminal_mat tr_block_mx kkt_mat_sym // !trmx0.
have Mmul l (w : 'M[F]_(nu + nc + (0 + 0), l)) : M *m w = col_mx (kkt_mat mu (Rm k) (Dm k) *m usubmx w) 0.
  by rewrite -{1}[w]vsubmxK /M /terminal_mat mul_block_col !mul0mx !addr0.
have UM : M \in unitmx.
  apply: unit_kernel => w; rewrite Mmul => E.
  have : col_mx (kkt_mat mu (Rm k) (Dm k) *m usubmx w) (0 : 'M_(0 + 0, 1)) = col_mx 0 0 by rewrite E col_mx0.
  case/eq_col_mx => E1 _.
  by rewrite -[w]vsubmxK [dsubmx w]flatmx0 -[usubmx w](mulKmx U) E1 mulmx0 col_mx0.
pose a := @col4 F nu nc 0 1 (rv k) (dv k) 0 0.
pose B := @col4 F nu nc 0 n (Sm k)^T (Cm k) 0 0.
pose T := @col4 F nu nc 0 p (Gu k) (Gv k) 0 0.
rewrite /dgood /dterminal -/M.
set ff := dsolve _ _ _; set fb := dsolve _ _ (col4 (- (Sm k)^T) _ _ _); set ft := dsolve _ _ (col4 (- Gu k) _ _ _).
have f0 l (A A' : 'M[F]_(0, l)) : A = A' by rewrite [A]flatmx0 [A']flatmx0.
have Hff : M *m ff = - a by rewrite dsolveP // oppr4; congr (col4 _ _ _ _); exact: f0.
have Hfb : M *m fb = - B by rewrite dsolveP // oppr4; congr (col4 _ _ _ _); exact: f0.
have Hft : M *m ft = - T by rewrite dsolveP // oppr4; congr (col4 _ _ _ _); exact: f0.
clearbody ff fb ft.
have BT l (w : 'M[F]_(nu + nc + (0 + 0), l)) : B^T *m w = Sm k *m bu w + (Cm k)^T *m bv w.
  by rewrite tr4_mul trmxK !trmx0 !mul0mx !addr0.
have TT l (w : 'M[F]_(nu + nc + (0 + 0), l)) : T^T *m w = (Gu k)^T *m bu w + (Gv k)^T *m bv w.
  by rewrite tr4_mul !trmx0 !mul0mx !addr0.
have wT l (w : 'M[F]_(nu + nc + (0 + 0), l)) : w^T *m T = (bu w)^T *m Gu k + (bv w)^T *m Gv k.
  by rewrite mul4_tr !mulmx0 !addr0.
have rows w x t : M *m w = - (a + B *m x + T *m t) <->
  ((Sm k)^T *m x + Rm k *m bu w + rv k + (Dm k)^T *m bv w + Gu k *m t = 0 /\
   Cm k *m x + Dm k *m bu w + dv k + Gv k *m t = mu *: bv w).
  rewrite Mmul /a /B /T !mul4 !add4 oppr4 /col4 -{1}[usubmx w]vsubmxK /kkt_mat mul_block_col -/(bu w) -/(bv w).
  have -> : (- mu)%:M *m bv w = - (mu *: bv w) by rewrite mul_scalar_mx scaleNr.
  split.
    case/eq_col_mx => /eq_col_mx [h1 h2] _; split.
      move: h1; move: (Rm k *m _) ((Dm k)^T *m _) => y z h.
      by have -> : y = - (rv k + (Sm k)^T *m x + Gu k *m t) - z; [rewrite -h addrK|mx_open F; ring].
    move: h2; move: (Dm k *m _) (mu *: _) => y z h.
    by have -> : y = - (dv k + Cm k *m x + Gv k *m t) + z; [rewrite -h subrK|mx_open F; ring].
  move=> [h1 h2]; congr (col_mx (col_mx _ _) _); last exact: f0.
    apply/eqP; rewrite -subr_eq0; apply/eqP; rewrite -[RHS]h1; by mx_open F; ring.
  by rewrite -h2; mx_open F; ring.
have EP : Qm k + Sm k *m bu fb + (Cm k)^T *m bv fb = Qm k + B^T *m fb by rewrite BT addrA.
have Ep : qv k + Sm k *m bu ff + (Cm k)^T *m bv ff = qv k + B^T *m ff by rewrite BT addrA.
have Ex : Gx k + (bu fb)^T *m Gu k + (bv fb)^T *m Gv k = Gx k + fb^T *m T by rewrite wT addrA.
have Et : Gth k + (Gu k)^T *m bu ft + (Gv k)^T *m bv ft = Gth k + T^T *m ft by rewrite TT addrA.
have Eg : gam k + (Gu k)^T *m bu ff + (Gv k)^T *m bv ff = gam k + T^T *m ff by rewrite TT addrA.
rewrite /= EP Ep Ex Et Eg {EP Ep Ex Et Eg} !addr0.
have law := gen_law Hff Hfb Hft.
split.
- exact: (gen_sym SM Hfb).
- move=> th x; rewrite !addthE -!blocksE; set t := odflt 0 th; set w := ff + fb *m x + ft *m t.
  have [h1 h2] := (rows w x t).1 (law x t).
  split=> //; have := gen_x ff SM Hfb Hft (Qm k) (qv k) (Gx k) x t; rewrite -/w BT => <-.
  by mx_open F; ring.
- move=> th x; rewrite !addthE -!blocksE; set t := odflt 0 th; set w := ff + fb *m x + ft *m t.
  have := gen_t T ff fb ft (gam k) (Gth k) (Gx k) x t; rewrite -/w TT => <-.
  by rewrite !addrA.
- move=> th lam [[x u] v] /=; set t := odflt 0 th => [[hx hu hv]].
  pose w := @col4 F nu nc 0 1 u v 0 0.
  have E : w = ff + fb *m x + ft *m t.
    by apply: (gen_unique Hff Hfb Hft UM); apply/rows; rewrite bu4 bv4.
  rewrite !addthE -!blocksE -/t -E bu4 bv4; split=> //.
  rewrite -hx; have := gen_x ff SM Hfb Hft (Qm k) (qv k) (Gx k) x t; rewrite -E BT bu4 bv4 => <-.
  by mx_open F; ring.
Qed.

Lemma dgood_stage n nu nc m (k : knot F p n nu nc m) (c : knots F p m) ds :
  symmetric (Cons k c) -> dgood ds -> stage_mat mu k (dhead ds) \in unitmx ->
  dgood (c := Cons k c) (dstage junk mu k (dhead ds), ds).
Proof.
move=> /= [[SQ SR] _] [SV K TH UQ]; set V := dhead ds in SV K TH UQ * => UM.
set M := stage_mat mu k V in UM *.
have SM : M^T = M by exact: stage_sym.
pose a := col4 (rv k) (dv k) (fv k) (vx V).
pose B := col4 (Sm k)^T (Cm k) (Am k) (0 : 'M_(m, n)).
pose T := col4 (Gu k) (Gv k) 0 (Vxt V).
rewrite /dgood /dstage -/M.
set ff := dsolve _ _ _; set fb := dsolve _ _ (col4 (- (Sm k)^T) _ _ _); set ft := dsolve _ _ (col4 (- Gu k) _ _ _).
have Hff : M *m ff = - a by rewrite dsolveP // oppr4.
have Hfb : M *m fb = - B by rewrite dsolveP // oppr4 oppr0.
have Hft : M *m ft = - T by rewrite dsolveP // oppr4 oppr0.
clearbody ff fb ft.
have BT l (w : 'M[F]_(nu + nc + (m + m), l)) : B^T *m w = Sm k *m bu w + ((Cm k)^T *m bv w + (Am k)^T *m bl w).
  by rewrite tr4_mul trmxK !trmx0 !mul0mx !addr0 addrA.
have TT l (w : 'M[F]_(nu + nc + (m + m), l)) : T^T *m w = (Gu k)^T *m bu w + ((Gv k)^T *m bv w + (Vxt V)^T *m by_ w).
  by rewrite tr4_mul !trmx0 !mul0mx !add0r addrA.
have wT l (w : 'M[F]_(nu + nc + (m + m), l)) : w^T *m T = (bu w)^T *m Gu k + ((bv w)^T *m Gv k + (by_ w)^T *m Vxt V).
  by rewrite mul4_tr !mulmx0 !add0r addrA.
have rows w x t : M *m w = - (a + B *m x + T *m t) <->
  [/\ (Sm k)^T *m x + Rm k *m bu w + rv k + (Bm k)^T *m bl w + (Dm k)^T *m bv w + Gu k *m t = 0,
      Cm k *m x + Dm k *m bu w + dv k + Gv k *m t = mu *: bv w,
      by_ w = Am k *m x + Bm k *m bu w + fv k &
      bl w = Vxx V *m by_ w + vx V + Vxt V *m t].
  rewrite /M stage_mul /a /B /T !mul4 !add4 oppr4 !mul0mx !addr0.
  split.
    case/col4_inj => h1 h2 h3 h4; split.
    - move: h1; move: (Rm k *m _) ((Dm k)^T *m _) ((Bm k)^T *m _) => y z z' h.
      have -> : y = - (rv k + (Sm k)^T *m x + Gu k *m t) - z' - z by rewrite -h !addrK.
      by mx_open F; ring.
    - move: h2; move: (Dm k *m _) (mu *: _) => y z h.
      by have -> : y = - (dv k + Cm k *m x + Gv k *m t) + z; [rewrite -h subrK|mx_open F; ring].
    - move: h3; move: (Bm k *m _) => y h.
      by have -> : by_ w = y - (y - by_ w); [rewrite opprB addrC subrK|rewrite h; mx_open F; ring].
    - move: h4; move: (Vxx V *m _) => y h.
      by have -> : bl w = y - (y - bl w); [rewrite opprB addrC subrK|rewrite h; mx_open F; ring].
  move=> [h1 h2 h3 h4]; congr (col4 _ _ _ _).
  - apply/eqP; rewrite -subr_eq0; apply/eqP; rewrite -[RHS]h1; by mx_open F; ring.
  - by rewrite -h2; mx_open F; ring.
  - by rewrite h3; mx_open F; ring.
  - by rewrite h4; mx_open F; ring.
have law := gen_law Hff Hfb Hft.
rewrite [dhead _]/= [Vxx _]/= [vx _]/= [Vxt (Ctg _ _ _ _ _)]/= [vt _]/= [Vtt _]/=.
have EP : Qm k + Sm k *m bu fb + (Cm k)^T *m bv fb + (Am k)^T *m bl fb = Qm k + B^T *m fb by rewrite BT !addrA.
have Ep : qv k + Sm k *m bu ff + (Cm k)^T *m bv ff + (Am k)^T *m bl ff = qv k + B^T *m ff by rewrite BT !addrA.
have Ex : Gx k + (bu fb)^T *m Gu k + (bv fb)^T *m Gv k + (by_ fb)^T *m Vxt V = Gx k + fb^T *m T by rewrite wT !addrA.
have Et : Gth k + (bu ft)^T *m Gu k + (bv ft)^T *m Gv k + (by_ ft)^T *m Vxt V = Gth k + ft^T *m T by rewrite wT !addrA.
have Eg : gam k + (Gu k)^T *m bu ff + (Gv k)^T *m bv ff + (Vxt V)^T *m by_ ff = gam k + T^T *m ff by rewrite TT !addrA.
rewrite EP Ep Ex Et Eg {EP Ep Ex Et Eg}.
split.
- exact: (gen_sym SM Hfb).
- move=> th x /=; rewrite !addthE -!blocksE; set t := odflt 0 th; set w := ff + fb *m x + ft *m t.
  have [h1 h2 h3 h4] := (rows w x t).1 (law x t).
  split=> //.
  + have := gen_x ff SM Hfb Hft (Qm k) (qv k) (Gx k) x t; rewrite -/w BT => <-.
    by mx_open F; ring.
  + by rewrite sol_x_dforward.
  + by rewrite h4; exact: K.
- move=> th x /=; rewrite !addthE -!blocksE; set t := odflt 0 th; set w := ff + fb *m x + ft *m t.
  rewrite TH -/t -/V (gen_tt SM Hft).
  have := gen_t T ff fb ft (gam k) (Gth k) (Gx k) x t; rewrite -/w TT => E.
  have -> : forall y, gam k + Gth k *m t + (Gx k)^T *m x + (Gu k)^T *m bu w + (Gv k)^T *m bv w + (y + (Vxt V)^T *m by_ w) =
    (gam k + Gth k *m t + (Gx k)^T *m x + ((Gu k)^T *m bu w + ((Gv k)^T *m bv w + (Vxt V)^T *m by_ w))) + y.
    by move=> y; mx_open F; ring.
  by rewrite E !mulmxDl; mx_open F; ring.
- move=> th lam [[[[x u] v] l'] s] /=; set t := odflt 0 th => [[hx hu hv hd hs]].
  have [El Es] := UQ th _ _ hs; rewrite -/t -/V in El.
  pose w := @col4 F nu nc m 1 u v l' (sol_x s).
  have E : w = ff + fb *m x + ft *m t.
    by apply: (gen_unique Hff Hfb Hft UM); apply/rows; rewrite bu4 bv4 bl4 by4.
  rewrite !addthE -!blocksE -/t -E bu4 bv4 bl4 by4; split; last by rewrite -Es.
  rewrite -hx; have := gen_x ff SM Hfb Hft (Qm k) (qv k) (Gx k) x t; rewrite -E BT bu4 bv4 bl4 => <-.
  by mx_open F; ring.
Qed.
Lemma dbackward_good n (c : knots F p n) : symmetric c -> terminal_dense c -> stages_unit c ->
  dgood (dstages junk stale mu c).
Proof.
elim: c => [n' nu nc m k|n' nu nc m k c IH] S T.
  by move=> _; exact: dgood_term.
move=> /= /andP [U U']; apply: dgood_stage => //.
by apply: IH => //; case: S.
Qed.

(** ** theorems *)
(** the initial stage is the one of the proximal solver *)
Lemma dinit n nc0 (c : knots F p n) (G0 : 'M[F]_(nc0, n)) g0 d : dbackward junk stale mu c G0 g0 = Some d ->
  (Vxx (dhead d.1))^T = Vxx (dhead d.1) -> kkt0_mat (dhead d.1) G0 \in unitmx ->
  d = (dstages junk stale mu c, factor_initial (dhead (dstages junk stale mu c)) G0 g0).
Proof.
case: c G0 d => [? ? ? ? k //|n' nu nc m k c] G0 d; rewrite /dbackward => -[<-] SV U.
congr (_, _); rewrite /factor_initial /chol_solve /dsolve.
have S : lower (kkt0_mat (dhead (dstages junk stale mu (Cons k c))) G0) = kkt0_mat (dhead (dstages junk stale mu (Cons k c))) G0.
  by apply: lower_sym; exact: kkt0_sym.
by move: U; rewrite [(_, _).1]/= => U; rewrite !S U.
Qed.
Lemma dbackward_some n nc0 (c : knots F p n) (G0 : 'M[F]_(nc0, n)) g0 d :
  dbackward junk stale mu c G0 g0 = Some d -> d.1 = dstages junk stale mu c.
Proof. by case: c G0 d => [? ? ? ? k //|n' nu nc m k c] G0 d; rewrite /dbackward => -[<-]. Qed.

(** C23: when the factorisations succeed the result is the solution of the KKT system (also when
    the parameter appears in the path constraints) and there is no other.  The terminal knot must
    have neither control nor path constraint, or no next state ([terminal_dense]). *)
Theorem C23_kkt_partial n nc0 (c : knots F p n) (G0 : 'M[F]_(nc0, n)) g0 d th :
  symmetric c -> terminal_dense c -> stages_unit c ->
  dbackward junk stale mu c G0 g0 = Some d -> kkt0_mat (dhead d.1) G0 \in unitmx ->
  kkt_system mu (odflt 0 th) G0 g0 (dforward d th) /\
  (forall r, kkt_system mu (odflt 0 th) G0 g0 r -> r = dforward d th).
Proof.
move=> S T U E U0; have Ed := dbackward_some E.
have [SV K _ UQ] := dbackward_good S T U; rewrite -Ed in SV K UQ.
have E' := dinit E SV U0.
have Ei : d.2 = factor_initial (dhead d.1) G0 g0 by rewrite E'.
rewrite /dforward Ei; split.
  have [h1 h2] := initial_ok g0 SV U0 th.
  split; rewrite [_.1]/= [_.2]/= ?sol_x_dforward //.
  by rewrite -h1; exact: K.
move=> [l s] [h1 h2]; rewrite /= in h1 h2.
have [El Es] := UQ th _ _ h1.
have := initial_unique (g0 := g0) SV U0 (th := th) (x := sol_x s) (l := l).
by move=> /(_ (esym El) h2) <- /=; rewrite -Es.
Qed.

(** the derivative of the Lagrangian in the parameter is what thGrad and thHess say plus the
    parts dropped at the stages *)
Theorem C23_parameter_exact n nc0 (c : knots F p n) (G0 : 'M[F]_(nc0, n)) g0 d th :
  symmetric c -> terminal_dense c -> stages_unit c ->
  dbackward junk stale mu c G0 g0 = Some d -> kkt0_mat (dhead d.1) G0 \in unitmx ->
  dtheta th (dforward d (Some th)).2 =
  (thGrad d.2 + (dropped d.1).1) + (thHess d.2 + (dropped d.1).2) *m th.
Proof.
move=> S T U E U0; have Ed := dbackward_some E.
have [SV _ TH _] := dbackward_good S T U; rewrite -Ed in SV TH.
have E' := dinit E SV U0.
have Ei : d.2 = factor_initial (dhead d.1) G0 g0 by rewrite E'.
rewrite /dforward Ei [_.2]/= (TH (Some th)) [odflt _ _]/=; set a := chol_solve _ _; set b := chol_solve _ _.
rewrite /computeInitial /= -/a -/b !mulmxDl ?mulmxDr ?mulmxA.
by mx_open F; ring.
Qed.

(** no parameter *)
Fixpoint no_param n (c : knots F p n) : Prop :=
  match c with
  | @Term _ _ n nu nc m k => [/\ Gth k = 0, Gx k = 0, Gu k = 0, Gv k = 0 & gam k = 0]
  | @Cons _ _ n nu nc m k c' => [/\ Gth k = 0, Gx k = 0, Gu k = 0, Gv k = 0 & gam k = 0] /\ no_param c'
  end.
Lemma no_param_zero n (c : knots F p n) : no_param c ->
  let V := dhead (dstages junk stale mu c) in
  [/\ Vxt V = 0, Vtt V = 0, vt V = 0 & dropped (dstages junk stale mu c) = (0, 0)].
Proof.
elim: c => [n' nu nc m k|n' nu nc m k c IH] /=.
  by move=> [-> -> -> -> ->]; split; rewrite ?trmx0 ?mulmx0 ?mul0mx ?addr0.
move=> [[-> -> -> -> ->] /IH /= [-> -> -> ->]].
by split; rewrite ?trmx0 ?mulmx0 ?mul0mx ?addr0.
Qed.
(** the statement on thGrad and thHess holds if the parameter appears at the first stage only *)
Theorem C23_parameter_partial n nu nc m nc0 (k : knot F p n nu nc m) (c : knots F p m) (G0 : 'M[F]_(nc0, n)) g0 d th :
  symmetric (Cons k c) -> terminal_dense c -> stages_unit (Cons k c) -> no_param c ->
  dbackward junk stale mu (Cons k c) G0 g0 = Some d -> kkt0_mat (dhead d.1) G0 \in unitmx ->
  dtheta th (dforward d (Some th)).2 = thGrad d.2 + thHess d.2 *m th.
Proof.
move=> S T U NP E U0; rewrite (C23_parameter_exact th S T U E U0) (dbackward_some E).
have [_ Z1 Z2 Z3] := no_param_zero NP.
have -> : dropped (dstages junk stale mu (Cons k c)) = (0, 0) by rewrite /= Z1 Z2 Z3 /= !addr0.
by rewrite /= !addr0.
Qed.

(** ** the same solution as the proximal solver *)
Lemma cols_eq a b (A B : 'M[F]_(a, b)) : (forall x : 'cV[F]_b, A *m x = B *m x) -> A = B.
Proof. by move=> H; apply/matrixP => i j; have := H (delta_mx j 0); rewrite -!colE => /matrixP /(_ i 0); rewrite !mxE. Qed.
Lemma heads_eq n (c : knots F p n) (ds : dfactors c) (ds' : factors c) : dgood ds -> good mu ds' ->
  [/\ Vxx (dhead ds) = Vxx (head_vm ds'), vx (dhead ds) = vx (head_vm ds') & Vxt (dhead ds) = Vxt (head_vm ds')].
Proof.
move=> [_ K _ _] [_ _ _ UQ].
have H th x : Vxx (dhead ds) *m x + vx (dhead ds) + Vxt (dhead ds) *m odflt 0 th =
  Vxx (head_vm ds') *m x + vx (head_vm ds') + Vxt (head_vm ds') *m odflt 0 th.
  by have [E _] := UQ th _ _ (K th x); move: E; rewrite /= sol_x_dforward.
have Ev : vx (dhead ds) = vx (head_vm ds').
  by have := H None 0; rewrite /= !mulmx0 !addr0 !add0r.
split=> //; apply: cols_eq => x.
  by have := H None x; rewrite /= !mulmx0 !addr0 Ev => /addIr.
by have := H (Some x) 0; rewrite /= !mulmx0 !add0r Ev => /addrI.
Qed.
(** the matrix of a stage is invertible when the condensed matrix in (u, v) is *)
Lemma stage_unit n nu nc m (k : knot F p n nu nc m) (V : ctg F p m) :
  kkt_mat mu (Rm k + (Bm k)^T *m Vxx V *m Bm k) (Dm k) \in unitmx -> stage_mat mu k V \in unitmx.
Proof.
move=> U; apply: unit_kernel => w E.
have : stage_mat mu k V *m w = col4 0 0 0 0 by rewrite E /col4 !col_mx0.
rewrite stage_mul => /col4_inj [h1 h2 h3 h4].
have ey : by_ w = Bm k *m bu w by apply/esym/eqP; rewrite -subr_eq0; apply/eqP.
have el : bl w = Vxx V *m by_ w by apply/esym/eqP; rewrite -subr_eq0; apply/eqP.
have Z : kkt_mat mu (Rm k + (Bm k)^T *m Vxx V *m Bm k) (Dm k) *m usubmx w = col_mx 0 0.
  apply/kkt_rows; rewrite -/(bu w) -/(bv w); split=> //.
  by rewrite -[RHS]h1 el ey mulmxDl !mulmxA addrAC.
have uw : usubmx w = 0 by rewrite -[LHS](mulKmx U) Z col_mx0 mulmx0.
have eu : bu w = 0 by rewrite /bu uw linear0.
rewrite -[w]col4K /bu /bv uw !linear0 el ey eu !mulmx0 /col4 !col_mx0 //.
Qed.
Lemma terminal_unit_dense n (c : knots F p n) : terminal_dense c -> terminal_unit mu c.
Proof.
elim: c => [n' nu nc m k|n' nu nc m k c IH] //= /orP [|/andP [] //].
rewrite addn_eq0 => /andP [/eqP e1 /eqP e2]; subst nu nc.
by apply: unit_kernel => x _; rewrite [LHS]flatmx0 [RHS]flatmx0.
Qed.
Lemma dense_from_prox n (c : knots F p n) ds : symmetric c -> no_gv c -> terminal_dense c ->
  backwardImpl mu c = Some ds -> stages_unit c.
Proof.
elim: c ds => [n' nu nc m k|n' nu nc m k c IH] ds // S G T; rewrite [backwardImpl _ _]/=.
case E : (backwardImpl mu c) => [ds'|//].
case E2 : (stageKernelSolve mu k (head_vm ds')) => [[d vn]|//] _.
have Sc : symmetric c by case: S.
have Gc : no_gv c by case: G.
have U := IH _ Sc Gc T E.
rewrite /= U andbT.
have gd := dbackward_good Sc T U.
have gp := backward_good Sc Gc (terminal_unit_dense T) E.
have [EV _ _] := heads_eq gd gp.
have SV : (Vxx (head_vm ds'))^T = Vxx (head_vm ds') by case: gp.
apply: stage_unit; rewrite EV.
move: E2; rewrite /stageKernelSolve sym_vm_id //; case: ifPn => // /negPn.
rewrite lower_sym // kkt_mat_sym //.
by case: S => [[_ SR] _]; rewrite linearD /= SR !trmx_mul trmxK SV mulmxA.
Qed.
(** C23: on every problem which the proximal solver solves (terminal knot as above) the dense
    solver succeeds and returns the same trajectory. *)
Theorem C23_agrees_partial n nu nc m nc0 (k : knot F p n nu nc m) (c' : knots F p m) (G0 : 'M[F]_(nc0, n)) g0 d' :
  let c := Cons k c' in
  symmetric c -> no_gv c -> terminal_dense c ->
  backward mu c G0 g0 = Some d' -> kkt0_mat (head_vm d'.1) G0 \in unitmx ->
  exists d, dbackward junk stale mu c G0 g0 = Some d /\ forall th, dforward d th = forward d' th.
Proof.
move=> c S G T E U0.
move: (E); rewrite {1}/backward; case E1 : (backwardImpl mu c) => [ds|//] [Ed].
have U := dense_from_prox S G T E1.
have gd := dbackward_good S T U.
have gp := backward_good S G (terminal_unit_dense T) E1.
have [EV _ _] := heads_eq gd gp.
case Eb : (dbackward junk stale mu c G0 g0) => [d|//]; exists d; split=> // th.
have [_ UQ] := forward_kkt th S G (terminal_unit_dense T) E U0.
have U1 : kkt0_mat (dhead d.1) G0 \in unitmx.
  by rewrite (dbackward_some Eb) /kkt0_mat EV; move: U0; rewrite -Ed.
by apply: UQ; have [] := C23_kkt_partial th S T U Eb U1.
Qed.

(** The terminal matrix is never invertible when the terminal knot has a next state. *)
Theorem C23_terminal_singular n nu nc m (k : knot F p n nu nc m) : (0 < m)%N -> terminal_mat mu k \notin unitmx.
Proof.
case: m k => // m k _; apply/negP => U.
have E : terminal_mat mu k *m col_mx 0 (const_mx 1 : 'cV_(m.+1 + m.+1)) = 0.
  by rewrite /terminal_mat mul_block_col !mulmx0 !mul0mx !addr0 col_mx0.
have := mulKmx U (col_mx 0 (const_mx 1 : 'cV_(m.+1 + m.+1))).
rewrite E mulmx0 => /esym/eqP; rewrite col_mx_eq0 => /andP [_ /eqP /matrixP /(_ 0 0)].
by rewrite !mxE => /eqP; rewrite oner_eq0.
Qed.
End Proofs.

(** ** Refutations *)
Section Bad.
Notation QF := rat_fieldType.
Definition no_junk n k (_ : 'M[rat]_n) (_ : 'M[rat]_(n, k)) : 'M[rat]_(n, k) := 0.
Definition no_stale n k : 'M[rat]_(n, k) := 0.
(** x1 = x0 and the cost gamma^T theta of the terminal knot: the derivative of the value is 1 but
    thGrad and thHess are 0 *)
Definition g0k : knot QF 1 1 0 0 1 := Knot 0 0 0 0 0 1%:M 0 0 0 0 0 0 0 0 0 0.
Definition g1k : knot QF 1 1 0 0 0 := Knot 0 0 0 0 0 0 0 0 0 0 0 0 0 0 0 (const_mx 1).
Definition gprob : knots QF 1 1 := Cons g0k (Term g1k).
Lemma e0 a b (A : 'M[rat]_(a, 0)) (B : 'M[rat]_(0, b)) : A *m B = 0. Proof. by rewrite [A]thinmx0 mul0mx. Qed.
Theorem C23_parameter_refuted : exists (c : knots QF 1 1) mu (G0 : 'M[rat]_1) g0 d th,
  [/\ symmetric c /\ no_gv c, terminal_dense mu c, stages_unit (F := QF) mu no_junk no_stale c,
      dbackward (F := QF) no_junk no_stale mu c G0 g0 = Some d &
      kkt0_mat (dhead d.1) G0 \in unitmx /\
      dtheta th (dforward d (Some th)).2 <> thGrad d.2 + thHess d.2 *m th].
Proof.
exists gprob, 1, 1%:M, 0.
case E : (dbackward _ _ _ _ _ _) => [d|//]; exists d, 0.
have S : symmetric gprob by rewrite /= !trmx0.
have T : terminal_dense 1 gprob by [].
have EV : Vxx (dhead (dstages (F := QF) no_junk no_stale 1 (Term g1k))) = 0 by rewrite /= !e0 !addr0.
have U : stages_unit (F := QF) 1 no_junk no_stale gprob.
  rewrite [stages_unit _ _ _ _]/= andbT; apply: unit_kernel => w E0.
  have : stage_mat 1 g0k (dhead (dstages (F := QF) no_junk no_stale 1 (Term g1k))) *m w = col4 0 0 0 0 by rewrite E0 /col4 !col_mx0.
  rewrite stage_mul EV => /col4_inj [_ _ h3 h4].
  rewrite mul0mx sub0r in h4; rewrite e0 sub0r in h3.
  move/eqP: h3; rewrite oppr_eq0 => /eqP h3; move/eqP: h4; rewrite oppr_eq0 => /eqP h4.
  by rewrite -[w]col4K h3 h4 [bu w]flatmx0 [bv w]flatmx0 /col4 !col_mx0.
have U0 : kkt0_mat (dhead d.1) (1%:M : 'M_1) \in unitmx.
  by apply: (kkt0_unit (R := rat_realFieldType)); rewrite unitmx1.
split=> //; split=> //.
rewrite (C23_parameter_exact 0 S T U E U0) !mulmx0 !addr0 => /eqP.
rewrite -subr_eq0 addrC addKr (dbackward_some E) /= !e0 !addr0 => /eqP /matrixP /(_ 0 0).
by rewrite !mxE.
Qed.

(** a terminal control when the terminal knot has nx2 > 0: the terminal factorisation fails, and
    the solve after it returns 0 on this matrix (P_bk.C30_after_failure) *)
Definition t0k : knot QF 0 1 0 0 1 := Knot 0 0 0 0 0 1%:M 0 0 0 0 0 0 0 0 0 0.
Definition t1k : knot QF 0 1 1 0 1 := Knot 0 0 1%:M 0 (const_mx 1) 0 0 0 0 0 0 0 0 0 0 0.
Definition tprob : knots QF 0 1 := Cons t0k (Term t1k).
Lemma bad_term lam x : ~ kkt 1 0 lam (dforward_from (c := Term t1k) None (dterminal (F := QF) no_junk no_stale 1 t1k) x).
Proof.
have Z k (b : 'M[rat]_(_, k)) : dsolve (F := QF) no_junk (terminal_mat 1 t1k) b = 0.
  rewrite /dsolve lower_sym; last by rewrite /terminal_mat tr_block_mx kkt_mat_sym ?trmx1 // !trmx0.
  by rewrite (negbTE (C23_terminal_singular _ _ _)).
rewrite /= !Z => -[_ h _]; move: h; rewrite /bu /bv !linear0 ?(mul0mx, addr0, mulmx0, trmx0, add0r).
by move=> /matrixP /(_ 0 0); rewrite !mxE.
Qed.
Theorem C23_terminal_refuted : exists (c : knots QF 0 1) mu (G0 : 'M[rat]_1) g0 d d',
  [/\ symmetric c, backward mu c G0 g0 = Some d', kkt_system mu 0 G0 g0 (forward d' None),
      dbackward (F := QF) no_junk no_stale mu c G0 g0 = Some d &
      ~ kkt_system mu 0 G0 g0 (dforward d None)].
Proof.
have P1 : pd (R := rat_realFieldType) (1%:M : 'M[rat]_1).
  move=> x x0; rewrite /qform mul1mx Order.POrderTheory.lt_neqAle dot_pos andbT eq_sym.
  by apply/eqP => /dot_eq0 E; rewrite E eqxx in x0.
have S : symmetric tprob by rewrite /= !trmx0 trmx1.
have T : terminal_unit 1 tprob by apply: (kkt_unit (R := rat_realFieldType)).
exists tprob, 1, 1%:M, 0.
case E : (dbackward _ _ _ _ _ _) => [d|//]; exists d.
case E' : (backward 1 tprob 1%:M 0) => [d'|]; last first.
  move: E'; rewrite /backward [backwardImpl _ _]/=.
  rewrite /stageKernelSolve; case: ifPn => // H.
  exfalso; move: H => /negP; apply; apply: unit_kernel => x _; by rewrite [x]flatmx0.
exists d'; split=> //.
  have U0 : kkt0_mat (head_vm d'.1) (1%:M : 'M_1) \in unitmx.
    by apply: (kkt0_unit (R := rat_realFieldType)); rewrite unitmx1.
  by have [] := C21_kkt S T E' U0.
move=> [K _]; move: K; rewrite /dforward (dbackward_some E) => -[_ _ _ _ h]; exact: bad_term h.
Qed.
End Bad.

(** ** Witness: the problem of P_riccati, with controls, a path constraint and a parameter *)
Example C23_witness (junk : forall n k, 'M[rat]_n -> 'M[rat]_(n, k) -> 'M[rat]_(n, k)) stale : exists d,
  [/\ symmetric (wit 1), no_gv (wit 1), terminal_dense 1 (wit 1),
      dbackward (F := rat_fieldType) junk stale 1 (wit 1) (- 1%:M) (const_mx 5%:Q) = Some d &
      sol_x (dforward d (Some (const_mx 1))).2 = const_mx 5%:Q].
Proof.
have [U [ds [E SV PV]]] := convex_backward (mu := 1 : rat_realFieldType) Num.Theory.ltr01 (wit_convex 1) (wit_gv 1).
have UG : (- 1%:M : 'M[rat]_2) \in unitmx by rewrite -scaleN1r unitmxZ ?unitmx1 // unitrN unitr1.
pose d := (ds, factor_initial (head_vm ds) (- 1%:M) (const_mx 5%:Q)).
have EB : backward 1 (wit 1) (- 1%:M) (const_mx 5%:Q) = Some d by rewrite /backward E.
have S := convex_symmetric (wit_convex 1).
have U0 := kkt0_unit (head_vm ds) UG.
have T : terminal_dense 1 (wit 1) by [].
have [d2 [E2 A]] := C23_agrees_partial junk stale S (wit_gv 1) T EB U0.
exists d2; split=> //; rewrite A.
have [[_ h] _ _] := C22_parametric_partial (const_mx 1) S (wit_gv 1) U EB U0.
by move: h; rewrite mulNmx mul1mx addrC => /eqP; rewrite subr_eq0 => /eqP <-.
Qed.

Print Assumptions C23_kkt_partial.
Print Assumptions C23_agrees_partial.
Print Assumptions C23_parameter_exact.
Print Assumptions C23_parameter_partial.
Print Assumptions C23_parameter_refuted.
Print Assumptions C23_terminal_singular.
Print Assumptions C23_terminal_refuted.
Print Assumptions C23_witness.
