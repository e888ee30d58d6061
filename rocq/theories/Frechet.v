(** Derivatives of vector functions over an ordered field (epsilon-delta). *)
From mathcomp Require Import all_ssreflect all_algebra.
Set Implicit Arguments. Unset Strict Implicit. Unset Printing Implicit Defensive.
Import Order.TTheory GRing.Theory Num.Theory.
Local Open Scope ring_scope.

Section S.
Variable R : realFieldType.
Implicit Types (n m p q : nat).

(** ** Specification *)
(** 1-norm of a vector *)
Definition vnorm n (x : 'cV[R]_n) : R := \sum_i `|x i 0|.
(** [A] is the derivative of [f] at [x] *)
Definition frechet n m (f : 'cV[R]_n -> 'cV[R]_m) (x : 'cV[R]_n) (A : 'M[R]_(m,n)) : Prop :=
  forall e, 0 < e -> exists d, 0 < d /\
    forall h, vnorm h < d -> vnorm (f (x + h) - f x - A *m h) <= e * vnorm h.

(** ** Norm *)
Lemma vnorm_ge0 n (x : 'cV[R]_n) : 0 <= vnorm x.
Proof. by apply: sumr_ge0 => i _; apply: normr_ge0. Qed.
Lemma vnorm0 n : vnorm (0 : 'cV[R]_n) = 0.
Proof. by rewrite /vnorm big1 // => i _; rewrite mxE normr0. Qed.
Lemma vnormD n (x y : 'cV[R]_n) : vnorm (x + y) <= vnorm x + vnorm y.
Proof.
rewrite /vnorm -big_split /=; apply: ler_sum => i _; rewrite mxE; exact: ler_norm_add.
Qed.
Lemma vnormZ n a (x : 'cV[R]_n) : vnorm (a *: x) = `|a| * vnorm x.
Proof. by rewrite /vnorm mulr_sumr; apply: eq_bigr => i _; rewrite mxE normrM. Qed.
Lemma vnormN n (x : 'cV[R]_n) : vnorm (- x) = vnorm x.
Proof. by rewrite /vnorm; apply: eq_bigr => i _; rewrite mxE normrN. Qed.
Lemma vnorm_eq0 n (x : 'cV[R]_n) : vnorm x = 0 -> x = 0.
Proof.
move=> H; apply/colP => i; rewrite mxE.
have := @psumr_eq0P R _ predT (fun i => `|x i 0|) (fun i _ => normr_ge0 _) H i isT.
by move/normr0P/eqP.
Qed.
Definition mnorm m n (A : 'M[R]_(m,n)) : R := \sum_i \sum_j `|A i j|.
Lemma mnorm_ge0 m n (A : 'M[R]_(m,n)) : 0 <= mnorm A.
Proof. by apply: sumr_ge0 => i _; apply: sumr_ge0 => j _; apply: normr_ge0. Qed.
Lemma vnorm_mul m n (A : 'M[R]_(m,n)) (x : 'cV[R]_n) : vnorm (A *m x) <= mnorm A * vnorm x.
Proof.
rewrite /vnorm /mnorm mulr_suml; apply: ler_sum => i _; rewrite mxE.
apply: le_trans (ler_norm_sum _ _ _) _; rewrite mulr_suml; apply: ler_sum => j _.
rewrite normrM; apply: ler_wpmul2l; first exact: normr_ge0.
rewrite (bigD1 j) //= ler_addl; apply: sumr_ge0 => k _; exact: normr_ge0.
Qed.

(** ** Rules *)
Lemma frechet_ext n m (f g : 'cV[R]_n -> 'cV[R]_m) x A :
  (forall z, f z = g z) -> frechet f x A -> frechet g x A.
Proof. by move=> E H e e0; case: (H e e0) => d [d0 Hd]; exists d; split=> // h hd; rewrite -!E; exact: Hd. Qed.
Lemma frechet_aff n m (A : 'M[R]_(m,n)) c x : frechet (fun z => A *m z + c) x A.
Proof.
move=> e e0; exists 1; split; first exact: ltr01; move=> h _.
have -> : A *m (x + h) + c - (A *m x + c) - A *m h = 0.
  rewrite mulmxDr; set a := A *m x; set b := A *m h.
  by rewrite (addrAC a) [_ + b - _]addrAC subrr add0r subrr.
by rewrite vnorm0; apply: mulr_ge0; [exact: ltW|exact: vnorm_ge0].
Qed.
Lemma frechet_lin n m (A : 'M[R]_(m,n)) x : frechet (mulmx A) x A.
Proof. by apply: frechet_ext (frechet_aff A 0 x) => z; rewrite addr0. Qed.
Lemma half0 (e : R) : 0 < e -> 0 < e / 2%:R.
Proof. by move=> e0; apply: divr_gt0 => //; rewrite ltr0n. Qed.
Lemma half_add (e : R) : e / 2%:R + e / 2%:R = e.
Proof. by rewrite -mulr2n -mulr_natr -mulrA mulVf ?mulr1 // pnatr_eq0. Qed.
Lemma frechet_add n m (f g : 'cV[R]_n -> 'cV[R]_m) x A B :
  frechet f x A -> frechet g x B -> frechet (fun z => f z + g z) x (A + B).
Proof.
move=> Hf Hg e e0; case: (Hf _ (half0 e0)) => d1 [d10 H1]; case: (Hg _ (half0 e0)) => d2 [d20 H2].
exists (Num.min d1 d2); split; first by rewrite lt_minr d10 d20.
move=> h; rewrite lt_minr => /andP [h1 h2].
have -> : f (x + h) + g (x + h) - (f x + g x) - (A + B) *m h =
          (f (x + h) - f x - A *m h) + (g (x + h) - g x - B *m h).
  by rewrite mulmxDl !opprD addrACA [in RHS]addrACA; congr (_ + _); rewrite addrACA.
apply: le_trans (vnormD _ _) _.
have -> : e * vnorm h = e / 2%:R * vnorm h + e / 2%:R * vnorm h by rewrite -mulrDl half_add.
by apply: ler_add; [exact: H1|exact: H2].
Qed.
Lemma frechet_comp n m p (f : 'cV[R]_n -> 'cV[R]_m) (g : 'cV[R]_m -> 'cV[R]_p) x A B :
  frechet f x A -> frechet g (f x) B -> frechet (fun z => g (f z)) x (B *m A).
Proof.
move=> Hf Hg e e0.
set CA := mnorm A + 1; set CB := mnorm B + 1.
have CA0 : 0 < CA by apply: ltr_spaddr; [exact: ltr01|exact: mnorm_ge0].
have CB0 : 0 < CB by apply: ltr_spaddr; [exact: ltr01|exact: mnorm_ge0].
have e1 : 0 < e / 2%:R / CB by apply: divr_gt0 => //; exact: half0.
have e2 : 0 < e / 2%:R / CA by apply: divr_gt0 => //; exact: half0.
case: (Hf _ e1) => d1 [d10 H1]; case: (Hf _ ltr01) => d2 [d20 H2]; case: (Hg _ e2) => d3 [d30 H3].
exists (Num.min (Num.min d1 d2) (d3 / CA)); split.
  by rewrite !lt_minr d10 d20 divr_gt0.
move=> h; rewrite !lt_minr => /andP [/andP [h1 h2] h3].
set k := f (x + h) - f x.
have Hk : vnorm k <= CA * vnorm h.
  have -> : k = (k - A *m h) + A *m h by rewrite subrK.
  apply: le_trans (vnormD _ _) _; rewrite /CA mulrDl addrC; apply: ler_add; first exact: vnorm_mul.
  exact: H2.
have Ek : f (x + h) = f x + k by rewrite /k [RHS]addrC subrK.
have -> : g (f (x + h)) - g (f x) - B *m A *m h =
          (g (f x + k) - g (f x) - B *m k) + B *m (k - A *m h).
  by rewrite Ek [B *m (_ - A *m h)]mulmxBr mulmxA [RHS]addrA subrK.
apply: le_trans (vnormD _ _) _.
have -> : e * vnorm h = e / 2%:R * vnorm h + e / 2%:R * vnorm h by rewrite -mulrDl half_add.
apply: ler_add.
- apply: le_trans (H3 k _) _.
    by apply: le_lt_trans Hk _; rewrite mulrC -ltr_pdivl_mulr.
  apply: le_trans (ler_wpmul2l (ltW e2) Hk) _.
  by rewrite mulrA divfK // gt_eqF.
- apply: le_trans (vnorm_mul _ _) _.
  apply: le_trans (ler_wpmul2l (mnorm_ge0 _) (H1 h h1)) _.
  rewrite mulrA; apply: ler_wpmul2r; first exact: vnorm_ge0.
  apply: (@le_trans _ _ (CB * (e / 2%:R / CB))).
    by apply: ler_wpmul2r; [exact: ltW|rewrite ler_addl ler01].
  by rewrite mulrC divfK // gt_eqF.
Qed.
Lemma frechet_scale n m a (f : 'cV[R]_n -> 'cV[R]_m) x A :
  frechet f x A -> frechet (fun z => a *: f z) x (a *: A).
Proof.
move=> Hf; have H := frechet_comp Hf (frechet_lin (a%:M) (f x)).
by rewrite mul_scalar_mx in H; apply: frechet_ext H => z; rewrite mul_scalar_mx.
Qed.
Lemma frechet_id n (x : 'cV[R]_n) : frechet id x 1%:M.
Proof. by apply: frechet_ext (frechet_lin 1%:M x) => z; rewrite mul1mx. Qed.
Lemma frechet_up n m (x : 'cV[R]_(n + m)) : frechet (@usubmx R n m 1) x (row_mx 1%:M 0).
Proof.
apply: frechet_ext (frechet_lin _ x) => z.
by rewrite -{1}(vsubmxK z) mul_row_col mul1mx mul0mx addr0.
Qed.
Lemma frechet_down n m (x : 'cV[R]_(n + m)) : frechet (@dsubmx R n m 1) x (row_mx 0 1%:M).
Proof.
apply: frechet_ext (frechet_lin _ x) => z.
by rewrite -{1}(vsubmxK z) mul_row_col mul1mx mul0mx add0r.
Qed.
Lemma frechet_col n m p (f : 'cV[R]_n -> 'cV[R]_m) (g : 'cV[R]_n -> 'cV[R]_p) x A B :
  frechet f x A -> frechet g x B -> frechet (fun z => col_mx (f z) (g z)) x (col_mx A B).
Proof.
move=> Hf Hg.
have H1 := frechet_comp Hf (frechet_lin (col_mx 1%:M 0 : 'M_(m + p, m)) (f x)).
have H2 := frechet_comp Hg (frechet_lin (col_mx 0 1%:M : 'M_(m + p, p)) (g x)).
have H := frechet_add H1 H2.
rewrite !mul_col_mx !mul1mx !mul0mx add_col_mx addr0 add0r in H.
by apply: frechet_ext H => z; rewrite !mul_col_mx !mul1mx !mul0mx add_col_mx addr0 add0r.
Qed.
(** the derivative is unique *)
Lemma frechet_uniq n m (f : 'cV[R]_n -> 'cV[R]_m) x A B : frechet f x A -> frechet f x B -> A = B.
Proof.
move=> HA HB; apply/eqP; rewrite -subr_eq0; apply/eqP.
suff H : forall h : 'cV[R]_n, (A - B) *m h = 0.
  by apply/matrixP => i j; have := congr1 (fun v : 'cV_m => v i 0) (H (delta_mx j 0)); rewrite -colE !mxE.
move=> h; apply: vnorm_eq0; apply/eqP; rewrite eq_le vnorm_ge0 andbT.
have [->|hN] := eqVneq h 0; first by rewrite mulmx0 vnorm0.
have h0 : 0 < vnorm h.
  by rewrite lt_def vnorm_ge0 andbT; apply/eqP => /vnorm_eq0 E; rewrite E eqxx in hN.
apply/ler_addgt0Pr => e e0; rewrite add0r.
have e1 : 0 < e / 2%:R / vnorm h by apply: divr_gt0 => //; exact: half0.
case: (HA _ e1) => d1 [d10 H1]; case: (HB _ e1) => d2 [d20 H2].
set d := Num.min d1 d2; have d0 : 0 < d by rewrite lt_minr d10.
set t := d / (2%:R * vnorm h).
have t0 : 0 < t by apply: divr_gt0 => //; apply: mulr_gt0 => //; rewrite ltr0n.
have th : vnorm (t *: h) < d.
  rewrite vnormZ gtr0_norm // /t invfM mulrA mulfVK ?gt_eqF //.
  by rewrite ltr_pdivr_mulr ?ltr0n // ltr_pmulr // ltr1n.
have E : t *: ((A - B) *m h) = (f (x + t *: h) - f x - B *m (t *: h)) - (f (x + t *: h) - f x - A *m (t *: h)).
  by rewrite -scalemxAr mulmxBl scalerBr opprB -!scalemxAr [RHS]addrC addrA subrK.
rewrite -(@ler_pmul2l _ t) //.
have -> : t * vnorm ((A - B) *m h) = vnorm (t *: ((A - B) *m h)) by rewrite vnormZ gtr0_norm.
rewrite E; apply: le_trans (vnormD _ _) _; rewrite vnormN.
have Et : e / 2%:R / vnorm h * vnorm (t *: h) = t * (e / 2%:R).
  by rewrite vnormZ gtr0_norm // [t * vnorm h]mulrC mulrA divfK ?gt_eqF // [LHS]mulrC.
have th1 : vnorm (t *: h) < d1 by apply: lt_le_trans th _; rewrite le_minl lexx.
have th2 : vnorm (t *: h) < d2 by apply: lt_le_trans th _; rewrite le_minl lexx orbT.
have {}H1 := H1 _ th1; have {}H2 := H2 _ th2; rewrite Et in H1 H2.
by apply: le_trans (ler_add H2 H1) _; rewrite -mulrDr half_add.
Qed.
End S.
