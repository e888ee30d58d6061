(** C21, C22: only the lower triangles of the Hessian blocks are read. *)
From mathcomp Require Import all_ssreflect all_algebra.
From Verif Require Import RiccatiModel RiccatiProofs RiccatiValue P_riccati.
Set Implicit Arguments.
Unset Strict Implicit.
Import Order.Theory GRing.Theory Num.Theory.
Local Open Scope ring_scope.

Section Lower.
Variables (F : fieldType) (p : nat).

(** ** Specification *)
(** the symmetric matrix with the lower triangle of M *)
Definition sym_of n (M : 'M[F]_n) : 'M[F]_n := \matrix_(i, j) (if (i < j)%N then M j i else M i j).
Definition sym_knot n nu nc m (k : knot F p n nu nc m) : knot F p n nu nc m :=
  Knot (sym_of (Qm k)) (Sm k) (sym_of (Rm k)) (qv k) (rv k) (Am k) (Bm k) (fv k) (Cm k) (Dm k) (dv k)
       (Gth k) (Gx k) (Gu k) (Gv k) (gam k).
(** the problem with the symmetric matrices *)
Fixpoint sym_knots n (c : knots F p n) : knots F p n :=
  match c with
  | @Term _ _ n nu nc m k => Term (sym_knot k)
  | @Cons _ _ n nu nc m k c' => Cons (sym_knot k) (sym_knots c')
  end.
(** a trajectory of the one problem is a trajectory of the other *)
Fixpoint same_traj n (c : knots F p n) : sol c -> sol (sym_knots c) :=
  match c return sol c -> sol (sym_knots c) with
  | @Term _ _ n nu nc m k => fun s => s
  | @Cons _ _ n nu nc m k c' => fun s => (s.1, same_traj s.2)
  end.

(** ** Proofs *)
Lemma lowerE n (M : 'M[F]_n) : lower M = sym_of M.
Proof. by apply/matrixP=> i j; rewrite !mxE ltnNge; case: (j <= i)%N. Qed.
Lemma sym_ofT n (M : 'M[F]_n) : (sym_of M)^T = sym_of M.
Proof. by apply/matrixP=> i j; rewrite !mxE; case: ltngtP => // /val_inj ->. Qed.
Lemma sym_of_id n (M : 'M[F]_n) : M^T = M -> sym_of M = M.
Proof. by move=> H; apply/matrixP=> i j; rewrite !mxE; case: ifP => // _; rewrite -[in LHS]H mxE. Qed.
Lemma sym_of2 n (M : 'M[F]_n) : sym_of (sym_of M) = sym_of M.
Proof. exact/sym_of_id/sym_ofT. Qed.
Lemma sym_ofL n (M : 'M[F]_n) (i j : 'I_n) : (j <= i)%N -> sym_of M i j = M i j.
Proof. by move=> H; rewrite mxE ltnNge H. Qed.
Lemma sym_of_ext n (M N : 'M[F]_n) : (forall i j : 'I_n, (j <= i)%N -> M i j = N i j) -> sym_of M = sym_of N.
Proof. by move=> H; apply/matrixP=> i j; rewrite !mxE; case: ltnP => [/ltnW|] /H. Qed.
Lemma sym_ofD n (M N : 'M[F]_n) : sym_of (sym_of M + N) = sym_of (M + N).
Proof. by apply: sym_of_ext => i j L; rewrite 2!mxE [RHS]mxE ltnNge L. Qed.
Lemma sym_block a b (M : 'M[F]_a) (D : 'M[F]_(b, a)) (N : 'M[F]_b) X :
  sym_of (block_mx (sym_of M) X D N) = sym_of (block_mx M X D N).
Proof.
apply: sym_of_ext => i j; case: (split_ordP i) => i' ->; case: (split_ordP j) => j' -> L.
- by rewrite !block_mxEul sym_ofL.
- by rewrite !block_mxEur.
- by rewrite !block_mxEdl.
- by rewrite !block_mxEdr.
Qed.
Lemma sym_kkt mu nu nc (M : 'M[F]_nu) (D : 'M[F]_(nc, nu)) (N : 'M[F]_nu) :
  lower (kkt_mat mu (sym_of M + N) D) = lower (kkt_mat mu (M + N) D).
Proof. by rewrite !lowerE /kkt_mat -sym_block sym_ofD sym_block. Qed.

(** factorisations of the two problems *)
Fixpoint same_fac n (c : knots F p n) : factors c -> factors (sym_knots c) :=
  match c return factors c -> factors (sym_knots c) with
  | @Term _ _ n nu nc m k => fun s => s
  | @Cons _ _ n nu nc m k c' => fun s => (s.1, same_fac s.2)
  end.
Definition sym_head n (c : knots F p n) (ds : factors c) : factors c := set_head_vm ds (sym_vm (head_vm ds)).
Lemma head_same n (c : knots F p n) (ds : factors c) : head_vm (same_fac ds) = head_vm ds.
Proof. by case: c ds. Qed.
Lemma head_set n (c : knots F p n) (ds : factors c) v : head_vm (set_head_vm ds v) = v.
Proof. by case: c ds v. Qed.
Lemma sym_vm2 n (v : ctg F p n) : sym_vm (sym_vm v) = sym_vm v.
Proof. by rewrite /sym_vm /= !lowerE sym_of2. Qed.

Lemma term_same mu n nu nc m (k : knot F p n nu nc m) :
  sym_head (c := Term (sym_knot k)) (terminalSolve mu (sym_knot k)) = sym_head (c := Term k) (terminalSolve mu k).
Proof.
have G : terminal_gains mu (sym_knot k) = terminal_gains mu k.
  rewrite /terminal_gains /=; case: (nu == 0%N) => //.
  have E : forall q (b : 'M[F]_(_, q)), chol_solve (kkt_mat mu (sym_of (Rm k)) (Dm k)) b = chol_solve (kkt_mat mu (Rm k) (Dm k)) b.
    by move=> q b; rewrite /chol_solve -[sym_of _]addr0 sym_kkt addr0.
  by rewrite !E.
rewrite /sym_head /= /set_vm /sym_vm /= /terminalSolve /= G /=; congr Factor.
by rewrite !lowerE -!addrA sym_ofD.
Qed.
Lemma stage_same mu n nu nc m (k : knot F p n nu nc m) v v' :
  sym_vm v = sym_vm v' ->
  match stageKernelSolve mu k v, stageKernelSolve mu (sym_knot k) v' with
  | Some (d, vn), Some (d', vn') => set_vm d (sym_vm (vm d)) = set_vm d' (sym_vm (vm d')) /\ vn = sym_vm v /\ vn' = sym_vm v
  | None, None => True
  | _, _ => False
  end.
Proof.
move=> E; rewrite /stageKernelSolve -E /= sym_kkt; case: ifP => // U.
rewrite /set_vm /=; split=> //; congr Factor.
by rewrite /sym_vm /= !lowerE -!addrA sym_ofD.
Qed.
Definition agree n (c : knots F p n) (ds : factors c) (ds' : factors (sym_knots c)) : Prop :=
  same_fac (sym_head ds) = sym_head ds'.
Lemma back_same mu n (c : knots F p n) :
  match backwardImpl mu c, backwardImpl mu (sym_knots c) with
  | Some ds, Some ds' => agree ds ds'
  | None, None => True
  | _, _ => False
  end.
Proof.
elim: c => [n' nu nc m k|n' nu nc m k c IH].
  exact/esym/(term_same mu k).
rewrite [backwardImpl mu (Cons _ _)]/= [sym_knots _]/= [backwardImpl mu (Cons (sym_knot k) _)]/=.
case: (backwardImpl mu c) IH => [ds|]; case: (backwardImpl mu (sym_knots c)) => [ds'|] // IH.
have E : sym_vm (head_vm ds) = sym_vm (head_vm ds').
  have := congr1 (@head_vm _ _ _ _) IH; rewrite head_same !head_set; exact.
move: (stage_same mu k E).
case: (stageKernelSolve mu k _) => [[d vn]|]; case: (stageKernelSolve mu (sym_knot k) _) => [[d' vn']|] //.
move=> [Ed [-> ->]]; rewrite /agree /sym_head /= Ed; congr pair.
by rewrite {2}E; exact: IH.
Qed.
Lemma agree_head n (c : knots F p n) ds ds' : agree (c := c) ds ds' -> sym_vm (head_vm ds) = sym_vm (head_vm ds').
Proof. by move=> /(congr1 (@head_vm _ _ _ _)); rewrite head_same !head_set. Qed.
Lemma init_same n nc0 (v v' : ctg F p n) (G0 : 'M[F]_(nc0, n)) g0 : sym_vm v = sym_vm v' ->
  factor_initial v G0 g0 = factor_initial v' G0 g0.
Proof.
move=> E.
have H : forall w : ctg F p n, factor_initial w G0 g0 = factor_initial (sym_vm w) G0 g0.
  move=> w; have K q (b : 'M[F]_(_, q)) : chol_solve (kkt0_mat w G0) b = chol_solve (kkt0_mat (sym_vm w) G0) b.
    by rewrite /chol_solve /kkt0_mat /= !lowerE sym_block.
  by rewrite /factor_initial !K.
by rewrite H E -H.
Qed.
Lemma fwd_head n (c : knots F p n) th (ds : factors c) v x : forwardImpl th (set_head_vm ds v) x = forwardImpl th ds x.
Proof. by case: c ds v x. Qed.
Lemma fwd_same n (c : knots F p n) th (ds : factors c) x :
  forwardImpl th (same_fac ds) x = same_traj (forwardImpl th ds x).
Proof. by elim: c ds x => [//|n' nu nc m k c IH] ds x /=; rewrite head_same IH. Qed.
Lemma sym_knots_symmetric n (c : knots F p n) : symmetric (sym_knots c).
Proof. by elim: c => [n' nu nc m k|n' nu nc m k c IH] /=; rewrite !sym_ofT. Qed.

(** C21, C22: on any problem the solver does on the given matrices what it does on the
    symmetric ones with the same lower triangles; the exception is the same. *)
Theorem C21_lower n nc0 mu (c : knots F p n) (G0 : 'M[F]_(nc0, n)) g0 :
  match backward mu c G0 g0, backward mu (sym_knots c) G0 g0 with
  | Some d, Some d' => d.2 = d'.2 /\ forall th, (forward d' th).1 = (forward d th).1 /\ (forward d' th).2 = same_traj (forward d th).2
  | None, None => True
  | _, _ => False
  end.
Proof.
rewrite /backward; move: (back_same mu c).
case: (backwardImpl mu c) => [ds|]; case: (backwardImpl mu (sym_knots c)) => [ds'|] // A.
rewrite (init_same G0 g0 (agree_head A)); move: (factor_initial _ _ _) => i.
split=> // th; rewrite /forward /=; split=> //; move: (_ (usubmx _) _ _) => x.
by rewrite -fwd_same -[in LHS](fwd_head th ds' (sym_vm (head_vm ds'))) -[set_head_vm _ _]/(sym_head ds') -A fwd_same fwd_head fwd_same.
Qed.
Lemma no_gv_sym n (c : knots F p n) : no_gv (sym_knots c) <-> no_gv c.
Proof. by elim: c => [//|n' nu nc m k c IH] /=; split=> -[? /IH]. Qed.
(** so the KKT system is solved with the lower triangles, without supposing symmetry *)
Theorem C21_lower_kkt n nc0 mu (c : knots F p n) (G0 : 'M[F]_(nc0, n)) g0 d th :
  no_gv c -> terminal_unit mu (sym_knots c) -> backward mu c G0 g0 = Some d ->
  block_mx (sym_of (Vxx (head_vm d.1))) G0^T G0 0 \in unitmx ->
  let r := ((forward d th).1, same_traj (forward d th).2) in
  kkt_system mu (odflt 0 th) G0 g0 r /\ (forall r', kkt_system mu (odflt 0 th) G0 g0 r' -> r' = r).
Proof.
move=> G U E U0 r; move: (C21_lower mu c G0 g0); rewrite E.
case E' : (backward mu (sym_knots c) G0 g0) => [d'|//] [_ /(_ th) [H1 H2]].
have S := sym_knots_symmetric c.
have G' := (no_gv_sym c).2 G.
have -> : r = forward d' th by rewrite /r -H1 -H2; case: (forward d' th).
apply: forward_kkt (E') _ => //.
move: E E'; rewrite /backward; move: (back_same mu c).
case: (backwardImpl mu c) => [ds|//]; case Es : (backwardImpl mu (sym_knots c)) => [ds'|//] A [Ed] [<-] /=.
have [SV _ _ _] := backward_good S G' U Es.
rewrite /kkt0_mat.
move: (congr1 (@Vxx _ _ _) (agree_head A)) => /=; rewrite !lowerE (sym_of_id SV) => <-.
by move: U0; rewrite -Ed.
Qed.
End Lower.

(** the problem of C21_witness with its first Hessian given by the lower triangle only: it is
    not symmetric, and is solved as if it were *)
Section Ex.
Definition half_id : 'M[rat]_2 := \matrix_(i, j) (if (j <= i)%N then (i == j)%:R else 7%:Q).
Definition wlow : knots rat_fieldType 0 2 :=
  Cons (Knot half_id 0 1%:M (const_mx 1) 0 (const_mx 1) (const_mx 1) (const_mx 2%:Q)
    (const_mx 1) (const_mx 1) (const_mx 3%:Q) 1%:M (const_mx 1) (const_mx 2%:Q) 0 (const_mx 1) : knot _ 0 2 1 1 1)
    (Term (wk1 0)).
Lemma half_sym : sym_of (F := rat_fieldType) half_id = 1%:M.
Proof.
apply/matrixP=> i j; rewrite !mxE; case: ltngtP => [L|L|/val_inj ->]; rewrite ?eqxx // -!val_eqE /=.
- by rewrite (gtn_eqF L) (ltn_eqF L).
Qed.
Lemma wlow_sym : sym_knots wlow = wit 0.
Proof. by rewrite /wit /wlow /= /sym_knot /= half_sym /wk0 /wk1 !sym_of_id ?trmx1. Qed.
Lemma same_x n (c : knots rat_fieldType 0 n) (s : sol c) : sol_x (same_traj s) = sol_x s.
Proof. by case: c s. Qed.
Example C21_lower_witness :
  ~ symmetric wlow /\ no_gv wlow /\ terminal_unit 1 (sym_knots wlow) /\
  exists d, [/\ backward 1 wlow (- 1%:M) (const_mx 5%:Q) = Some d,
    block_mx (sym_of (Vxx (head_vm d.1))) (- 1%:M)^T (- 1%:M) 0 \in unitmx & sol_x (forward d None).2 = const_mx 5%:Q].
Proof.
have [d' [_ T E _ X]] := C21_witness.
have T' : terminal_unit 1 (sym_knots wlow) by rewrite wlow_sym.
split; [|split; [by []|split=> //]].
  by case=> [[/matrixP /(_ 0 1)]]; rewrite !mxE.
have [d2 E2] : exists d2, backward 1 (sym_knots wlow) (- 1%:M) (const_mx 5%:Q) = Some d2 by rewrite wlow_sym; exists d'.
move: (C21_lower 1 wlow (- 1%:M) (const_mx 5%:Q)); rewrite E2.
case E3 : (backward 1 wlow (- 1%:M) (const_mx 5%:Q)) => [d|//] _; exists d.
have UG : (- 1%:M : 'M[rat]_2) \in unitmx by rewrite -scaleN1r unitmxZ ?unitmx1 // unitrN unitr1.
have U0 : block_mx (sym_of (Vxx (head_vm d.1))) (- 1%:M)^T (- 1%:M) 0 \in unitmx.
  exact: (kkt0_unit (Ctg (sym_of (Vxx (head_vm d.1))) 0 (0 : 'M_(2, 0)) 0 0) UG).
split=> //.
have [[_ h] _] := C21_lower_kkt None (conj erefl erefl : no_gv wlow) T' E3 U0.
move: h; rewrite [X in _ *m X]same_x mulNmx mul1mx addrC => /eqP; by rewrite subr_eq0 => /eqP <-.
Qed.
End Ex.
