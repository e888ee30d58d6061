From Coq Require Import Ring.
From mathcomp Require Import all_ssreflect all_algebra.
From Verif Require Import MxRing RiccatiModel RiccatiProofs RiccatiValue BtModel BtProofs ParModel ParProofs.
Set Implicit Arguments.
Unset Strict Implicit.
Import Order.Theory GRing.Theory Num.Theory.
Local Open Scope ring_scope.

Section Value.
Variable R : realFieldType.
Variable mu : R.
Hypothesis m0 : 0 < mu.
Add Ring Rring : (ops_ring R).

Section P.
Variable p : nat.
(** the first knot has a positive definite Hessian *)
Definition strict_head n (c : knots R p n) : Prop :=
  match c with
  | @Term _ _ n nu nc m k => pd (block_mx (Qm k) (Sm k) (Sm k)^T (Rm k))
  | @Cons _ _ n nu nc m k c' => pd (block_mx (Qm k) (Sm k) (Sm k)^T (Rm k))
  end.
Lemma local_eq n nu nc (Q : 'M[R]_n) (S : 'M[R]_(n, nu)) (P : 'M[R]_nu) (C : 'M[R]_(nc, n)) D
  (fb : 'M[R]_(nu + nc, n)) x :
  kkt_mat mu P D *m fb = col_mx (- S^T) (- C) ->
  qform (Q + S *m usubmx fb + C^T *m dsubmx fb) x =
  qform (block_mx Q S S^T P) (col_mx x (usubmx fb *m x)) + mu * dot (dsubmx fb *m x) (dsubmx fb *m x).
Proof.
move=> E.
have : kkt_mat mu P D *m (fb *m x) = col_mx (- (S^T *m x)) (- (C *m x)).
  by rewrite mulmxA E mul_col_mx !mulNmx.
case/kkt_rows; rewrite -mul_usub_mx -mul_dsub_mx; set u := usubmx fb *m x; set v := dsubmx fb *m x => h1 h2.
rewrite qform_block /qform !mulmxDl -!mulmxA -/u -/v.
have -> : S^T *m x + P *m u = - (D^T *m v).
  have -> : P *m u = - (S^T *m x) - D^T *m v by rewrite -h1 addrK.
  by mx_open R; ring.
rewrite !dotDr dotNr [dot x (C^T *m v)]dot_tr [dot u (D^T *m v)]dot_tr !trmxK.
have -> : mu * dot v v = dot (C *m x) v + dot (D *m u) v.
  rewrite -dotZl.
  have -> : mu *: v = C *m x + D *m u by have -> : D *m u = - (C *m x) + mu *: v; [rewrite -h2 subrK|rewrite addNKr].
  by rewrite dotDl.
by do ?move: (dot _ _) => ?; fold_ops R; ring.
Qed.
Lemma pd_col n m (Q : 'M[R]_n) (S : 'M[R]_(n, m)) P x u : pd (block_mx Q S S^T P) -> x != 0 ->
  0 < qform (block_mx Q S S^T P) (col_mx x u).
Proof. by move=> H n0; apply: H; rewrite col_mx_eq0 negb_and n0. Qed.
Lemma qform_hat n nu m (Q : 'M[R]_n) (S : 'M[R]_(n, nu)) (P : 'M[R]_nu) (A : 'M[R]_(m, n)) (B : 'M[R]_(m, nu)) V x u :
  V^T = V ->
  qform (block_mx (Q + A^T *m V *m A) (S + A^T *m V *m B) (S + A^T *m V *m B)^T (P + B^T *m V *m B)) (col_mx x u)
  = qform (block_mx Q S S^T P) (col_mx x u) + qform V (A *m x + B *m u).
Proof.
move=> SV.
rewrite !qform_block /qform linearD /= !trmx_mul trmxK SV !mulmxDl !mulmxDr !dotDl !dotDr -!mulmxA.
rewrite ![dot _ (A^T *m _)]dot_tr ![dot _ (B^T *m _)]dot_tr !trmxK.
by do ?move: (dot _ _) => ?; fold_ops R; ring.
Qed.
Lemma Vxx_pd n (c : knots R p n) ds : convex c -> no_gv c -> strict_head c ->
  backwardImpl mu c = Some ds -> pd (Vxx (head_vm ds)).
Proof.
case: c ds => [n' nu nc m k|n' nu nc m k c] ds.
  move=> [SQ SR PS PD] G H [<-] /= x n0.
  have [_ E _] := terminal_ok SR (kkt_unit (Dm k) m0 PD).
  by rewrite addrAC (local_eq _ _ E) ltr_paddr ?pd_col // mulr_ge0 ?dot_pos // ltW.
move=> [[SQ SR PS PD] Cc] [G Gc] H; rewrite [backwardImpl _ _]/=.
have [U [ds' [-> SV PV]]] := convex_backward m0 Cc Gc.
have U2 := kkt_unit (Dm k) m0 (pd_hat (Bm k) PV PD).
have SRh : (Rm k + (Bm k)^T *m Vxx (head_vm ds') *m Bm k)^T = Rm k + (Bm k)^T *m Vxx (head_vm ds') *m Bm k.
  by rewrite linearD /= SR !trmx_mul trmxK SV mulmxA.
rewrite /stageKernelSolve sym_vm_id // lower_sym ?kkt_mat_sym // U2 /= => [[<-]] x n0.
rewrite [head_vm _]/= [Vxx _]/=; set fb := chol_solve _ _.
have E : kkt_mat mu (Rm k + (Bm k)^T *m Vxx (head_vm ds') *m Bm k) (Dm k) *m fb =
  col_mx (- (Sm k + (Am k)^T *m Vxx (head_vm ds') *m Bm k)^T) (- Cm k).
  by apply: solveP; first by rewrite kkt_mat_sym.
clearbody fb.
rewrite (local_eq _ _ E) qform_hat // -addrA ltr_paddr ?pd_col // addr_ge0 //.
by rewrite mulr_ge0 ?dot_pos // ltW.
Qed.
Fixpoint gth0 n (c : knots R p n) : Prop :=
  match c with
  | @Term _ _ n nu nc m k => Gth k = 0
  | @Cons _ _ n nu nc m k c' => Gth k = 0 /\ gth0 c'
  end.
Lemma local_tt nu nc (P : 'M[R]_nu) (D : 'M[R]_(nc, nu)) (gu : 'M[R]_(nu, p)) ft t : pd P ->
  kkt_mat mu P D *m ft = col_mx (- gu) 0 -> qform (gu^T *m usubmx ft) t <= 0.
Proof.
move=> H E.
have : kkt_mat mu P D *m (ft *m t) = col_mx (- (gu *m t)) 0.
  by rewrite mulmxA E mul_col_mx mul0mx mulNmx.
case/kkt_rows; rewrite -mul_usub_mx -mul_dsub_mx; set u := usubmx ft *m t; set v := dsubmx ft *m t => h1 h2.
have -> : qform (gu^T *m usubmx ft) t = - (qform P u + mu * dot v v).
  rewrite /qform -mulmxA -/u dot_tr trmxK.
  have -> : gu *m t = - (P *m u + D^T *m v) by rewrite h1 opprK.
  rewrite dotNl dotDl [dot (P *m u) u]dotC; congr (- (_ + _)).
  rewrite [LHS]dotC [LHS]dot_tr trmxK dotC -dotZr; congr dot.
  by apply/eqP; rewrite -subr_eq0 h2.
rewrite oppr_le0 addr_ge0 //; last by rewrite mulr_ge0 ?dot_pos // ltW.
by case: (u =P 0) => [->|/eqP /H /ltW //]; rewrite /qform mulmx0 dot0r.
Qed.
Lemma Vtt_neg n (c : knots R p n) ds t : convex c -> no_gv c -> gth0 c ->
  backwardImpl mu c = Some ds -> qform (Vtt (head_vm ds)) t <= 0.
Proof.
elim: c ds => [n' nu nc m k|n' nu nc m k c IH] ds.
  move=> [SQ SR PS PD] G T [<-] /=.
  have [_ _ E] := terminal_ok SR (kkt_unit (Dm k) m0 PD).
  by rewrite T add0r (local_tt _ PD E).
move=> [[SQ SR PS PD] Cc] [G Gc] [T0 Tc]; rewrite [backwardImpl _ _]/=.
have [U [ds' [E1 SV PV]]] := convex_backward m0 Cc Gc; rewrite E1.
have U2 := kkt_unit (Dm k) m0 (pd_hat (Bm k) PV PD).
have SRh : (Rm k + (Bm k)^T *m Vxx (head_vm ds') *m Bm k)^T = Rm k + (Bm k)^T *m Vxx (head_vm ds') *m Bm k.
  by rewrite linearD /= SR !trmx_mul trmxK SV mulmxA.
rewrite /stageKernelSolve sym_vm_id // lower_sym ?kkt_mat_sym // U2 /= => [[<-]].
rewrite [head_vm _]/= [Vtt _]/=; set V := head_vm ds' in SV PV U2 SRh *; set ft := chol_solve _ _; pose gu := Gu k + (Bm k)^T *m Vxt V.
have E : kkt_mat mu (Rm k + (Bm k)^T *m Vxx V *m Bm k) (Dm k) *m ft = col_mx (- gu) 0.
  by rewrite G oppr0 in ft *; apply: solveP; first by rewrite kkt_mat_sym.
clearbody ft.
have -> : Gth k + Vtt V + (Gu k)^T *m usubmx ft + (Vxt V)^T *m (Bm k *m usubmx ft) =
  Vtt V + gu^T *m usubmx ft.
  by rewrite T0 add0r /gu linearD /= trmx_mul trmxK !mulmxDl !mulmxA addrA.
rewrite /qform mulmxDl dotDr -[0]addr0 ler_add //; first exact: IH.
exact: (local_tt _ (pd_hat (Bm k) PV PD) E).
Qed.
End P.

(** strictly convex problems *)
Fixpoint strict p n (c : knots R p n) : Prop :=
  match c with
  | @Term _ _ n nu nc m k => [/\ (Qm k)^T = Qm k, (Rm k)^T = Rm k & pd (block_mx (Qm k) (Sm k) (Sm k)^T (Rm k))]
  | @Cons _ _ n nu nc m k c' =>
      [/\ (Qm k)^T = Qm k, (Rm k)^T = Rm k & pd (block_mx (Qm k) (Sm k) (Sm k)^T (Rm k))] /\ strict c'
  end.
Lemma pd_psd n (H : 'M[R]_n) : pd H -> psd H.
Proof. by move=> P x; case: (x =P 0) => [->|/eqP /P /ltW //]; rewrite /qform mulmx0 dot0r. Qed.
Lemma pd_block n nu (Q : 'M[R]_n) (S : 'M[R]_(n, nu)) P : pd (block_mx Q S S^T P) -> pd P.
Proof.
move=> H u n0; have := H (col_mx 0 u); rewrite col_mx_eq0 eqxx /= => /(_ n0).
by rewrite qform_block !mulmx0 !add0r dot0l add0r.
Qed.
Lemma strict_convex p n (c : knots R p n) : strict c -> convex c /\ strict_head c.
Proof.
elim: c => [n' nu nc m k [? ? H]|n' nu nc m k c IH [[? ? H] /IH [Hc _]]] /=; split=> //.
  by split=> //; [exact: pd_psd|exact: pd_block H].
by split=> //; split=> //; [exact: pd_psd|exact: pd_block H].
Qed.
Lemma strict_leg n m (l : leg R n m) c : strict (lapp l c) -> strict (paramleg l) /\ strict c.
Proof.
elim: l c => [n' nu nc m' k|n' nu nc m' m2 k l IH] c /= [S H] //.
by have [? ?] := IH _ H.
Qed.
Lemma leg_gth0 n m (l : leg R n m) : gth0 (paramleg l).
Proof. by elim: l. Qed.

(** inverses *)
Lemma pd_unit n (M : 'M[R]_n) : pd M -> M \in unitmx.
Proof.
move=> P; apply: unit_kernel => x E; apply/eqP; apply/negPn/negP => n0.
by have := P x n0; rewrite /qform E dot0r ltxx.
Qed.
Definition nd n (M : 'M[R]_n) := pd (- M).
Lemma nd_unit n (M : 'M[R]_n) : nd M -> M \in unitmx.
Proof. by move=> /pd_unit; rewrite -scaleN1r unitmxZ // unitrN unitr1. Qed.
Lemma pd_inv n (M : 'M[R]_n) : M^T = M -> pd M -> pd (invmx M).
Proof.
move=> S P x n0; have U := pd_unit P.
have z0 : invmx M *m x != 0 by apply: contra_neq n0 => E; rewrite -[x](mulKVmx U) E mulmx0.
by have := P _ z0; rewrite /qform mulKVmx // dotC.
Qed.
Lemma qformN n (M : 'M[R]_n) x : qform (- M) x = - qform M x.
Proof. by rewrite /qform mulNmx dotNr. Qed.
Lemma qformD n (M N : 'M[R]_n) x : qform (M + N) x = qform M x + qform N x.
Proof. by rewrite /qform mulmxDl dotDr. Qed.
Lemma nd_inv n (M : 'M[R]_n) : M^T = M -> nd M -> nd (invmx M).
Proof.
move=> S N x n0; have U := nd_unit N.
have z0 : invmx M *m x != 0 by apply: contra_neq n0 => E; rewrite -[x](mulKVmx U) E mulmx0.
by have := N _ z0; rewrite !qformN /qform mulKVmx // dotC.
Qed.
Lemma chol_inv n k (M : 'M[R]_n) (B : 'M[R]_(n, k)) : M^T = M -> chol_solve M B = invmx M *m B.
Proof. by move=> S; rewrite /chol_solve lower_sym. Qed.
Lemma trinv n (M : 'M[R]_n) : M^T = M -> (invmx M)^T = invmx M.
Proof. by move=> S; rewrite trmx_inv S. Qed.

(** the factorisation of the condensed matrix succeeds, the reduced block of
    every state is positive definite *)
Lemma sweep_some n (ps : plegs R n) d (b : bvec (cbt (ps := ps) d)) : strict (flatten ps) -> sweeps mu ps = Some d ->
  exists D r fs ys, [/\ sweep b = Some (D, r, fs, ys), D^T = D & pd D].
Proof.
elim: ps d b => [n' c|n' m l ps IH] d b.
  move=> H E; have [Hc Hs] := strict_convex H; have G := last_no_gv c.
  have [_ [ds [E1 SV _]]] := convex_backward m0 Hc G.
  rewrite [sweeps _ _]/= E1 in E; case: E => E; rewrite E in E1 SV.
  by exists (Vxx (head_vm d)), b, tt, tt; split=> //; exact: Vxx_pd E1.
move=> H /sweeps_cons [E1 E2].
have [Hl Hp] := strict_leg H; have [Lc Ls] := strict_convex Hl.
have G := leg_no_gv l.
have [D3 [r3 [fs3 [ys3 [E3 S3 P3]]]]] := IH _ b.2.2 Hp E2.
have [U [ds [E4 SV _]]] := convex_backward m0 Lc G.
rewrite E1 in E4; case: E4 => E4; rewrite -E4 in SV.
have PV := Vxx_pd Lc G Ls E1.
have ST := Vtt_sym (convex_symmetric Lc) G (leg_tsym l) U E1.
have NT t := Vtt_neg t Lc G (leg_gth0 l) E1.
set V := head_vm d.1 in SV PV ST NT.
rewrite /= E3 lower_sym // pd_unit //= -/V.
set D2 := Vtt V - _.
have ED2 : D2 = Vtt V - invmx D3.
  by rewrite /D2 chol_inv // linearN /= trmx1 mulNmx mul1mx mulmxN opprK mulmx1.
have S2 : D2^T = D2 by rewrite ED2 linearB /= ST trinv.
have N2 : nd D2.
  move=> x n0; rewrite ED2 opprB qformD qformN ltr_paddr ?oppr_ge0 ?NT //.
  exact: pd_inv.
rewrite lower_sym // nd_unit //=; do 4!eexists; split; first by reflexivity.
  by rewrite chol_inv // linearB /= SV !trmx_mul trmxK trinv // mulmxA.
move=> x n0; rewrite chol_inv // qformD ltr_paddr ?PV //.
rewrite -mulNmx /qform -mulmxA dot_tr.
have -> : dot ((- Vxt V)^T *m x) (invmx D2 *m (Vxt V)^T *m x) = qform (- invmx D2) ((Vxt V)^T *m x).
  by rewrite /qform linearN /= !mulNmx dotNl dotNr mulmxA.
by apply: pd_psd; exact: nd_inv.
Qed.
Theorem condensed_some n nc0 (ps : plegs R n) d (G0 : 'M[R]_(nc0, n)) (b : bvec (condensed d G0)) :
  strict (flatten ps) -> sweeps mu ps = Some d -> (forall l, G0^T *m l = 0 -> l = 0 :> 'cV_nc0) ->
  exists x f, symmetricBlockTridiagSolve b = Ok (x, f).
Proof.
move=> H E O; have [D [r [fs [ys [E1 S1 P1]]]]] := sweep_some b.2 H E.
rewrite /symmetricBlockTridiagSolve /= E1 lower_sym // pd_unit //=.
set D0 := 0 - _.
have ED : D0 = - (G0 *m invmx D *m G0^T) by rewrite /D0 sub0r chol_inv // mulmxA.
have SD : D0^T = D0 by rewrite ED linearN /= !trmx_mul trmxK trinv // mulmxA.
rewrite lower_sym // nd_unit /=; first by do 2!eexists; reflexivity.
move=> x n0; rewrite ED opprK /qform -!mulmxA dot_tr; apply: pd_inv => //.
by apply: contra_neq n0 => /O.
Qed.
Lemma sweeps_some n (ps : plegs R n) : strict (flatten ps) ->
  punit mu ps /\ exists d, sweeps mu ps = Some d.
Proof.
elim: ps => [n' c|n' m l ps IH] H /=.
  have [Hc Hs] := strict_convex H.
  by have [U [ds [E _ _]]] := convex_backward m0 Hc (last_no_gv c); split=> //; exists ds.
have [Hl Hp] := strict_leg H; have [Lc Ls] := strict_convex Hl.
have [U [ds [-> _ _]]] := convex_backward m0 Lc (leg_no_gv l).
have [Up [d ->]] := IH Hp.
by split; [rewrite U|exists (ds, d)].
Qed.
End Value.
