(** C24 (parallel Riccati solver) and C53 (collapsed feedback). *)
From Coq Require Import Ring NArith Lia ZifyN.
From mathcomp Require Import all_ssreflect all_algebra.
From Verif Require Import MxRing RiccatiModel RiccatiProofs RiccatiValue P_riccati BtModel BtProofs P_bt
  WorkModel P_work ParModel ParProofs ParValue.
Set Implicit Arguments.
Unset Strict Implicit.
Import Order.Theory GRing.Theory Num.Theory.
Local Open Scope ring_scope.

(** ** The legs are the stages of the problem, cut in order *)
Fixpoint nlegs (F : fieldType) n (ps : plegs F n) : nat :=
  match ps with PLast n c => 1 | PCons n m l ps' => (nlegs ps').+1 end.
Lemma split_nlegs (F : fieldType) lens n (c : knots F 0 n) ps : split lens c = Some ps -> nlegs ps = (size lens).+1.
Proof.
elim: lens n c ps => [|[//|len] lens IH] n c ps /=; first by case=> <-.
case: (cut c len) => // [[m [l r]]]; case E : (split lens r) => [ps'|//] [<-] /=.
by rewrite (IH _ _ _ E).
Qed.
Lemma leg_len_ok N nt i : (1 < nt <= N.+1)%N -> fits (N.of_nat N) (N.of_nat nt) -> (i < nt)%N ->
  (0 < leg_len N nt i)%N.
Proof.
move=> /andP [H1 H2] Fi Hi; rewrite /leg_len.
have a : N.lt (N.of_nat i) (N.of_nat nt) by move/ssrnat.ltP: Hi; lia.
have [_ H] := C25_balanced _ _ Fi _ _ a a.
move/ssrnat.leP in H2; apply/ssrnat.ltP; have := H ltac:(lia).
by case: (get_work _ _ _) => x y /=; lia.
Qed.
Lemma sum_lens N nt k : fits (N.of_nat N) (N.of_nat nt) -> (k < nt)%N ->
  sumn [seq leg_len N nt i | i <- iota 0 k] = N.to_nat (get_work (N.of_nat N) (N.of_nat k) (N.of_nat nt)).1.
Proof.
move=> Fi; have [h0 [_ [hc hr]]] := C25_contiguous _ _ Fi.
elim: k => [|k IH] Hk; first by rewrite h0.
have -> : N.of_nat k.+1 = N.add (N.of_nat k) 1 by lia.
have a : N.lt (N.add (N.of_nat k) 1) (N.of_nat nt) by move/ssrnat.ltP: Hk; lia.
rewrite -(hc _ a) -[in iota _ _]addn1 iotaD map_cat sumn_cat IH; last exact: ltnW.
rewrite [sumn (map _ (iota (0 + k) 1))]addn0 /leg_len add0n.
have [b _] := hr (N.of_nat k) ltac:(lia).
by rewrite -plusE; move: b; case: (get_work _ _ _) => x y; rewrite /fst /snd; lia.
Qed.
Theorem C24_legs (F : fieldType) nt n (c : knots F 0 n) : (1 < nt <= size_knots c)%N ->
  fits (N.of_nat (size_knots c).-1) (N.of_nat nt) ->
  exists ps, [/\ legs_of nt c = Some ps, flatten ps = c & nlegs ps = nt].
Proof.
have sz : (0 < size_knots c)%N by case: c.
move=> /andP [H1 H2] Fi; pose N := (size_knots c).-1.
have EN : size_knots c = N.+1 by rewrite /N prednK.
have [||ps E] := @split_some _ (leg_lens N nt) _ c.
- apply/allP => x /mapP [i]; rewrite mem_iota add0n => /andP [_ Hi] ->.
  apply: leg_len_ok => //; first by rewrite H1 -EN.
  by rewrite (leq_trans Hi) // leq_pred.
- rewrite /leg_lens sum_lens //; last by rewrite prednK // ltnW.
  have [_ [h1 [_ hr]]] := C25_contiguous _ _ Fi.
  have a : N.lt (N.of_nat nt.-1) (N.of_nat nt) by move/ssrnat.ltP: H1; case: (nt) => [|q] /=; lia.
  have b0 := C25_balanced _ _ Fi _ _ a a.
  rewrite -/N in h1 hr b0 *.
  have [_ b1] := b0; have {}b1 := b1 ltac:(rewrite EN in H2; move/ssrnat.leP: H2; lia).
  have [_ b2] := hr _ a; rewrite EN.
  apply/ssrnat.ltP; move: b1 b2; case: (get_work _ _ _) => x y /=; lia.
exists ps; split=> //.
  by have := split_flatten (leg_lens N nt) c; rewrite E.
by rewrite (split_nlegs E) size_map size_iota prednK // ltnW.
Qed.
(** The sizes computed by the code fit the assigned blocks exactly when, for
    every leg but the last, the state dimension of its first and last knot is the
    dimension of the state after the leg. *)
Fixpoint const_dims (F : fieldType) n (ps : plegs F n) : bool :=
  match ps with
  | PLast n c => true
  | PCons n m l ps' => [&& n == m, leg_last_nx l == m & const_dims ps']
  end.
Theorem C24_dims (F : fieldType) n nc0 (ps : plegs F n) (d : pfactors ps) (G0 : 'M[F]_(nc0, n)) :
  (rhsDims nc0 ps == block_dims (condensed d G0)) = const_dims ps.
Proof.
rewrite /rhsDims /= eqseq_cons eqxx /=.
elim: ps d {G0} => [n' c|n' m l ps IH] d /=; first by rewrite eqxx.
have [q Eq] : exists q, block_dims (cbt d.2) = m :: q.
  by case: (cbt d.2) => [k D|k k' D B C t]; [exists [::]|exists (block_dims t)].
by rewrite -(IH d.2) Eq !eqseq_cons !eqxx.
Qed.

Section Main.
Variable R : realFieldType.
Variable thr : R.
Definition small_all k (t : bt R k) : bvec t -> bool := small_norm thr.

(** For every way of cutting the problem into legs, if the factorisations
    succeed then the parallel solver returns a solution of the KKT system of the
    whole problem; it is the one returned by the serial solver. *)
Theorem C24_kkt_partial n nc0 mu (ps : plegs R n) (G0 : 'M[R]_(nc0, n)) g0 maxRef err r :
  symmetric (flatten ps) -> punit mu ps -> maxRef != 1%N ->
  pbackward mu ps G0 g0 small_all maxRef err = Some r ->
  kkt_system mu 0 G0 g0 (pforward r) /\
  (forall d, terminal_unit mu (flatten ps) -> backward mu (flatten ps) G0 g0 = Some d ->
     kkt0_mat (head_vm d.1) G0 \in unitmx -> pforward r = forward d None).
Proof.
move=> S U M; rewrite /pbackward; case E : (sweeps mu ps) => [d|//].
case C : (condensed_solve _ _ _ _) => [||[s e]] // [<-].
have B : bsym (condensed d G0).
  by split; [rewrite trmx0|by []|exact: cbt_sym E].
have X := C28_loop_partial B M C.
have K := condensed_kkt S U E X; split=> // d' T E' U'.
by have [_ UQ] := C21_kkt S T E' U'; exact: UQ.
Qed.
(** Strictly convex problems with an initial constraint of full rank are solved
    by both solvers, whatever the legs, with the same result. *)
Theorem C24_convex_partial n nc0 mu (ps : plegs R n) (G0 : 'M[R]_(nc0, n)) g0 maxRef err :
  0 < mu -> strict (flatten ps) -> (forall l, G0^T *m l = 0 -> l = 0 :> 'cV_nc0) -> maxRef != 1%N ->
  exists r d, [/\ pbackward mu ps G0 g0 small_all maxRef err = Some r,
    backward mu (flatten ps) G0 g0 = Some d, pforward r = forward d None &
    kkt_system mu 0 G0 g0 (pforward r)].
Proof.
move=> m0 H O M; have [U [d E]] := sweeps_some m0 H.
have [Hc Hs] := strict_convex H; have G := last_no_gv (flatten ps).
have S := convex_symmetric Hc.
have [x [f X]] := condensed_some m0 (condensed_rhs d G0 g0) H E O.
case C : (refine_loop f (condensed_rhs d G0 g0) (@small_all _ _) maxRef x (err _ _)) => [s e].
have EB : pbackward mu ps G0 g0 small_all maxRef err = Some (existT _ d s).
  by rewrite /pbackward E /condensed_solve X C.
have [T [ds [ED SV _]]] := convex_backward m0 Hc G.
have U0 := kkt0_unit_pd (Vxx_pd m0 Hc G Hs ED) O.
have ES : backward mu (flatten ps) G0 g0 = Some (ds, factor_initial (head_vm ds) G0 g0) by rewrite /backward ED.
have [K Q] := C24_kkt_partial S U M EB.
by exists (existT _ d s), (ds, factor_initial (head_vm ds) G0 g0); split=> //; exact: Q ES U0.
Qed.
End Main.

(** ** Feedback gain of the first stage *)
Section Feedback.
Variable F : fieldType.
Variable mu : F.
Add Ring Fring : (ops_ring F).
Definition leg_u n m (l : leg F n m) : sol (paramleg l) -> 'cV[F]_(leg_nu l) :=
  match l in leg _ n m return sol (paramleg l) -> 'cV[F]_(leg_nu l) with
  | LOne n nu nc m k => fun s => s.1.2
  | LCons n nu nc m m' k l' => fun s => s.1.1.1.2
  end.
Definition serial_u n m (l : leg F n m) : forall c : knots F 0 m, sol (lapp l c) -> 'cV[F]_(leg_nu l) :=
  match l in leg _ n m return forall c : knots F 0 m, sol (lapp l c) -> 'cV[F]_(leg_nu l) with
  | LOne n nu nc m k => fun c s => s.1.1.1.2
  | LCons n nu nc m m' k l' => fun c s => s.1.1.1.2
  end.
Definition leg_k n m (l : leg F n m) : factors (paramleg l) -> 'cV[F]_(leg_nu l) :=
  match l in leg _ n m return factors (paramleg l) -> 'cV[F]_(leg_nu l) with
  | LOne n nu nc m k => fun d => kff d
  | LCons n nu nc m m' k l' => fun d => kff d.1
  end.
Definition serial_k n m (l : leg F n m) : forall c, factors (lapp l c) -> 'cV[F]_(leg_nu l) :=
  match l in leg _ n m return forall c : knots F 0 m, factors (lapp l c) -> 'cV[F]_(leg_nu l) with
  | LOne n nu nc m k => fun c d => kff d.1
  | LCons n nu nc m m' k l' => fun c d => kff d.1
  end.
Lemma mx_ext n m (A B : 'M[F]_(m, n)) : (forall x : 'cV_n, A *m x = B *m x) -> A = B.
Proof.
move=> H; apply/matrixP => i j; have := H (delta_mx j 0) => /matrixP /(_ i 0).
by rewrite -!colE !mxE.
Qed.
Lemma leg_uE n m (l : leg F n m) d th x : leg_u (forwardImpl (c := paramleg l) (Some th) d x) =
  leg_k d + leg_K d *m x + leg_Kth d *m th.
Proof. by case: l d th x. Qed.
Lemma serial_uE n m (l : leg F n m) c d x : serial_u (forwardImpl (c := lapp l c) None d x) =
  serial_k d + serial_K d *m x.
Proof. by case: l c d x. Qed.
Lemma stitch_u n m (l : leg F n m) s th c (s' : sol c) : serial_u (stitch (l := l) s th s') = leg_u s.
Proof. by case: l s th c s'. Qed.

Lemma leg_solution n m (l : leg F n m) (ps : plegs F m) (d : pfactors (PCons l ps)) D2 r2 fs ys x :
  symmetric (flatten (PCons l ps)) -> punit mu (PCons l ps) -> sweeps mu (PCons l ps) = Some d ->
  sweep (t := BCons (Vtt (head_vm d.1)) (- 1%:M) (- 1%:M)^T (cbt d.2)) (- vt (head_vm d.1), crhs d.2)
    = Some (D2, r2, fs, ys) -> D2 \in unitmx ->
  let th := invmx D2 *m (r2 - (Vxt (head_vm d.1))^T *m x) in
  exists (s : sol (flatten ps)) lam,
    kkt mu (0 : 'cV_0) lam (stitch (l := l) (forwardImpl (Some th) d.1 x) th s).
Proof.
move=> S U E; set V := head_vm d.1; set t2 := BCons _ _ _ _ => E2 UD th.
have S2 : bsym t2 by have [_ _] := cbt_sym S U E.
have H := sweep_fwd th S2 E2.
have Eth : D2 *m th - r2 = - ((Vxt V)^T *m x) by rewrite /th mulKVmx // addrAC subrr add0r.
rewrite Eth in H; set b : bvec t2 := fwd fs ys th in H.
have b1 : b.1 = th by [].
have b2 : bhead b = th by rewrite bhead_fwd.
pose lam := Vxx V *m x + Vxt V *m th + vx V.
have Q : toDense (cbt (ps := PCons l ps) d) *m flat (t := cbt (ps := PCons l ps) d) (x, b) =
  flat (crhs (ps := PCons l ps) d) + padd (cbt (ps := PCons l ps) d) lam.
  have := mul_dense (Vxx V) (Vxt V) (Vxt V)^T x (t := t2) b; rewrite b2 H => ->.
  have e1 : - vx V + lam = Vxx V *m x + Vxt V *m th by rewrite /lam [_ + vx V]addrC addKr.
  have e2 : padd t2 ((Vxt V)^T *m x) + (flat (t := t2) (- vt V, crhs d.2) + padd t2 (- ((Vxt V)^T *m x))) =
    flat (t := t2) (- vt V, crhs d.2) + 0 by rewrite addrCA -paddD subrr padd0.
  rewrite e2 -e1; symmetry; exact: add_col_mx.
have [h1 h2] := rows_kkt S U E Q.
by exists (pforward_from b.2), lam; rewrite -b1.
Qed.
(** With the U factor ([upFacs[1]]) the collapsed gain would be that of the
    serial solver. *)
Theorem C53_upfac n m (l : leg F n m) (ps : plegs F m) (d : pfactors (PCons l ps)) ds D2 r2 fs ys :
  symmetric (flatten (PCons l ps)) -> punit mu (PCons l ps) -> sweeps mu (PCons l ps) = Some d ->
  sweep (t := BCons (Vtt (head_vm d.1)) (- 1%:M) (- 1%:M)^T (cbt d.2)) (- vt (head_vm d.1), crhs d.2)
    = Some (D2, r2, fs, ys) -> D2 \in unitmx ->
  terminal_unit mu (flatten (PCons l ps)) -> backwardImpl mu (lapp l (flatten ps)) = Some ds ->
  exists U, upFac1 (d := d) (- vt (head_vm d.1), crhs d.2) = Some U /\
    leg_K d.1 - leg_Kth d.1 *m U = serial_K ds.
Proof.
move=> S U E E2 UD T ED; exists (chol_solve D2 (Vxt (head_vm d.1))^T).
rewrite /upFac1 E2; split=> //.
have SD : D2^T = D2.
  by apply: (sweep_sym _ E2); have [_ _] := cbt_sym S U E.
rewrite /chol_solve lower_sym //.
have [_ _ _ UQ] := backward_good S (last_no_gv _) T ED.
have L x : leg_k d.1 + leg_K d.1 *m x + leg_Kth d.1 *m (invmx D2 *m (r2 - (Vxt (head_vm d.1))^T *m x)) =
  serial_k ds + serial_K ds *m x.
  have [s [lam K]] := leg_solution x S U E E2 UD.
  have [_ Es] := UQ None _ _ K; rewrite sol_x_stitch sol_x_forward in Es.
  by rewrite -serial_uE -leg_uE -Es stitch_u.
have L0 := L 0; rewrite !mulmx0 subr0 !addr0 in L0.
apply: mx_ext => x; have Lx := L x; rewrite !mulmxBr [in LHS]addrA in Lx.
move: Lx; have -> : serial_k ds = leg_k d.1 + leg_Kth d.1 *m (invmx D2 *m r2) by [].
move: (leg_k _) (leg_Kth _ *m (invmx _ *m r2)) => a e.
rewrite mulmxBl !mulmxA => Lx; apply: (addrI (a + e)); rewrite -Lx.
by mx_open F; ring.
Qed.
End Feedback.

(** ** Witnesses and refutations *)
Section Witness.
Notation QF := rat_fieldType.
Add Ring Qring : (ops_ring QF).
Definition pk0 : knot QF 0 1 1 0 1 :=
  Knot 1%:M 0 1%:M (const_mx 1) 0 1%:M 1%:M (const_mx 1) 0 0 0 0 0 0 0 0.
Definition pk1 (q : rat) : knot QF 0 1 0 0 0 := Knot q%:M 0 0 0 0 0 0 0 0 0 0 0 0 0 0 0.
Definition wc q : knots QF 0 1 := Cons pk0 (Term (pk1 q)).
Definition wps q : plegs QF 1 := PCons (LOne pk0) (PLast (Term (pk1 q))).
Lemma wps_flat q : flatten (wps q) = wc q. Proof. by []. Qed.
Lemma qform_scalar n (a : rat) (x : 'cV[rat]_n) : qform (R := rat_realFieldType) a%:M x = a * dot x x.
Proof. by rewrite /qform mul_scalar_mx dotZr. Qed.
Lemma pd_scalar n (a : rat) : 0 < a -> pd (R := rat_realFieldType) (a%:M : 'M_n).
Proof.
move=> a0 x n0; rewrite qform_scalar mulr_gt0 // lt_neqAle (dot_pos (R := rat_realFieldType)) andbT eq_sym.
by apply/eqP => /(dot_eq0 (R := rat_realFieldType)) E; rewrite E eqxx in n0.
Qed.
Lemma pk0_pd : pd (R := rat_realFieldType) (block_mx (Qm pk0) (Sm pk0) (Sm pk0)^T (Rm pk0)).
Proof. by rewrite /= trmx0 -scalar_mx_block; exact: pd_scalar. Qed.
Lemma pk1_strict q : 0 < q -> pd (R := rat_realFieldType) (block_mx (Qm (pk1 q)) (Sm (pk1 q)) (Sm (pk1 q))^T (Rm (pk1 q))).
Proof.
move=> q0 x n0; rewrite -[x]vsubmxK (qform_block (R := rat_realFieldType)) !mul0mx [dsubmx x]flatmx0 !dot0l !addr0.
have := @pd_scalar 1 q q0 (usubmx x); rewrite /qform; apply; apply: contra_neq n0 => E.
by rewrite -[x]vsubmxK E [dsubmx x]flatmx0 col_mx0.
Qed.
Lemma wps_strict q : 0 < q -> strict (R := rat_realFieldType) (flatten (wps q)).
Proof.
move=> q0 /=; split.
  by split; [exact: trmx1|exact: trmx1|exact: pk0_pd].
by split; [exact: tr_scalar_mx|exact: trmx0|exact: pk1_strict].
Qed.
Lemma inj_m1 (l : 'cV[rat]_1) : (- 1%:M : 'M[rat]_1)^T *m l = 0 -> l = 0.
Proof. by rewrite linearN /= trmx1 mulNmx mul1mx => /eqP; rewrite oppr_eq0 => /eqP. Qed.
Fixpoint bzero n (t : bt QF n) : bvec t :=
  match t return bvec t with BOne n D => 0 | BCons n m D B C t' => (0, bzero t') end.
(** a problem cut in two legs; hypotheses of C24_kkt_partial and C24_convex_partial hold *)
Example C24_witness : [/\ legs_of 2 (wc 2%:Q) = Some (wps 2%:Q), const_dims (wps 2%:Q) &
  exists r d, [/\ pbackward (F := QF) 1 (wps 2%:Q) (- 1%:M) (const_mx 3%:Q)
        (@small_all rat_realFieldType (1 / 1000%:Q)) 5 (fun k t => bzero t) = Some r,
    backward (F := QF) 1 (wc 2%:Q) (- 1%:M) (const_mx 3%:Q) = Some d & pforward r = forward d None]].
Proof.
split=> //.
have [r [d [h1 h2 h3 _]]] := @C24_convex_partial rat_realFieldType (1 / 1000%:Q) 1 1 1 (wps 2%:Q) (- 1%:M) (const_mx 3%:Q) 5%N
  (fun k t => bzero t) ltr01 (wps_strict (q := 2%:Q) isT) inj_m1 isT.
by exists r, d.
Qed.

(** A convex problem (its terminal cost is zero) solved by the serial solver, on
    which the factorisation of the condensed system fails: the block of the last
    leg is the singular cost-to-go.  The code ignores the failure. *)
Theorem C24_singular_refuted : exists (ps : plegs QF 1) (mu : rat) (G0 : 'M[QF]_1) g0,
  [/\ 0 < mu, convex (R := rat_realFieldType) (flatten ps), G0 \in unitmx,
      exists d, backward mu (flatten ps) G0 g0 = Some d /\ kkt_system mu 0 G0 g0 (forward d None) &
      exists d, sweeps mu ps = Some d /\ symmetricBlockTridiagSolve (condensed_rhs d G0 g0) = Failed].
Proof.
exists (wps 0), 1, (- 1%:M), (const_mx 3%:Q).
have UG : (- 1%:M : 'M[rat]_1) \in unitmx by rewrite -scaleN1r unitmxZ ?unitmx1 // unitrN unitr1.
have cv : convex (R := rat_realFieldType) (flatten (wps 0)).
  split; split; try exact: trmx1; try exact: tr_scalar_mx; try exact: trmx0.
  - by apply: pd_psd; exact: pk0_pd.
  - exact: pd_scalar.
  - move=> x; rewrite -[x]vsubmxK (qform_block (R := rat_realFieldType)) !mul0mx [dsubmx x]flatmx0 !dot0l !addr0.
    by rewrite [_ *m _]mul_scalar_mx scale0r dot0r.
  - by move=> x; rewrite [x]flatmx0 eqxx.
split=> //.
  have [d [E K _]] := @C21_convex rat_realFieldType 1 (flatten (wps 0)) 1 (- 1%:M) (const_mx 3%:Q) ltr01 cv UG.
  by exists d.
exists (terminalSolve 1 (configure_knot pk0), terminalSolve 1 (pk1 0)); split=> //.
rewrite /symmetricBlockTridiagSolve /=.
have -> : 0%:M + 0^T *m dsubmx (terminal_gains 1 (pk1 0)).1.2 + 0 *m usubmx (terminal_gains 1 (pk1 0)).1.2 =
  (0 : 'M[rat]_1) by rewrite trmx0 !mul0mx !addr0; apply/matrixP => i j; rewrite !mxE mul0rn.
rewrite lower_sym ?trmx0 //.
have -> : (0 : 'M[rat]_1) \in unitmx = false by rewrite unitmxE det_mx11 mxE unitr0.
by [].
Qed.

(** [collapseFeedback] uses the wrong block: on this problem (all factorisations
    succeed) the gain it leaves is 1, that of the serial solver is -2/3. *)
Lemma leg_gains : let d := terminalSolve 1 (configure_knot pk0) in
  [/\ Kfb d = 0, Kth d = - 1%:M, Vxt (vm d) = 1%:M & Vtt (vm d) = - 1%:M].
Proof.
set k := configure_knot pk0.
have R1 : Rm k = 1%:M by [].
have UR : kkt_mat 1 (Rm k) (Dm k) \in unitmx.
  by apply: (kkt_unit (R := rat_realFieldType)) => //; exact: pd_scalar.
have [_ Eb Et] := terminal_ok (trmx1 _ _ : (Rm k)^T = Rm k) UR.
move: Eb Et => /kkt_rows [Eb _] /kkt_rows [Et _]; move=> d.
have E1 : usubmx (terminal_gains 1 k).1.2 = 0.
  by rewrite R1 mul1mx [Dm k]/= [Sm k]/= !trmx0 mul0mx addr0 oppr0 in Eb.
have E2 : usubmx (terminal_gains 1 k).2 = - 1%:M.
  by rewrite R1 mul1mx [Dm k]/= [Gu k]/= !trmx0 mul0mx addr0 trmx1 in Et.
split.
- exact: E1.
- exact: E2.
- have -> : Vxt (vm d) = (1%:M)^T + (usubmx (terminal_gains 1 k).1.2)^T *m (1%:M)^T by [].
  by rewrite E1 trmx0 mul0mx addr0 trmx1.
- have -> : Vtt (vm d) = 0 + (1%:M)^T^T *m usubmx (terminal_gains 1 k).2 by [].
  by rewrite E2 !trmx1 mul1mx add0r.
Qed.
Theorem C53_collapse_refuted : exists n m (l : leg QF n m) (ps : plegs QF m) (mu : rat) d ds,
  [/\ 0 < mu, strict (R := rat_realFieldType) (flatten (PCons l ps)),
      sweeps mu (PCons l ps) = Some d, backwardImpl mu (lapp l (flatten ps)) = Some ds &
      collapseFeedback d.1 <> serial_K ds].
Proof.
have H := wps_strict (q := 2%:Q) isT; have [Hc _] := strict_convex H.
have [U [ds [ED SV PV]]] := convex_backward (R := rat_realFieldType) (mu := 1) ltr01 Hc (last_no_gv _).
exists 1%N, 1%N, (LOne pk0), (PLast (Term (pk1 2%:Q))), 1,
  (terminalSolve 1 (configure_knot pk0), terminalSolve 1 (pk1 2%:Q)), ds; split=> //.
have [g1 g2 g3 _] := leg_gains; set D := terminalSolve _ _ in g1 g2 g3.
have -> : collapseFeedback (l := LOne pk0) (D, terminalSolve 1 (pk1 2%:Q)).1 =
  Kfb D - Kth D *m (Vxt (vm D))^T by [].
rewrite g1 g2 g3 trmx1 mulNmx mul1mx sub0r opprK => E.
have [_ K _ _] := backward_good (convex_symmetric Hc) (last_no_gv _) U ED.
have Q x : let u := serial_k (l := LOne pk0) (c := Term (pk1 2%:Q)) ds + x in
  u + 2%:Q *: (x + u + const_mx 1) = 0.
  have := K None x; have := serial_uE (l := LOne pk0) (c := Term (pk1 2%:Q)) ds x.
  have := sol_x_forward (c := wc 2%:Q) None ds x; rewrite -E mul1mx.
  case: (forwardImpl None ds x) => [[[[x0 u] v] l'] [[x1 u1] v1]] /= -> -> [_ h1 _ h2 [h3 _ _]].
  rewrite !(mulmx0, trmx0, mul0mx, add0r, addr0, trmx1, mul1mx) in h1.
  rewrite !(mulmx0, trmx0, mul0mx, add0r, addr0) mul_scalar_mx in h3.
  by rewrite !mul1mx in h2; rewrite -h2 h3.
have := Q 0; have := Q (const_mx 1); move: (serial_k _) => a /= /matrixP /(_ 0 0); rewrite !mxE => q1.
move=> /matrixP /(_ 0 0); rewrite !mxE => q0; move: q1 q0; move: (a 0 0) => z.
move=> q1 q0; have : z + 1 + 2%:Q * (1 + (z + 1) + 1) - (z + 0 + 2%:Q * (0 + (z + 0) + 1)) = 5%:Q.
  have -> : 5%:Q = 1 + 1 + 1 + 1 + 1 by []. have -> : 2%:Q = 1 + 1 by [].
  by rewrite !addr0 add0r; fold_ops QF; ring.
by rewrite q1 q0 subrr.
Qed.
Example C53_witness : exists d D2 r2 fs ys ds,
  [/\ sweeps (F := QF) 1 (wps 2%:Q) = Some d /\ punit (F := QF) 1 (wps 2%:Q),
      sweep (F := QF) (t := BCons (Vtt (head_vm (c := paramleg (LOne pk0)) d.1)) (- 1%:M) (- 1%:M)^T (cbt (ps := PLast (Term (pk1 2%:Q))) d.2)) (- vt (head_vm (c := paramleg (LOne pk0)) d.1), crhs (ps := PLast (Term (pk1 2%:Q))) d.2)
        = Some (D2, r2, fs, ys), D2 \in unitmx,
      terminal_unit (F := QF) 1 (flatten (wps 2%:Q)) & backwardImpl (F := QF) 1 (flatten (wps 2%:Q)) = Some ds].
Proof.
have H := wps_strict (q := 2%:Q) isT; have [Hc _] := strict_convex H.
have [U [ds [ED _ _]]] := convex_backward (R := rat_realFieldType) (mu := 1) ltr01 Hc (last_no_gv _).
have [PU [d Ed]] := sweeps_some (R := rat_realFieldType) (mu := 1) ltr01 H.
have [D [r [fs [ys [E _ _]]]]] := sweep_some (R := rat_realFieldType) (mu := 1) ltr01 (crhs d) H Ed.
have B : bsym (cbt d) := cbt_sym (convex_symmetric Hc) PU Ed.
set t2 := BCons (Vtt (head_vm (c := paramleg (LOne pk0)) d.1)) (- 1%:M) (- 1%:M)^T (cbt (ps := PLast (Term (pk1 2%:Q))) d.2).
have : if sweep (F := QF) (t := t2) (- vt (head_vm (c := paramleg (LOne pk0)) d.1), crhs (ps := PLast (Term (pk1 2%:Q))) d.2) is Some (D1, _, _, _)
  then lower D1 \in unitmx else false.
  by move: E => /=; case: ifPn => //= a; case: ifPn => //= /negPn.
case E2 : (sweep (F := QF) (t := t2) _) => [[[[D2 r2] fs2] ys2]|//] UD.
exists d, D2, r2, fs2, ys2, ds; split=> //.
have S2 : D2^T = D2 by apply: (sweep_sym _ E2); case: B.
by rewrite lower_sym in UD.
Qed.
End Witness.

Print Assumptions C24_legs.
Print Assumptions C24_dims.
Print Assumptions C24_kkt_partial.
Print Assumptions C24_convex_partial.
Print Assumptions C24_singular_refuted.
Print Assumptions C53_upfac.
Print Assumptions C53_collapse_refuted.
