From Coq Require Import Ring.
From mathcomp Require Import all_ssreflect all_algebra.
From Verif Require Import MxRing RiccatiModel RiccatiProofs BtModel BtProofs ParModel.
Set Implicit Arguments.
Unset Strict Implicit.
Import GRing.Theory.
Local Open Scope ring_scope.

Section VttSym.
Variable F : fieldType.
Variable p : nat.
Variable mu : F.
Add Ring Rring : (ops_ring F).
(** the parameter Hessians are symmetric *)
Fixpoint tsym n (c : knots F p n) : Prop :=
  match c with
  | @Term _ _ n nu nc m k => (Gth k)^T = Gth k
  | @Cons _ _ n nu nc m k c' => (Gth k)^T = Gth k /\ tsym c'
  end.
Lemma gains_tt n nu nc (S : 'M[F]_(n, nu)) R r (C : 'M[F]_(nc, n)) D d (gu : 'M[F]_(nu, p)) ff fb ft :
  gains_ok mu S R r C D d gu ff fb ft -> R^T = R ->
  (gu^T *m usubmx ft)^T = gu^T *m usubmx ft.
Proof.
move=> H SR; have := kkt_dual SR (g_ft H) (g_ft H).
rewrite -{1 2}[ft]vsubmxK !tr_col_mx !mul_row_col trmx0 mul0mx mulmx0 !addr0 linearN /= mulNmx mulmxN.
by move=> /oppr_inj E; rewrite trmx_mul trmxK -E.
Qed.
Lemma Vtt_sym n (c : knots F p n) ds : symmetric c -> no_gv c -> tsym c -> terminal_unit mu c ->
  backwardImpl mu c = Some ds -> (Vtt (head_vm ds))^T = Vtt (head_vm ds).
Proof.
elim: c ds => [n' nu nc m k|n' nu nc m k c IH] ds.
  move=> [SQ SR] G T U [<-] /=; have H := terminal_ok SR U.
  by rewrite linearD /= T (gains_tt H).
move=> S G T U; rewrite [backwardImpl _ _]/=.
case E : (backwardImpl mu c) => [ds'|//].
case E2 : (stageKernelSolve mu k (head_vm ds')) => [[d vn]|//] [<-].
have S' : symmetric c by case: S.
have G' : no_gv c by case: G.
have T' : tsym c by case: T.
have ST := IH _ S' G' T' U E.
have [SV _ _ _] := backward_good S' G' U E.
move: E2; rewrite /stageKernelSolve sym_vm_id //=.
case: S => [[SQ SR] _]; case: G => G0 _; case: T => T0 _.
set V := head_vm ds' in ST SV *.
set Rhat := Rm k + _; set Shat := Sm k + _.
set qhat := qv k + _; set rhat := rv k + _; set gu := Gu k + _.
have SRh : Rhat^T = Rhat by rewrite /Rhat linearD /= SR !trmx_mul trmxK SV mulmxA.
have -> : lower (kkt_mat mu Rhat (Dm k)) = kkt_mat mu Rhat (Dm k).
  by rewrite lower_sym // kkt_mat_sym.
case: ifPn => // /negPn U' [<- _] /=.
set ft := chol_solve _ (col_mx (- gu) _).
have H : gains_ok mu Shat Rhat rhat (Cm k) (Dm k) (dv k) gu (chol_solve (kkt_mat mu Rhat (Dm k)) (col_mx (- rhat) (- dv k)))
   (chol_solve (kkt_mat mu Rhat (Dm k)) (col_mx (- Shat^T) (- Cm k))) ft.
  by split; rewrite solveP ?kkt_mat_sym // G0 oppr0.
clearbody ft.
have -> : Gth k + Vtt V + (Gu k)^T *m usubmx ft + (Vxt V)^T *m (Bm k *m usubmx ft) =
  Gth k + Vtt V + gu^T *m usubmx ft.
  by rewrite /gu linearD /= trmx_mul trmxK !mulmxDl !mulmxA addrA.
by rewrite 2!linearD /= T0 ST (gains_tt H).
Qed.
End VttSym.

Section Proofs.
Variable F : fieldType.
Variable mu : F.
Add Ring Rring : (ops_ring F).

Lemma cut_app n (c : knots F 0 n) len :
  if cut c len is Some x then lapp (projT2 x).1 (projT2 x).2 = c else True.
Proof.
elim: c len => [//|n' nu nc m k c IH] [|len] //=.
by have := IH len; case: (cut c len) => // [[m' [l r]]] /= ->.
Qed.
Lemma split_flatten lens n (c : knots F 0 n) :
  if split lens c is Some ps then flatten ps = c else True.
Proof.
elim: lens n c => [//|[//|len] lens IH] n c /=.
have := cut_app c len; case: (cut c len) => // [[m [l r]]] /= E.
by have := IH _ r; case: (split lens r) => // ps /= ->.
Qed.
Lemma cut_size n (c : knots F 0 n) len : (len.+1 < size_knots c)%N ->
  exists m l r, cut c len = Some (existT _ m (l, r)) /\ size_knots c = (len.+1 + size_knots r)%N.
Proof.
elim: c len => [//|n' nu nc m k c IH] [|len] /= H; first by exists m, (LOne k), c.
have [m' [l [r [-> ->]]]] := IH len H.
by exists m', (LCons k l), r.
Qed.
Lemma split_some lens n (c : knots F 0 n) : all (fun k => 0 < k)%N lens -> (sumn lens < size_knots c)%N ->
  exists ps, split lens c = Some ps.
Proof.
elim: lens n c => [|[//|len] lens IH] n c /=; first by exists (PLast c).
move=> A H; have [|m [l [r [-> E]]]] := @cut_size _ c len.
  by apply: leq_ltn_trans H; rewrite leq_addr.
have [|ps ->] := IH _ r A; first by rewrite E ltn_add2l in H.
by exists (PCons l ps).
Qed.

(** the matrices in (u, v) of the last knot of each leg are invertible *)
Fixpoint punit n (ps : plegs F n) : bool :=
  match ps with
  | PLast n c => terminal_unit mu c
  | PCons n m l ps' => terminal_unit mu (paramleg l) && punit ps'
  end.

Lemma sym_leg n m (l : leg F n m) c : symmetric (lapp l c) -> symmetric (paramleg l) /\ symmetric c.
Proof.
elim: l c => [n' nu nc m' k|n' nu nc m' m2 k l IH] c /= [S H] //.
by have [? ?] := IH _ H.
Qed.
Lemma leg_no_gv n m (l : leg F n m) : no_gv (paramleg l).
Proof. by elim: l. Qed.
Lemma leg_tsym n m (l : leg F n m) : tsym (paramleg l).
Proof. by elim: l => [*|*] /=; rewrite trmx0. Qed.
Lemma last_no_gv n (c : knots F 0 n) : no_gv c.
Proof. by elim: c => [? ? ? ? k|? ? ? ? k c' IH] /=; rewrite [Gv k]thinmx0. Qed.

Lemma sol_x_stitch n m (l : leg F n m) s th c (s' : sol c) : sol_x (stitch (l := l) s th s') = sol_x s.
Proof. by case: l s th c s'. Qed.
Lemma mul0dim n (G : 'M[F]_(n, 0)) (t : 'cV[F]_0) : G *m t = 0.
Proof. by rewrite [t]flatmx0 mulmx0. Qed.
Lemma stitch_kkt n m (l : leg F n m) lam s th c (s' : sol c) :
  kkt mu th lam s -> dtheta th s = sol_x s' -> kkt mu (0 : 'cV_0) th s' ->
  kkt mu (0 : 'cV_0) lam (stitch (l := l) s th s').
Proof.
elim: l lam s th c s' => [n' nu nc m' k|n' nu nc m' m2 k l IH] lam s th c s'.
  case: s => [[x u] v] /= [hx hu hv] hd hs.
  rewrite !mul0dim !addr0; rewrite mul0mx addr0 in hv; split=> //.
  - by rewrite -hx addrAC.
  - by rewrite -hu addrAC.
  - by rewrite -hd !trmxK trmx0 !mul0mx !addr0; mx_open F; ring.
case: s => [[[[x u] v] l'] s] /= [hx hu hv hd hs] ht hk.
rewrite !mul0dim !addr0; rewrite !mul0mx !addr0 in hx hu hv; split=> //.
  by rewrite sol_x_stitch.
by apply: IH => //; rewrite -ht !trmx0 !mul0mx !add0r.
Qed.

Lemma sweeps_cons n m (l : leg F n m) ps d : sweeps mu (PCons l ps) = Some d ->
  backwardImpl mu (paramleg l) = Some d.1 /\ sweeps mu ps = Some d.2.
Proof.
rewrite /=; case: (backwardImpl _ _) => // d1; case: (sweeps mu ps) => // d2 [<-] //.
Qed.
Lemma cbt_sym n (ps : plegs F n) d : symmetric (flatten ps) -> punit ps -> sweeps mu ps = Some d ->
  bsym (cbt d).
Proof.
elim: ps d => [n' c|n' m l ps IH] d.
  by move=> S U /= /(backward_good S (last_no_gv c) U) [].
move=> /= /sym_leg [Sl Sp] /andP [Ul Up] /sweeps_cons [E1 E2] /=.
have [SV _ _ _] := backward_good Sl (leg_no_gv l) Ul E1.
have ST := Vtt_sym Sl (leg_no_gv l) (leg_tsym l) Ul E1.
by split=> //; split=> //; exact: IH.
Qed.

Lemma dense3 n m (A : 'M[F]_n) (B : 'M[F]_(n, m)) C (D : 'M[F]_m) (t : bt F m) x th (b : bvec t) :
  let t2 := BCons D (- 1%:M) (- 1%:M)^T t in
  toDense (BCons A B C t2) *m flat (t := BCons A B C t2) (x, (th, b)) =
  col_mx (A *m x + B *m th) (col_mx (C *m x + (D *m th - bhead b)) (- padd t th + toDense t *m flat b)).
Proof.
move=> t2; rewrite (mul_dense A B C x (t := t2) (th, b)); congr col_mx.
rewrite (mul_dense D (- 1%:M) (- 1%:M)^T th b) /= add_col_mx add0r.
rewrite mulNmx mul1mx linearN /= trmx1 mulNmx mul1mx; congr (col_mx _ (_ + _)).
by apply/eqP; rewrite -addr_eq0 -paddD addNr padd0.
Qed.
(** the rows of the condensed system from the block of [xs[i0]] on give the KKT
    equations of the remaining legs *)
Lemma rows_kkt n (ps : plegs F n) d (b : bvec (cbt (ps := ps) d)) lam :
  symmetric (flatten ps) -> punit ps -> sweeps mu ps = Some d ->
  toDense (cbt d) *m flat b = flat (crhs d) + padd (cbt d) lam ->
  kkt mu (0 : 'cV_0) lam (pforward_from b) /\ sol_x (pforward_from b) = bhead b.
Proof.
elim: ps d b lam => [n' c|n' m l ps IH] d.
  move=> b lam /= S U E H; have [SV K _ _] := backward_good S (last_no_gv c) U E.
  rewrite sol_x_forward; split=> //; have := K None b; rewrite /= H mulmx0 addr0.
  by rewrite addrAC addNr add0r.
move=> [x [th b]] lam /sym_leg [Sl Sp] /= /andP [Ul Up] /sweeps_cons [E1 E2].
have [SV K T _] := backward_good Sl (leg_no_gv l) Ul E1.
set V := head_vm d.1 in SV K T *.
have := dense3 (Vxx V) (Vxt V) (Vxt V)^T (Vtt V) x th (t := cbt d.2) b.
rewrite /= => ->; rewrite !add_col_mx !addr0 => /eq_col_mx [h1 /eq_col_mx [h2 h3]].
have h3' : toDense (cbt d.2) *m flat b = flat (crhs d.2) + padd (cbt d.2) th.
  rewrite -h3 addrAC addNr add0r; reflexivity.
have [k1 k2] := IH _ _ _ Sp Up E2 h3'.
split; last by rewrite sol_x_stitch sol_x_forward.
apply: stitch_kkt k1; rewrite ?k2.
  have := K (Some th) x; rewrite /= => h; move: h; congr (kkt _ _ _ _).
  have -> : lam = Vxx V *m x + Vxt V *m th + vx V by rewrite h1 addrAC addNr add0r.
  by rewrite addrAC.
have := T (Some th) x; rewrite /= => ->.
move: h2; move: (Vtt V *m th) ((Vxt V)^T *m x) => a e h2.
have -> : vt V = - (e + (a - bhead b)) by rewrite h2 opprK.
move: (bhead b) => y; by rewrite opprD opprB -[_ + a]addrA subrK addrAC addNr add0r.
Qed.
Theorem condensed_kkt n nc0 (ps : plegs F n) d (G0 : 'M[F]_(nc0, n)) g0 (s : bvec (condensed d G0)) :
  symmetric (flatten ps) -> punit ps -> sweeps mu ps = Some d ->
  toDense (condensed d G0) *m flat s = flat (condensed_rhs d G0 g0) ->
  kkt_system mu (0 : 'cV_0) G0 g0 (pforward (G0 := G0) (existT _ d s)).
Proof.
case: s => l b S U E; rewrite mul_dense /= => /eq_col_mx [h1 h2].
rewrite mul0mx add0r in h1.
have [|h3 h4] := rows_kkt (b := b) (lam := - (G0^T *m l)) S U E.
  rewrite -h2 addrAC -paddD subrr padd0 add0r; reflexivity.
by split; rewrite //= h4 h1 addNr.
Qed.
End Proofs.
