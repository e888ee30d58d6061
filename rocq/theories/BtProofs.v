From Coq Require Import Ring.
From mathcomp Require Import all_ssreflect all_algebra.
From Verif Require Import MxRing RiccatiModel RiccatiProofs BtModel.
Set Implicit Arguments.
Unset Strict Implicit.
Import GRing.Theory.
Local Open Scope ring_scope.

Section Proofs.
Variable F : fieldType.
Add Ring Rring : (ops_ring F).

(** the matrix is symmetric: blocks on the diagonal, and sub = sup^T *)
Fixpoint bsym n (t : bt F n) : Prop :=
  match t with
  | BOne n D => D^T = D
  | BCons n m D B C t' => [/\ D^T = D, C = B^T & bsym t']
  end.

Lemma mul_padr n (t : bt F n) k (M : 'M[F]_(k, n)) (b : bvec t) :
  padr t M *m flat b = M *m bhead b.
Proof. by case: t k M b => //= n' m D B C t k M b; rewrite mul_row_col mul0mx addr0. Qed.
Lemma mul_padd n (t : bt F n) k l (M : 'M[F]_(n, k)) (X : 'M[F]_(k, l)) :
  padd t M *m X = padd t (M *m X).
Proof. by case: t k l M X => //= n' m D B C t k l M X; rewrite mul_col_mx mul0mx. Qed.
Lemma paddD n (t : bt F n) k (A B : 'M[F]_(n, k)) : padd t (A + B) = padd t A + padd t B.
Proof. by case: t k A B => //= n' m D B' C t k A B; rewrite add_col_mx addr0. Qed.
Lemma padd0 n (t : bt F n) k : padd t (0 : 'M[F]_(n, k)) = 0.
Proof. by case: t k => //= n' m D B' C t k; rewrite col_mx0. Qed.
Lemma mul_dense n m D B C (t : bt F m) (x : 'cV[F]_n) (z : bvec t) :
  toDense (BCons D B C t) *m flat (t := BCons D B C t) (x, z) =
  col_mx (D *m x + B *m bhead z) (padd t (C *m x) + toDense t *m flat z).
Proof. by rewrite /= mul_block_col mul_padr mul_padd. Qed.
Lemma flat_inj n (t : bt F n) (a b : bvec t) : flat a = flat b -> a = b.
Proof.
elim: t a b => //= n' m D B C t IH [a1 a2] [b1 b2] /= /eq_col_mx [-> /IH ->]; reflexivity.
Qed.
Lemma bhead_fwd n (t : bt F n) fs ys x : bhead (fwd (t := t) fs ys x) = x.
Proof. by case: t fs ys x. Qed.
Lemma flat_add n (t : bt F n) (a b : bvec t) : flat (badd a b) = flat a + flat b.
Proof. by elim: t a b => //= n' m D B C t IH [a1 a2] [b1 b2] /=; rewrite IH add_col_mx. Qed.
Lemma flat_scale n (t : bt F n) k (a : bvec t) : flat (bscale k a) = k *: flat a.
Proof. by elim: t a => //= n' m D B C t IH [a1 a2] /=; rewrite IH scale_col_mx. Qed.

(** ** product *)
Lemma matmul_fromE n (t : bt F n) beta prev b c :
  flat (matmul_from (t := t) beta prev b c) =
  beta *: flat c + toDense t *m flat b + (if prev is Some v then padd t v else 0).
Proof.
elim: t prev b c => [n' D|n' m D B C t IH] prev.
  move=> b c /=; case: prev => [v|] /=; first by rewrite addrAC.
  by rewrite addr0.
move=> [b1 b2] [c1 c2]; rewrite mul_dense /= IH scale_col_mx.
case: prev => [v|] /=; rewrite !(add_col_mx, addr0); congr col_mx; by mx_open F; ring.
Qed.

(** ** up-looking solver *)
Lemma sweep_sym n (t : bt F n) b D0 r0 fs ys : bsym t ->
  sweep (t := t) b = Some (D0, r0, fs, ys) -> D0^T = D0.
Proof.
elim: t b D0 r0 fs ys => [n' D|n' m D B C t IH] b D0 r0 fs ys /=; first by move=> S [<-].
move=> [SD -> St]; case E : (sweep b.2) => [[[[D1 r1] fs1] ys1]|//].
case: ifPn => // U [<- _ _ _].
have S1 := IH _ _ _ _ _ St E.
rewrite linearB /= SD trmx_mul; congr (_ - _).
rewrite /chol_solve lower_sym // trmx_mul trmxK trmx_inv S1 -mulmxA; congr (_ *m _).
Qed.
Lemma sweep_fwd n (t : bt F n) b D0 r0 fs ys x : bsym t ->
  sweep (t := t) b = Some (D0, r0, fs, ys) ->
  toDense t *m flat (fwd fs ys x) = flat b + padd t (D0 *m x - r0).
Proof.
elim: t b D0 r0 fs ys x => [n' D|n' m D B C t IH] b D0 r0 fs ys x.
  by move=> S [<- <- _ _] /=; rewrite addrC subrK.
move=> [SD SC St]; rewrite [sweep _]/=; case E : (sweep b.2) => [[[[D1 r1] fs1] ys1]|//].
case: ifPn => // /negPn U [<- <- <- <-]; rewrite [fwd _ _ _]/= mul_dense /=.
have S1 := sweep_sym St E.
have E1 := IH _ _ _ _ _ (chol_solve D1 r1 - chol_solve D1 C *m x) St E.
rewrite lower_sym // in U.
rewrite mulmxBr mulmxA !solveP // in E1.
rewrite bhead_fwd E1 addrCA -paddD.
have -> : C *m x + (r1 - C *m x - r1) = 0 by mx_open F; ring.
rewrite padd0 add_col_mx !addr0; congr col_mx.
rewrite !(mulmxDr, mulmxDl, mulNmx, mulmxN) !mulmxA.
by mx_open F; ring.
Qed.
Lemma sweep_unique n (t : bt F n) b D0 r0 fs ys w z : bsym t ->
  sweep (t := t) b = Some (D0, r0, fs, ys) ->
  toDense t *m flat z = flat b + padd t w -> D0 *m bhead z = r0 + w /\ z = fwd fs ys (bhead z).
Proof.
elim: t b D0 r0 fs ys w z => [n' D|n' m D B C t IH] b D0 r0 fs ys w.
  by move=> z S [<- <- _ _] /=.
move=> [x z] [SD SC St]; rewrite [sweep _]/=; case E : (sweep b.2) => [[[[D1 r1] fs1] ys1]|//].
case: ifPn => // /negPn U [<- <- <- <-]; rewrite mul_dense [bhead _]/=.
have S1 := sweep_sym St E; rewrite lower_sym // in U.
rewrite /= add_col_mx addr0 => /eq_col_mx [h1 h2].
have h2' : toDense t *m flat z = flat b.2 + padd t (- (C *m x)).
  by rewrite -h2 addrC addrA -paddD addNr padd0 add0r.
have [e1 e2] := IH _ _ _ _ _ _ _ St E h2'.
have hz : bhead z = chol_solve D1 r1 - chol_solve D1 C *m x.
  by rewrite -[bhead z](mulKmx U) e1 /chol_solve lower_sym // mulmxDr mulmxN mulmxA.
split; last by rewrite {1}e2 hz.
rewrite hz in h1; have -> : b.1 = D *m x + B *m (chol_solve D1 r1 - chol_solve D1 C *m x) - w.
  by rewrite h1 addrK.
rewrite !(mulmxDr, mulmxDl, mulNmx, mulmxN) !mulmxA.
by mx_open F; ring.
Qed.
Theorem solve_correct n (t : bt F n) b x f : bsym t ->
  symmetricBlockTridiagSolve (t := t) b = Ok (x, f) ->
  toDense t *m flat x = flat b /\ (forall z, toDense t *m flat z = flat b -> z = x).
Proof.
rewrite /symmetricBlockTridiagSolve => S; case: ifP => // _.
case E : (sweep b) => [[[[D0 r0] fs] ys]|//]; case: ifPn => // /negPn U [<- _].
have S0 := sweep_sym S E; rewrite lower_sym // in U.
split; first by rewrite (sweep_fwd _ S E) solveP // subrr padd0 addr0.
move=> z Hz; have [|e1 e2] := sweep_unique (w := 0) S E (z := z); first by rewrite padd0 addr0.
rewrite e2; congr (fwd _ _ _).
by rewrite -[bhead z](mulKmx U) e1 addr0 /chol_solve lower_sym.
Qed.

(** the stored factors solve any right-hand side *)
Lemma resweepE n (t : bt F n) b D0 r0 fs ys b2 :
  sweep (t := t) b = Some (D0, r0, fs, ys) ->
  sweep b2 = Some (D0, (resweep fs b2).1, fs, (resweep fs b2).2).
Proof.
elim: t b D0 r0 fs ys b2 => [n' D|n' m D B C t IH] b D0 r0 fs ys b2 /=.
  by move=> [<- _ <- _].
case E : (sweep b.2) => [[[[D1 r1] fs1] ys1]|//]; case: ifPn => // U [<- _ <- _] /=.
by rewrite (IH _ _ _ _ _ b2.2 E) (negbTE U).
Qed.
Theorem step_correct n (t : bt F n) b x f b2 : bsym t ->
  symmetricBlockTridiagSolve (t := t) b = Ok (x, f) ->
  toDense t *m flat (blockTridiagRefinementStep f b2) = flat b2 /\
  (forall z, toDense t *m flat z = flat b2 -> z = blockTridiagRefinementStep f b2).
Proof.
move=> S H.
suff : symmetricBlockTridiagSolve b2 = Ok (blockTridiagRefinementStep f b2, f).
  by move=> /(solve_correct S).
move: H; rewrite /symmetricBlockTridiagSolve; case: ifP => // _.
case E : (sweep b) => [[[[D0 r0] fs] ys]|//]; case: ifPn => // U [_ <-].
by rewrite (resweepE b2 E) (negbTE U).
Qed.

(** ** down-looking solver *)
Lemma bhead_set n (t : bt F n) (b : bvec t) x : bhead (set_bhead b x) = x.
Proof. by case: t b x. Qed.
Lemma flat_set n (t : bt F n) (b : bvec t) x : flat (set_bhead b x) = flat b + padd t (x - bhead b).
Proof.
case: t b x => [n' D|n' m D B C t] b x /=; first by rewrite addrC subrK.
by rewrite add_col_mx addr0 addrC subrK.
Qed.
Lemma down_correct n (t : bt F n) D0 b x : bsym t -> D0^T = D0 ->
  down (t := t) D0 b = Some x ->
  toDense t *m flat x + padd t ((D0 - head_diag t) *m bhead x) = flat b.
Proof.
elim: t D0 b x => [n' D|n' m D B C t IH] D0 b x.
  move=> S S0 /=; case: ifPn => // /negPn U [<-] /=; rewrite lower_sym // in U.
  by rewrite mulmxBl addrC subrK solveP.
move=> [SD SC St] S0 /=; case: ifPn => // /negPn U; rewrite lower_sym // in U.
set b' := set_bhead _ _; set D' := head_diag t - _.
case E : (down D' b') => [x'|//] [<-].
have S' : D'^T = D'.
  have St1 : (head_diag t)^T = head_diag t by case: (t) St => [? ?|? ? ? ? ? ?] //= [].
  rewrite /D' SC linearB /= St1 trmx_mul trmxK; congr (_ - _).
  by rewrite /chol_solve lower_sym // trmx_mul trmx_inv S0 mulmxA.
have := IH _ _ _ St S' E; rewrite /b' flat_set => e.
set y := chol_solve D0 b.1; set L := chol_solve D0 B.
have hy : D0 *m y = b.1 by rewrite solveP.
have hL : D0 *m L = B by rewrite solveP.
rewrite mul_dense /= add_col_mx addr0.
congr col_mx.
  have -> : D *m (y - L *m bhead x') + B *m bhead x' + (D0 - D) *m (y - L *m bhead x') =
    D0 *m y - (D0 *m L) *m bhead x' + B *m bhead x'.
    by rewrite !(mulmxDr, mulmxDl, mulNmx, mulmxN) !mulmxA; mx_open F; ring.
  by rewrite hy hL subrK.
set P := padd t ((D' - _) *m _) in e.
have -> : toDense t *m flat x' = flat b.2 + padd t (bhead b.2 - C *m y - bhead b.2) - P.
  by rewrite -/y -e addrK.
have -> : padd t (bhead b.2 - C *m y - bhead b.2) = P - padd t (C *m (y - L *m bhead x')).
  apply: (addIr (padd t (C *m (y - L *m bhead x')))).
  rewrite subrK -paddD /P /D' -/L; congr padd.
  by rewrite !(mulmxDr, mulmxDl, mulNmx, mulmxN) !mulmxA; mx_open F; ring.
by mx_open F; ring.
Qed.
Theorem down_solves n (t : bt F n) b x : bsym t ->
  symmetricBlockTridiagSolveDownLooking (t := t) b = Ok x -> toDense t *m flat x = flat b.
Proof.
rewrite /symmetricBlockTridiagSolveDownLooking => S; case: ifP => // _.
case E : (down _ b) => [x'|//] [<-].
have S0 : (head_diag t)^T = head_diag t by case: (t) S => [? ?|? ? ? ? ? ?] //= [].
by have := down_correct S S0 E; rewrite subrr mul0mx padd0 addr0.
Qed.
End Proofs.
