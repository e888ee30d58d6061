(** C41, C42: functions built from other functions, and finite differences. *)
From mathcomp Require Import all_ssreflect all_algebra.
From Verif Require Import MxRing FunModel.
Set Implicit Arguments.
Unset Strict Implicit.
Import GRing.Theory.
Local Open Scope ring_scope.

Section Fun.
Variable F : fieldType.
Add Ring Fring : (ops_ring F).

(** ** Specification *)

(** Data that any sequence of calls, at any points, can leave. *)
Inductive reach n m r (f : sfun F n m r) : fst_t f -> Prop :=
| reach_new : reach (fnew f)
| reach_eval s x u : reach s -> reach (feval x u s)
| reach_jac s x u : reach s -> reach (fjacs x u s)
| reach_vhp s x u lam s' : reach s -> fvhps x u lam s = Some s' -> reach s'.

(** evaluate leaves [fv x u] in value_, whatever was called before *)
Definition evaluates n m r (f : sfun F n m r) (fv : 'cV[F]_n -> 'cV[F]_m -> 'cV[F]_r) :=
  forall s, reach s -> forall x u, fval (fout (feval (s := f) x u s)) = fv x u.

(** evaluate then computeJacobians leave [fv x u] and [J x u] *)
Definition computes n m r (f : sfun F n m r) (fv : 'cV[F]_n -> 'cV[F]_m -> 'cV[F]_r)
    (J : 'cV[F]_n -> 'cV[F]_m -> 'M[F]_(r, n + m)) :=
  forall s, reach s -> forall x u,
  let s1 := feval (s := f) x u s in
  let s2 := fjacs (s := f) x u s1 in
  [/\ fval (fout s1) = fv x u, fval (fout s2) = fv x u & fjac (fout s2) = J x u].

Lemma computes_evaluates n m r (f : sfun F n m r) fv J : computes f fv J -> evaluates f fv.
Proof. by move=> H s R x u; case: (H s R x u). Qed.


Lemma set_Jx_K n m r (d : fdata F n m r) J : lsubmx (fjac (set_Jx d J)) = J.
Proof. by rewrite /= row_mxKl. Qed.

(** ** Elementary functions *)

Lemma linear_jac n m r (d : fdata F n m r) A B :
  fjac (set_Ju (set_Jx d A) B) = row_mx A B.
Proof. by rewrite /= row_mxKl. Qed.

(** C41: LinearFunction has value d + A x + B u and Jacobian [A B]. *)
Theorem C41_linear n m r (A : 'M[F]_(r, n)) (B : 'M[F]_(r, m)) (d : 'cV[F]_r) :
  computes (linear_fun A B d) (fun x u => d + A *m x + B *m u) (fun x u => row_mx A B).
Proof. by move=> s _ x u /=; split=> //; rewrite row_mxKl. Qed.

Lemma state_error_Ju n m (t : 'cV[F]_n) s :
  reach (f := state_error m t) s -> rsubmx (fjac s) = 0.
Proof.
elim=> //=.
- by rewrite linear0.
- by move=> {}s x u _ E; rewrite row_mxKr.
- by move=> {}s x u lam s' _ E [<-].
Qed.

(** C41: the state error has value x - target and Jacobian [I 0]. *)
Theorem C41_state_error n m (t : 'cV[F]_n) :
  computes (state_error m t) (fun x u => x - t) (fun x u => row_mx 1%:M 0).
Proof.
move=> s R x u /=; split=> //.
by rewrite (state_error_Ju R).
Qed.

Lemma control_error_Jx n m (t : 'cV[F]_m) s :
  reach (f := control_error n t) s -> lsubmx (fjac s) = 0.
Proof.
elim=> //=.
- by rewrite linear0.
- by move=> {}s x u _ E; rewrite row_mxKl.
- by move=> {}s x u lam s' _ E [<-].
Qed.

(** C41: the control error has value u - target and Jacobian [0 I]. *)
Theorem C41_control_error n m (t : 'cV[F]_m) :
  computes (control_error n t) (fun x u => u - t) (fun x u => row_mx 0 1%:M).
Proof. by move=> s R x u /=; split=> //; rewrite (control_error_Jx R). Qed.

Lemma set_diag_scalar m (c d : F) : set_diag (m := m) c d%:M = c%:M.
Proof. by apply/matrixP => i j; rewrite !mxE; case: (i == j). Qed.
Lemma set_diag0 m (c : F) : set_diag (m := m) c 0 = c%:M.
Proof. by apply/matrixP => i j; rewrite !mxE; case: (i == j). Qed.

Lemma box_jac n m (lo hi : 'cV[F]_m) s :
  reach (f := control_box n lo hi) s ->
  fjac s = row_mx 0 (col_mx (- 1)%:M 1%:M).
Proof.
elim=> //=.
- by rewrite !linear0 !set_diag0.
- by move=> {}s x u _ ->; rewrite row_mxKl row_mxKr col_mxKu col_mxKd !set_diag_scalar.
- by move=> {}s x u lam s' _ E [<-].
Qed.

(** C41: ControlBoxFunction has value [lo - u; u - hi] and Jacobian [0 -I; 0 I]. *)
Theorem C41_control_box n m (lo hi : 'cV[F]_m) :
  computes (control_box n lo hi) (fun x u => col_mx (lo - u) (u - hi))
    (fun x u => row_mx 0 (col_mx (- 1)%:M 1%:M)).
Proof.
move=> s R x u /=; split=> //.
by rewrite (box_jac R) row_mxKl row_mxKr col_mxKu col_mxKd !set_diag_scalar.
Qed.

(** ** Slices *)

Lemma slice_rows_seq k r c (idx : 'I_k -> 'I_r) (src : 'M[F]_(r, c)) (l : seq 'I_k) d a b :
  (foldl (fun d j => set_row d j (row (idx j) src)) d l) a b
  = if a \in l then src (idx a) b else d a b.
Proof.
elim: l d => [|j l IH] d //=.
rewrite IH in_cons !mxE; case: (a \in l); first by rewrite orbT.
by rewrite orbF; case: (a =P j) => [->|].
Qed.
Lemma slice_rowsE k r c (idx : 'I_k -> 'I_r) d (src : 'M[F]_(r, c)) :
  slice_rows idx d src = rowsub idx src.
Proof. by apply/matrixP => a b; rewrite slice_rows_seq mem_enum mxE. Qed.

Lemma reach_slice n m r k (f : sfun F n m r) (idx : 'I_k -> 'I_r) s :
  reach (f := slice f idx) s -> reach s.2 /\ fvhp s.1 = 0.
Proof.
elim=> [|{}s x u _ [R H]|{}s x u _ [R H]|{}s x u lam s' _ [R H]] /=.
- by split=> //; apply: reach_new.
- by split=> //; apply: reach_eval.
- by split=> //; apply: reach_jac.
- case: (slice_lam idx lam) => // l; case: {-}_ / idP => // e.
  case E: (fvhps _ _ _ _) => [sub|] // [<-]; split=> //=.
  exact: (reach_vhp R E).
Qed.

(** C41: a slice has the selected rows of the value and of the Jacobian, in the
    order of the indices (with repetitions). *)
Theorem C41_slice n m r k (f : sfun F n m r) (idx : 'I_k -> 'I_r) fv J :
  computes f fv J ->
  computes (slice f idx) (fun x u => \col_j fv x u (idx j) 0)
                         (fun x u => \matrix_(j, c) J x u (idx j) c).
Proof.
move=> Hf s R x u /=; have [R2 _] := reach_slice R.
have [E1 E2 E3] := Hf _ R2 x u.
split; rewrite slice_rowsE.
- by rewrite E1; apply/matrixP => i j; rewrite !mxE (ord1 j).
- by rewrite E1; apply/matrixP => i j; rewrite !mxE (ord1 j).
- by rewrite E3; apply/matrixP => i j; rewrite !mxE.
Qed.

(** C41: a slice of fewer (or more) rows than the function fails when asked for
    the vector-Hessian product. *)
Theorem C41_slice_vhp_fails n m r k (f : sfun F n m r) (idx : 'I_k -> 'I_r) x u lam s :
  k != r -> fvhps (s := slice f idx) x u lam s = None.
Proof.
move=> N /=; case: (slice_lam idx lam) => // l; case: {-}_ / idP => // e.
by exfalso; move/negP: N; apply; exact: e.
Qed.

(** C41: whatever was called, the slice's vector-Hessian buffer is zero. *)
Theorem C41_slice_vhp_zero n m r k (f : sfun F n m r) (idx : 'I_k -> 'I_r) s :
  reach (f := slice f idx) s -> fvhp (fout (s := slice f idx) s) = 0.
Proof. by move=> R; have [_ H] := reach_slice R. Qed.

(** ** Linear compositions *)

Lemma reach_compose n m r k (A : 'M[F]_(k, r)) b (f : sfun F n m r) s :
  reach (f := compose A b f) s -> reach s.2.
Proof.
elim=> [|{}s x u _ R|{}s x u _ R|{}s x u lam s' _ R] /=.
- exact: reach_new.
- exact: reach_eval.
- exact: reach_jac.
- by case=> <-.
Qed.

(** C41: a linear composition has value A f(x,u) + b and Jacobian A J. *)
Theorem C41_compose n m r k (A : 'M[F]_(k, r)) b (f : sfun F n m r) fv J :
  computes f fv J ->
  computes (compose A b f) (fun x u => A *m fv x u + b) (fun x u => A *m J x u).
Proof.
move=> Hf s R x u /=; have R2 := reach_compose R.
have [E1 E2 E3] := Hf _ R2 x u.
by split; rewrite ?E1 ?E3 // addrC.
Qed.

(** ** Finite differences *)

Section Fd.
Variables (n m r : nat) (f : sfun F n m r) (eps : F).
Variables (fv : 'cV[F]_n -> 'cV[F]_m -> 'cV[F]_r).
Hypothesis (Hf : evaluates f fv).

Lemma set_entry_back k (i : 'I_k) : set_entry (set_entry 0 i eps) i 0 = 0 :> 'cV[F]_k.
Proof. by apply/matrixP => a b; rewrite !mxE; case: (a == i); rewrite ?mxE. Qed.
Lemma set_entry_delta k (i : 'I_k) : set_entry 0 i eps = eps *: delta_mx i 0 :> 'cV[F]_k.
Proof.
apply/matrixP => a b; rewrite !mxE (ord1 b) eqxx andbT.
by case: (a == i); rewrite ?mulr1 ?mulr0.
Qed.

(** difference quotients *)
Definition quot_x x u : 'M[F]_(r, n) :=
  \matrix_(a, i) ((fv (x + eps *: delta_mx i 0) u a 0 - fv x u a 0) / eps).
Definition quot_u x u : 'M[F]_(r, m) :=
  \matrix_(a, i) ((fv x (u + eps *: delta_mx i 0) a 0 - fv x u a 0) / eps).

Definition fd_ok (s : fd_data f) := [/\ reach (fd_0 s), reach (fd_1 s), fd_dx s = 0 & fd_du s = 0].

Lemma loop_x x u l (s : fd_data f) : fd_ok s -> fval (fout (fd_0 s)) = fv x u ->
  let s' := foldl (fd_turn_x eps x u) s l in
  [/\ fd_ok s', fd_0 s' = fd_0 s, fval (fd_out s') = fval (fd_out s),
      (forall a (i : 'I_n), fjac (fd_out s') a (lshift m i)
         = if i \in l then quot_x x u a i else fjac (fd_out s) a (lshift m i))
    & (forall a (i : 'I_m), fjac (fd_out s') a (rshift n i) = fjac (fd_out s) a (rshift n i))].
Proof.
elim: l s => [|j l IH] s Hs H0 //=.
have [R0 R1 Ex Eu] := Hs.
have Hs1 : fd_ok (fd_turn_x eps x u s j).
  by split=> //=; [apply: reach_eval|rewrite Ex set_entry_back].
have [H1 H2 H3 H4 H5] := IH _ Hs1 H0.
split=> //.
- move=> a i; rewrite H4 in_cons; case: (i \in l); first by rewrite orbT.
  rewrite orbF /= row_mxEl !mxE; case: (i =P j) => // ->.
  rewrite Ex set_entry_delta (Hf R1) -/(fv _ _) H0.
  by rewrite mulrC.
- by move=> a i; rewrite H5 /= row_mxEr mxE.
Qed.

Lemma loop_u x u l (s : fd_data f) : fd_ok s -> fval (fout (fd_0 s)) = fv x u ->
  let s' := foldl (fd_turn_u eps x u) s l in
  [/\ fd_ok s', fval (fd_out s') = fval (fd_out s),
      (forall a (i : 'I_m), fjac (fd_out s') a (rshift n i)
         = if i \in l then quot_u x u a i else fjac (fd_out s) a (rshift n i))
    & (forall a (i : 'I_n), fjac (fd_out s') a (lshift m i) = fjac (fd_out s) a (lshift m i))].
Proof.
elim: l s => [|j l IH] s Hs H0 //=.
have [R0 R1 Ex Eu] := Hs.
have Hs1 : fd_ok (fd_turn_u eps x u s j).
  by split=> //=; [apply: reach_eval|rewrite Eu set_entry_back].
have [H1 H3 H4 H5] := IH _ Hs1 H0.
split=> //.
- move=> a i; rewrite H4 in_cons; case: (i \in l); first by rewrite orbT.
  rewrite orbF /= row_mxEr !mxE; case: (i =P j) => // ->.
  rewrite Eu set_entry_delta (Hf R1) -/(fv _ _) H0.
  by rewrite mulrC.
- by move=> a i; rewrite H5 /= row_mxEl mxE.
Qed.

(** the calls keep the perturbations at zero and the data reachable *)
Lemma fd_loops_ok x u (s : fd_data f) : fd_ok s -> fd_ok (fjacs (s := fin_diff eps f) x u s).
Proof.
move=> Hs /=.
have A : forall l (t : fd_data f), fd_ok t -> fd_ok (foldl (fd_turn_x eps x u) t l).
  elim=> [|j l IH] t [R0 R1 Ex Eu] //=; apply: IH; split=> //=; first exact: reach_eval.
  by rewrite Ex set_entry_back.
have B : forall l (t : fd_data f), fd_ok t -> fd_ok (foldl (fd_turn_u eps x u) t l).
  elim=> [|j l IH] t [R0 R1 Ex Eu] //=; apply: IH; split=> //=; first exact: reach_eval.
  by rewrite Eu set_entry_back.
exact/B/A.
Qed.

Lemma reach_fd s : reach (f := fin_diff eps f) s -> fd_ok s.
Proof.
elim=> [|{}s x u _ [R0 R1 Ex Eu]|{}s x u _ H|{}s x u lam s' _ H [<-]] //.
- by split=> //; apply: reach_new.
- by split=> //=; apply: reach_eval.
- exact: fd_loops_ok.
Qed.

(** C42: the value is the function's, and the columns of the Jacobian are the
    forward difference quotients, for every function. *)
Theorem C42_columns :
  computes (fin_diff eps f) fv (fun x u => row_mx (quot_x x u) (quot_u x u)).
Proof.
move=> s R x u; have [R0 R1 Ex Eu] := reach_fd R.
set s1 := feval x u s; set s2 := fjacs x u s1.
have H1 : fd_ok s1 by split=> //=; apply: reach_eval.
have V1 : fval (fout (fd_0 s1)) = fv x u by rewrite /= (Hf R0).
have [L1 L2 L3 L4 L5] := loop_x (enum 'I_n) H1 V1.
have [M1 M3 M4 M5] := loop_u (enum 'I_m) L1 (etrans (congr1 (fun t => fval (fout t)) L2) V1).
split; first exact: V1.
- by rewrite M3 L3.
- apply/matrixP => a b; rewrite -(splitK b); case: (split b) => i /=.
  + by rewrite M5 L4 mem_enum row_mxEl.
  + by rewrite M4 mem_enum row_mxEr.
Qed.
End Fd.

(** C42: on an affine function the Jacobian is exact for every step but zero. *)
Theorem C42_affine n m r (f : sfun F n m r) (eps : F) (A : 'M[F]_(r, n)) (B : 'M[F]_(r, m)) c :
  eps != 0 ->
  evaluates f (fun x u => c + A *m x + B *m u) ->
  computes (fin_diff eps f) (fun x u => c + A *m x + B *m u) (fun x u => row_mx A B).
Proof.
move=> He Hf s R x u; have [E1 E2 E3] := C42_columns Hf R x u.
split=> //; rewrite E3; congr row_mx; apply/matrixP => a i; rewrite mxE.
- rewrite mulmxDr -scalemxAr -colE !mxE.
  rewrite (_ : _ - _ = eps * A a i); first by rewrite mulrAC divff // mul1r.
  by do ?move: (\sum_j _) => ?; fold_ops F; norm_entries F; ring.
- rewrite mulmxDr -scalemxAr -colE !mxE.
  rewrite (_ : _ - _ = eps * B a i); first by rewrite mulrAC divff // mul1r.
  by do ?move: (\sum_j _) => ?; fold_ops F; norm_entries F; ring.
Qed.

End Fun.

(** ** Witnesses *)

Notation QF := rat_fieldType.
Add Ring QFring : (ops_ring QF).

(** [x |-> x^2/2] as a stage function with its second derivative. *)
Definition sq_fun : sfun QF 1 0 1 :=
  @SFun QF 1 0 1 (fdata QF 1 0 1) (fdata0 QF 1 0 1)
    (fun x u s => set_val s (const_mx (x 0 0 * x 0 0 / 2%:R)))
    (fun x u s => set_Jx s x^T)
    (fun x u lam s => Some (set_vhp s (const_mx (lam 0 0))))
    id.

(** [H] is the vector-Hessian product of a quadratic function [fv] with Jacobian
    [J]: the second-order term of [lam . fv] along any move. *)
Definition is_vhp n m r (fv : 'cV[QF]_n -> 'cV[QF]_m -> 'cV[QF]_r) J
    (H : 'cV[QF]_n -> 'cV[QF]_m -> 'cV[QF]_r -> 'M[QF]_(n + m)) :=
  forall x u lam dx du, let d := col_mx dx du in
  dot lam (fv (x + dx) (u + du))
  = dot lam (fv x u + J x u *m d) + (2%:R)^-1 * dot d (H x u lam *m d).

Lemma sq_fun_ok :
  computes sq_fun (fun x u => const_mx (x 0 0 * x 0 0 / 2%:R)) (fun x u => row_mx x^T 0).
Proof.
move=> s R x u; split=> //=; congr row_mx.
by apply/matrixP => a [].
Qed.

Lemma dot1 (x y : 'cV[QF]_1) : dot x y = x 0 0 * y 0 0.
Proof. by rewrite dot_sum big_ord1. Qed.

Lemma sq_fun_vhp : is_vhp (fun (x : 'cV[QF]_1) (u : 'cV[QF]_0) => const_mx (x 0 0 * x 0 0 / 2%:R))
  (fun x u => row_mx x^T 0) (fun x u lam => const_mx (lam 0 0)).
Proof.
move=> x u lam dx du d.
have Ed : forall i, d i 0 = dx 0 0.
  by move=> i; rewrite /d mxE; case: splitP => [j _|[]//]; rewrite (ord1 j).
have E1 : (row_mx x^T 0 *m d) 0 0 = x 0 0 * dx 0 0.
  by rewrite /d mul_row_col mul0mx addr0 mxE big_ord1 mxE.
have E2 : (const_mx (lam 0 0) *m d : 'cV_(1 + 0)) 0 0 = lam 0 0 * dx 0 0.
  by rewrite mxE big_ord_recl big_ord0 addr0 Ed mxE.
rewrite !dot1 E2 Ed [X in _ = _ * X + _]mxE E1 !mxE.
move: (x 0 0) (dx 0 0) (lam 0 0) => a b c.
have T : (2%:R : rat)^-1 + 2%:R^-1 = 1 by [].
rewrite -[a * b]mulr1 -T; move: (2%:R^-1) => h.
by fold_ops QF; ring.
Qed.

(** C41: a slice does not return the vector-Hessian product: with all the rows of
    [x |-> x^2/2] selected and multiplier 1 the function's product is 1, the
    slice's is 0, and so is the one it asked the function for. *)
Theorem C41_slice_vhp_refuted :
  exists (f : sfun QF 1 0 1) fv (J : 'cV[QF]_1 -> 'cV[QF]_0 -> 'M[QF]_(1, 1 + 0)) H,
    [/\ computes f fv J, is_vhp fv J H,
        (forall s x u lam,
           if fvhps (s := f) x u lam s is Some s' then fvhp (fout s') = H x u lam else False)
      & exists x u lam, H x u lam <> 0 /\
        forall s, reach (f := slice f id) s ->
        if fvhps (s := slice f id) x u lam s is Some s' then
          fvhp (fout (s := slice f id) s') = 0 /\ fvhp (fout (s := f) s'.2) = 0
        else False].
Proof.
exists sq_fun, (fun x u => const_mx (x 0 0 * x 0 0 / 2%:R)), (fun x u => row_mx x^T 0),
  (fun x u lam => const_mx (lam 0 0)).
split=> //; [exact: sq_fun_ok|exact: sq_fun_vhp|].
exists 0, 0, (const_mx 1); split.
  by move/matrixP/(_ 0 0); rewrite !mxE => /eqP; rewrite oner_eq0.
move=> s R; have [_ H0] := reach_slice R.
have E : slice_lam (F := QF) (k := 1) id (const_mx 1) = Some 0.
  rewrite /slice_lam enum_ordSl enum_ord0 /=.
  case: insubP => [i _ _|] //; congr Some.
  by apply/matrixP => a b; rewrite !mxE (ord1 a) (ord1 i) eqxx.
rewrite /= E; case: {-}_ / idP => // e /=; split=> //.
by rewrite castmx_id; apply/matrixP => a b; rewrite !mxE.
Qed.

(** The hypotheses of C41_slice and C41_compose at work: rows 2, 0, 2 of an affine
    function of 3 rows, then the sum of the rows. *)
Definition ex_A : 'M[QF]_(3, 2) := \matrix_(i, j) (i + 2 * j)%:R.
Definition ex_idx : 'I_3 -> 'I_3 := fun j => if j == 1%N :> nat then ord0 else ord_max.
Definition ex_f : sfun QF 2 1 3 := linear_fun ex_A (const_mx 1) 0.
Example C41_example s : reach (f := compose (const_mx 1 : 'M[QF]_(1, 3)) (const_mx 5%:R) (slice ex_f ex_idx)) s ->
  let s1 := feval (const_mx 1) (const_mx 2%:R) s in
  fval (fout s1) 0 0 = 25%:R.
Proof.
move=> R s1.
have [E _ _] := C41_compose (A := const_mx 1) (b := const_mx 5%:R)
  (C41_slice (idx := ex_idx) (C41_linear (A := ex_A) (B := const_mx 1) (d := 0))) R (const_mx 1) (const_mx 2%:R).
rewrite [LHS](congr1 (fun v : 'cV_1 => v 0 0) E).
by rewrite !(mxE, big_ord_recr, big_ord0) /=.
Qed.

(** Finite differences of that function with step 1/2: the Jacobian is exact. *)
Example C42_example s : reach (f := fin_diff (2%:R^-1) ex_f) s ->
  forall x u, fjac (fout (fjacs x u (feval x u s))) = row_mx ex_A (const_mx 1).
Proof.
move=> R x u.
have H : evaluates ex_f (fun x u => 0 + ex_A *m x + const_mx 1 *m u).
  exact: computes_evaluates (@C41_linear _ _ _ _ _ _ _).
by have [_ _ ->] := C42_affine (isT : (2%:R^-1 : QF) != 0) H R x u.
Qed.

(** On a quadratic function they are not exact: for [x^2/2] at 0 the Jacobian is
    half the step instead of 0. *)
Example C42_quadratic_refuted s : reach (f := fin_diff (2%:R^-1) sq_fun) s ->
  fjac (fout (fjacs (s := fin_diff (2%:R^-1) sq_fun) 0 0 (feval (s := fin_diff (2%:R^-1) sq_fun) 0 0 s))) 0 0 = 4%:R^-1.
Proof.
move=> R; have [_ _ ->] := C42_columns (computes_evaluates sq_fun_ok) R 0 0.
rewrite (_ : 0 = lshift 0 (0 : 'I_1)); last exact: val_inj.
by rewrite row_mxEl !mxE.
Qed.

Print Assumptions C41_linear.
Print Assumptions C41_state_error.
Print Assumptions C41_control_error.
Print Assumptions C41_control_box.
Print Assumptions C41_slice.
Print Assumptions C41_slice_vhp_fails.
Print Assumptions C41_slice_vhp_zero.
Print Assumptions C41_slice_vhp_refuted.
Print Assumptions C41_compose.
Print Assumptions C42_columns.
Print Assumptions C42_affine.
