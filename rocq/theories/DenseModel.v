(** Model of the stage-dense Riccati solver, /repo/include/aligator/gar/dense-kernel.hpp and
    dense-riccati.hxx, on the problems of RiccatiModel (any field, stage-dependent dimensions).

    Simplifications: scalars are exact.  [ldl.compute(M)] then [solveInPlace(b)] is the exact
    solve with the symmetric matrix of the lower triangle of M when that matrix is invertible
    (this is C30); [info()] is never looked at, and what is returned for a singular matrix is
    the oracle [junk].  Eigen's [noalias] is taken at its word.  Right-hand side blocks which a
    routine does not write hold the oracle [stale].  cycleAppend (118-147) is not modelled. *)
From mathcomp Require Import all_ssreflect all_algebra.
From Verif Require Import RiccatiModel.
Set Implicit Arguments.
Unset Strict Implicit.
Import GRing.Theory.
Local Open Scope ring_scope.

Section Dense.
Variable F : fieldType.
Variable p : nat.
Variable junk : forall n k, 'M[F]_n -> 'M[F]_(n, k) -> 'M[F]_(n, k).
Variable stale : forall n k, 'M[F]_(n, k).

(** DenseKernel::Data, 18-43: ff, fb, ft in the blocks u, v, lambda', x'; the value of the stage
    (47-53; Pxx, px, Pxt, Ptt, pt) is kept with it *)
Record dfactor (n nu nc m : nat) := DFactor {
  dff : 'cV[F]_((nu + nc) + (m + m)); dfb : 'M[F]_((nu + nc) + (m + m), n);
  dft : 'M[F]_((nu + nc) + (m + m), p); dval : ctg F p n }.
Definition bu nu nc m k (w : 'M[F]_((nu + nc) + (m + m), k)) : 'M[F]_(nu, k) := usubmx (usubmx w).
Definition bv nu nc m k (w : 'M[F]_((nu + nc) + (m + m), k)) : 'M[F]_(nc, k) := dsubmx (usubmx w).
Definition bl nu nc m k (w : 'M[F]_((nu + nc) + (m + m), k)) : 'M[F]_(m, k) := usubmx (dsubmx w).
Definition by_ nu nc m k (w : 'M[F]_((nu + nc) + (m + m), k)) : 'M[F]_(m, k) := dsubmx (dsubmx w).
Definition col4 nu nc m k (a : 'M[F]_(nu, k)) (b : 'M[F]_(nc, k)) (c d : 'M[F]_(m, k)) :
  'M[F]_((nu + nc) + (m + m), k) := col_mx (col_mx a b) (col_mx c d).
(** ldl.compute(M); ldl.solveInPlace(b) *)
Definition dsolve n k (M : 'M[F]_n) (b : 'M[F]_(n, k)) : 'M[F]_(n, k) :=
  if lower M \in unitmx then invmx (lower M) *m b else junk M b.

Section Mu.
Variable mu : F.
(** terminalSolve, 55-94 *)
Definition terminal_mat n nu nc m (k : knot F p n nu nc m) : 'M[F]_((nu + nc) + (m + m)) :=
  block_mx (kkt_mat mu (Rm k) (Dm k)) 0 0 0.
Definition dterminal n nu nc m (k : knot F p n nu nc m) : dfactor n nu nc m :=
  let M := terminal_mat k in
  let ff := dsolve M (col4 (- rv k) (- dv k) (stale _ _) (stale _ _)) in
  let fb := dsolve M (col4 (- (Sm k)^T) (- Cm k) (stale _ _) (stale _ _)) in
  let ft := dsolve M (col4 (- Gu k) (- Gv k) (stale _ _) (stale _ _)) in
  DFactor ff fb ft
    (Ctg (Qm k + Sm k *m bu fb + (Cm k)^T *m bv fb)
         (qv k + Sm k *m bu ff + (Cm k)^T *m bv ff)
         (Gx k + (bu fb)^T *m Gu k + (bv fb)^T *m Gv k)
         (Gth k + (Gu k)^T *m bu ft + (Gv k)^T *m bv ft)
         (gam k + (Gu k)^T *m bu ff + (Gv k)^T *m bv ff)).
(** stageKernelSolve, 96-170; the solver always passes vn *)
Definition stage_mat n nu nc m (k : knot F p n nu nc m) (vn : ctg F p m) : 'M[F]_((nu + nc) + (m + m)) :=
  block_mx (kkt_mat mu (Rm k) (Dm k)) (block_mx (Bm k)^T 0 0 0) (block_mx (Bm k) 0 0 0)
           (block_mx 0 (- 1%:M) (- 1%:M) (Vxx vn)).
Definition dstage n nu nc m (k : knot F p n nu nc m) (vn : ctg F p m) : dfactor n nu nc m :=
  let M := stage_mat k vn in
  let ff := dsolve M (col4 (- rv k) (- dv k) (- fv k) (- vx vn)) in
  let fb := dsolve M (col4 (- (Sm k)^T) (- Cm k) (- Am k) 0) in
  let ft := dsolve M (col4 (- Gu k) (- Gv k) 0 (- Vxt vn)) in
  DFactor ff fb ft
    (Ctg (Qm k + Sm k *m bu fb + (Cm k)^T *m bv fb + (Am k)^T *m bl fb)
         (qv k + Sm k *m bu ff + (Cm k)^T *m bv ff + (Am k)^T *m bl ff)
         (Gx k + (bu fb)^T *m Gu k + (bv fb)^T *m Gv k + (by_ fb)^T *m Vxt vn)
         (Gth k + (bu ft)^T *m Gu k + (bv ft)^T *m Gv k + (by_ ft)^T *m Vxt vn)
         (gam k + (Gu k)^T *m bu ff + (Gv k)^T *m bv ff + (Vxt vn)^T *m by_ ff)).

Fixpoint dfactors n (c : knots F p n) : Type :=
  match c with
  | @Term _ _ n nu nc m k => dfactor n nu nc m
  | @Cons _ _ n nu nc m k c' => (dfactor n nu nc m * dfactors c')%type
  end.
Definition dhead n (c : knots F p n) : dfactors c -> ctg F p n :=
  match c in knots _ _ n return dfactors c -> ctg F p n with
  | @Term _ _ n nu nc m k => fun d => dval d
  | @Cons _ _ n nu nc m k c' => fun d => dval d.1
  end.
Fixpoint dstages n (c : knots F p n) : dfactors c :=
  match c with
  | @Term _ _ n nu nc m k => dterminal k
  | @Cons _ _ n nu nc m k c' => (dstage k (dhead (dstages c')), dstages c')
  end.
(** RiccatiSolverDense::backward, 46-90.  For a problem with the terminal knot only, [i = N - 1]
    is 2^32 - 1 and stages[i] is read out of bounds (55-62): None *)
Definition dbackward n nc0 (c : knots F p n) (G0 : 'M[F]_(nc0, n)) (g0 : 'cV[F]_nc0) :
  option (dfactors c * init_factor F p n nc0) :=
  match c with
  | Term _ _ _ _ _ => None
  | Cons _ _ _ _ _ _ =>
    let ds := dstages c in let v := dhead ds in
    let M := kkt0_mat v G0 in
    let f := dsolve M (col_mx (- vx v) (- g0)) in
    let ft := dsolve M (col_mx (- Vxt v) 0) in
    Some (ds, InitFactor f ft (vt v + (Vxt v)^T *m usubmx f) (Vtt v + (Vxt v)^T *m usubmx ft))
  end.
End Mu.

(** forwardStep, 172-213, from the stage whose state is [x] *)
Fixpoint dforward_from n (c : knots F p n) (th : option 'cV[F]_p) : dfactors c -> 'cV[F]_n -> sol c :=
  match c in knots _ _ n return dfactors c -> 'cV[F]_n -> sol c with
  | @Term _ _ n nu nc m k => fun d x =>
      (x, addth (bu (dff d) + bu (dfb d) *m x) (bu (dft d)) th,
          addth (bv (dff d) + bv (dfb d) *m x) (bv (dft d)) th)
  | @Cons _ _ n nu nc m k c' => fun d x =>
      (x, addth (bu (dff d.1) + bu (dfb d.1) *m x) (bu (dft d.1)) th,
          addth (bv (dff d.1) + bv (dfb d.1) *m x) (bv (dft d.1)) th,
          addth (bl (dff d.1) + bl (dfb d.1) *m x) (bl (dft d.1)) th,
          dforward_from th d.2 (addth (by_ (dff d.1) + by_ (dfb d.1) *m x) (by_ (dft d.1)) th))
  end.
(** RiccatiSolverDense::forward, 92-116; the result is lbdas[0] and the rest of the trajectory *)
Definition dforward n nc0 (c : knots F p n) (d : dfactors c * init_factor F p n nc0)
  (th : option 'cV[F]_p) : 'cV[F]_nc0 * sol c :=
  let i := computeInitial d.2 th in (i.2, dforward_from th d.1 i.1).
End Dense.
