(** Model of the proximal Riccati solver,
    /repo/include/aligator/gar/riccati-kernel.hxx and proximal-riccati.hxx,
    over an arbitrary field and with stage-dependent dimensions.

    Simplifications: scalars are exact.  [BunchKaufman::compute] followed by
    [solveInPlace] is the exact solve with the symmetric matrix read from the
    lower triangle; a singular matrix makes [stageKernelSolve] throw (239-241),
    while the terminal stage and the initial stage do not look at [info()].
    The parameter dimension [p] is the same at every knot (the constructor of
    the solver sizes everything from knot 0), and the code under [nth > 0] is
    run for [p = 0] too, where it acts on matrices without columns. *)
From mathcomp Require Import all_ssreflect all_algebra.
Set Implicit Arguments.
Unset Strict Implicit.
Import GRing.Theory.
Local Open Scope ring_scope.

Section Riccati.
Variable F : fieldType.
Variable p : nat.

(** LqrKnotTpl, lqr-problem.hpp 46-61: nx = n, nu, nc, nx2 = m, nth = p *)
Record knot (n nu nc m : nat) := Knot {
  Qm : 'M[F]_n; Sm : 'M[F]_(n, nu); Rm : 'M[F]_nu; qv : 'cV[F]_n; rv : 'cV[F]_nu;
  Am : 'M[F]_(m, n); Bm : 'M[F]_(m, nu); fv : 'cV[F]_m;
  Cm : 'M[F]_(nc, n); Dm : 'M[F]_(nc, nu); dv : 'cV[F]_nc;
  Gth : 'M[F]_p; Gx : 'M[F]_(n, p); Gu : 'M[F]_(nu, p); Gv : 'M[F]_(nc, p);
  gam : 'cV[F]_p }.

(** the knots from some stage on; the last one is the terminal knot.  The next
    state dimension of a knot is the state dimension of the knot after it. *)
Inductive knots : nat -> Type :=
| Term n nu nc m (k : knot n nu nc m) : knots n
| Cons n nu nc m (k : knot n nu nc m) (c : knots m) : knots n.

(** xs, us, vs, lbdas from some stage on; the last component of an
    intermediate stage is [lbdas[t+1]] *)
Fixpoint sol n (c : knots n) : Type :=
  match c with
  | @Term n nu nc m k => ('cV[F]_n * 'cV[F]_nu * 'cV[F]_nc)%type
  | @Cons n nu nc m k c' => ('cV[F]_n * 'cV[F]_nu * 'cV[F]_nc * 'cV[F]_m * sol c')%type
  end.
Definition sol_x n (c : knots n) : sol c -> 'cV[F]_n :=
  match c in knots n return sol c -> 'cV[F]_n with
  | @Term n nu nc m k => fun s => s.1.1
  | @Cons n nu nc m k c' => fun s => s.1.1.1.1
  end.

(** CostToGo, riccati-kernel.hpp 39-44 *)
Record ctg (n : nat) := Ctg {
  Vxx : 'M[F]_n; vx : 'cV[F]_n; Vxt : 'M[F]_(n, p); Vtt : 'M[F]_p; vt : 'cV[F]_p }.
(** StageFactor, riccati-kernel.hpp 83-103: the gains [ff], [fb], [fth] by
    blocks and the cost-to-go; the other members are scratch *)
Record factor (n nu nc m : nat) := Factor {
  kff : 'cV[F]_nu; zff : 'cV[F]_nc; yff : 'cV[F]_m;
  Kfb : 'M[F]_(nu, n); Zfb : 'M[F]_(nc, n); Afb : 'M[F]_(m, n);
  Kth : 'M[F]_(nu, p); Zth : 'M[F]_(nc, p); Yth : 'M[F]_(m, p);
  vm : ctg n }.
(** the vector [datas] from some stage on *)
Fixpoint factors n (c : knots n) : Type :=
  match c with
  | @Term n nu nc m k => factor n nu nc m
  | @Cons n nu nc m k c' => (factor n nu nc m * factors c')%type
  end.
Definition head_vm n (c : knots n) : factors c -> ctg n :=
  match c in knots n return factors c -> ctg n with
  | @Term n nu nc m k => fun d => vm d
  | @Cons n nu nc m k c' => fun d => vm d.1
  end.
Definition set_vm n nu nc m (d : factor n nu nc m) (v : ctg n) : factor n nu nc m :=
  Factor (kff d) (zff d) (yff d) (Kfb d) (Zfb d) (Afb d) (Kth d) (Zth d) (Yth d) v.
Definition set_head_vm n (c : knots n) : factors c -> ctg n -> factors c :=
  match c in knots n return factors c -> ctg n -> factors c with
  | @Term n nu nc m k => fun d v => set_vm d v
  | @Cons n nu nc m k c' => fun d v => (set_vm d.1 v, d.2)
  end.

(** [selfadjointView<Lower>] *)
Definition lower n (M : 'M[F]_n) : 'M[F]_n :=
  \matrix_(i, j) (if (j <= i)%N then M i j else M j i).
(** [kktChol.compute(M)] then [solveInPlace(b)] *)
Definition chol_solve n k (M : 'M[F]_n) (b : 'M[F]_(n, k)) : 'M[F]_(n, k) :=
  invmx (lower M) *m b.

Section Backward.
Variable mu : F.

(** [kktMat], 151-154 and 232-237 *)
Definition kkt_mat nu nc (R : 'M[F]_nu) (D : 'M[F]_(nc, nu)) : 'M[F]_(nu + nc) :=
  block_mx R D^T D ((- mu)%:M).

(** terminalSolve, 130-193.  The third block of the gains stays at the zero set
    by the constructor (riccati-kernel.hxx 46-48). *)
Definition terminal_gains n nu nc m (k : knot n nu nc m) :
  'cV[F]_(nu + nc) * 'M[F]_(nu + nc, n) * 'M[F]_(nu + nc, p) :=
  if nu == 0%N then
    (col_mx 0 (mu^-1 *: dv k), col_mx 0 (mu^-1 *: Cm k), col_mx 0 0)
  else
    let M := kkt_mat (Rm k) (Dm k) in
    (chol_solve M (col_mx (- rv k) (- dv k)),
     chol_solve M (col_mx (- (Sm k)^T) (- Cm k)),
     chol_solve M (col_mx (- Gu k) 0)).
Definition terminalSolve n nu nc m (k : knot n nu nc m) : factor n nu nc m :=
  let g := terminal_gains k in
  let kf := usubmx g.1.1 in let zf := dsubmx g.1.1 in
  let K := usubmx g.1.2 in let Z := dsubmx g.1.2 in
  let Kt := usubmx g.2 in let Zt := dsubmx g.2 in
  (* 178-184; the products with S are products of empty matrices for nu = 0 *)
  let v := Ctg (Qm k + (Cm k)^T *m Z + Sm k *m K)
               (qv k + (Cm k)^T *m zf + Sm k *m kf)
               (Gx k + K^T *m Gu k)
               (Gth k + (Gu k)^T *m Kt)
               (gam k + (Gu k)^T *m kf) in
  Factor kf zf 0 K Z 0 Kt Zt 0 v.

(** stageKernelSolve, 209-312.  The cost-to-go [vn] of the next stage is
    symmetrised in place (216): it is part of the result. *)
Definition sym_vm n (v : ctg n) : ctg n :=
  Ctg (lower (Vxx v)) (vx v) (Vxt v) (Vtt v) (vt v).
Definition stageKernelSolve n nu nc m (k : knot n nu nc m) (vn0 : ctg m) :
  option (factor n nu nc m * ctg m) :=
  let vn := sym_vm vn0 in
  let vplus := vx vn + Vxx vn *m fv k in
  let AtV := (Am k)^T *m Vxx vn in
  let BtV := (Bm k)^T *m Vxx vn in
  let Qhat := Qm k + AtV *m Am k in
  let Rhat := Rm k + BtV *m Bm k in
  let Shat := Sm k + AtV *m Bm k in
  let qhat := qv k + (Am k)^T *m vplus in
  let rhat := rv k + (Bm k)^T *m vplus in
  let M := lower (kkt_mat Rhat (Dm k)) in
  if M \notin unitmx then None else
  let ff := chol_solve M (col_mx (- rhat) (- dv k)) in
  let fb := chol_solve M (col_mx (- Shat^T) (- Cm k)) in
  let kf := usubmx ff in let zf := dsubmx ff in
  let K := usubmx fb in let Z := dsubmx fb in
  let yf := fv k + Bm k *m kf in
  let Af := Am k + Bm k *m K in
  let Guhat := Gu k + (Bm k)^T *m Vxt vn in
  let fth := chol_solve M (col_mx (- Guhat) (- Gv k)) in
  let Kt := usubmx fth in let Zt := dsubmx fth in
  let Yt := Bm k *m Kt in
  let v := Ctg (Qhat + Shat *m K + (Cm k)^T *m Z)
               (qhat + Shat *m kf + (Cm k)^T *m zf)
               (Gx k + K^T *m Gu k + Af^T *m Vxt vn)
               (Gth k + Vtt vn + (Gu k)^T *m Kt + (Vxt vn)^T *m Yt)
               (gam k + vt vn + (Gu k)^T *m kf + (Vxt vn)^T *m yf) in
  Some (Factor kf zf yf K Z Af Kt Zt Yt v, vn).

(** backwardImpl, 104-129; [None] is the exception *)
Fixpoint backwardImpl n (c : knots n) : option (factors c) :=
  match c return option (factors c) with
  | @Term n nu nc m k => Some (terminalSolve k)
  | @Cons n nu nc m k c' =>
      match backwardImpl c' with
      | None => None
      | Some ds =>
          match stageKernelSolve k (head_vm ds) with
          | None => None
          | Some (d, vn) => Some (d, set_head_vm ds vn)
          end
      end
  end.

(** ProximalRiccatiSolver::backward, proximal-riccati.hxx 34-63: kkt0 *)
Record init_factor (n nc0 : nat) := InitFactor {
  ff0 : 'cV[F]_(n + nc0); fth0 : 'M[F]_(n + nc0, p); thGrad : 'cV[F]_p; thHess : 'M[F]_p }.
Definition kkt0_mat n nc0 (v : ctg n) (G0 : 'M[F]_(nc0, n)) : 'M[F]_(n + nc0) :=
  block_mx (Vxx v) G0^T G0 0.
Definition factor_initial n nc0 (v : ctg n) (G0 : 'M[F]_(nc0, n)) (g0 : 'cV[F]_nc0) :
  init_factor n nc0 :=
  let M := kkt0_mat v G0 in
  let f := chol_solve M (col_mx (- vx v) (- g0)) in
  let ft := chol_solve M (col_mx (- Vxt v) 0) in
  InitFactor f ft (vt v + (Vxt v)^T *m usubmx f) (Vtt v + (Vxt v)^T *m usubmx ft).
Definition backward n nc0 (c : knots n) (G0 : 'M[F]_(nc0, n)) (g0 : 'cV[F]_nc0) :
  option (factors c * init_factor n nc0) :=
  match backwardImpl c with
  | None => None
  | Some ds => Some (ds, factor_initial (head_vm ds) G0 g0)
  end.
End Backward.

(** computeInitial, riccati-kernel.hxx 195-207 *)
Definition addth n (a : 'cV[F]_n) (M : 'M[F]_(n, p)) (th : option 'cV[F]_p) : 'cV[F]_n :=
  match th with Some t => a + M *m t | None => a end.
Definition computeInitial n nc0 (i : init_factor n nc0) (th : option 'cV[F]_p) :
  'cV[F]_n * 'cV[F]_nc0 :=
  (addth (usubmx (ff0 i)) (usubmx (fth0 i)) th, addth (dsubmx (ff0 i)) (dsubmx (fth0 i)) th).

(** forwardImpl, 314-377, from the stage whose state is [x] *)
Fixpoint forwardImpl n (c : knots n) (th : option 'cV[F]_p) :
  factors c -> 'cV[F]_n -> sol c :=
  match c in knots n return factors c -> 'cV[F]_n -> sol c with
  | @Term n nu nc m k => fun d x =>
      (x, addth (kff d + Kfb d *m x) (Kth d) th, addth (zff d + Zfb d *m x) (Zth d) th)
  | @Cons n nu nc m k c' => fun d x =>
      let u := addth (kff d.1 + Kfb d.1 *m x) (Kth d.1) th in
      let v := addth (zff d.1 + Zfb d.1 *m x) (Zth d.1) th in
      let x' := addth (yff d.1 + Afb d.1 *m x) (Yth d.1) th in
      let vn := head_vm d.2 in
      let l' := addth (vx vn + Vxx vn *m x') (Vxt vn) th in
      (x, u, v, l', forwardImpl th d.2 x')
  end.

(** ProximalRiccatiSolver::forward, proximal-riccati.hxx 65-77; the result is
    [lbdas[0]] and the rest of the trajectory *)
Definition forward n nc0 (c : knots n) (d : factors c * init_factor n nc0)
  (th : option 'cV[F]_p) : 'cV[F]_nc0 * sol c :=
  let i := computeInitial d.2 th in (i.2, forwardImpl th d.1 i.1).
End Riccati.
