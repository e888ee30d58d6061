(** Model of the stage functions and of the functions built from other functions:
    LinearFunction, StateErrorResidual and ControlErrorResidual on vector spaces,
    ControlBoxFunction, slices, linear compositions, and finite differences, over
    an arbitrary field.

    A function is an object with a data structure of any type (its own buffers and
    the data of its parts).  The calls evaluate, computeJacobians and
    computeVectorHessianProducts change the data; [fout] reads the buffers that
    StageFunctionData has.  Dimensions are in the types, so sizes that agree in
    the code (Eigen assertions) agree here.  Computing a vector-Hessian product may
    fail ([None]: an Eigen assertion or a read outside a vector). *)
From mathcomp Require Import all_ssreflect all_algebra.
From Verif Require Import MxRing.
Set Implicit Arguments.
Unset Strict Implicit.
Import GRing.Theory.
Local Open Scope ring_scope.

Section Fun.
Variable F : fieldType.

(** StageFunctionDataTpl, core/function-abstract.hpp 73-117: value_, jac_buffer_
    and vhp_buffer_.  Jx_ is leftCols(ndx1) and Ju_ is middleCols(ndx1, nu) of the
    Jacobian (function-abstract.hxx 37-38). *)
Record fdata n m r := FData {
  fval : 'cV[F]_r; fjac : 'M[F]_(r, n + m); fvhp : 'M[F]_(n + m) }.

(** The constructor zeroes the buffers, function-abstract.hxx 29-46. *)
Definition fdata0 n m r : fdata n m r := FData 0 0 0.

Definition set_val n m r (d : fdata n m r) v := FData v (fjac d) (fvhp d).
Definition set_jac n m r (d : fdata n m r) J := FData (fval d) J (fvhp d).
Definition set_vhp n m r (d : fdata n m r) H := FData (fval d) (fjac d) H.
(** assignments to the references Jx_ and Ju_ *)
Definition set_Jx n m r (d : fdata n m r) (J : 'M[F]_(r, n)) :=
  set_jac d (row_mx J (rsubmx (fjac d))).
Definition set_Ju n m r (d : fdata n m r) (J : 'M[F]_(r, m)) :=
  set_jac d (row_mx (lsubmx (fjac d)) J).

(** StageFunctionTpl, core/function-abstract.hpp 12-70. *)
Record sfun n m r := SFun {
  fst_t : Type;
  fnew : fst_t;
  feval : 'cV[F]_n -> 'cV[F]_m -> fst_t -> fst_t;
  fjacs : 'cV[F]_n -> 'cV[F]_m -> fst_t -> fst_t;
  fvhps : 'cV[F]_n -> 'cV[F]_m -> 'cV[F]_r -> fst_t -> option fst_t;
  fout : fst_t -> fdata n m r }.

(** The default computeVectorHessianProducts does nothing,
    function-abstract.hxx 17-20. *)
Definition no_vhp (S : Type) n m r (x : 'cV[F]_n) (u : 'cV[F]_m) (lam : 'cV[F]_r) (s : S) :=
  Some s.

(** ** Elementary functions *)

(** LinearFunctionTpl, modelling/linear-function.hpp 24-51. *)
Definition linear_fun n m r (A : 'M[F]_(r, n)) (B : 'M[F]_(r, m)) (d : 'cV[F]_r) : sfun n m r :=
  @SFun n m r (fdata n m r)
    (set_Ju (set_Jx (fdata0 n m r) A) B)
    (fun x u s => set_val s (d + A *m x + B *m u))
    (fun x u s => set_Ju (set_Jx s A) B)
    (@no_vhp _ n m r) id.

(** StateErrorResidualTpl on a vector space: difference(target, x) = x - target
    and Jdifference(target, x, 1) = I (modelling/state-error.hpp 51-57,
    core/vector-space.hpp 69-88).  Ju_ keeps the zero of the constructor. *)
Definition state_error n m (target : 'cV[F]_n) : sfun n m n :=
  @SFun n m n (fdata n m n) (fdata0 n m n)
    (fun x u s => set_val s (x - target))
    (fun x u s => set_Jx s 1%:M)
    (@no_vhp _ n m n) id.

(** ControlErrorResidualTpl, state-error.hpp 114-134. *)
Definition control_error n m (target : 'cV[F]_m) : sfun n m m :=
  @SFun n m m (fdata n m m) (fdata0 n m m)
    (fun x u s => set_val s (u - target))
    (fun x u s => set_Ju s 1%:M)
    (@no_vhp _ n m m) id.

(** ControlBoxFunctionTpl, modelling/control-box-function.hxx 25-50: only the
    diagonals of the two blocks of Ju_ are written. *)
Definition set_diag m (c : F) (J : 'M[F]_m) : 'M[F]_m :=
  \matrix_(i, j) (if i == j then c else J i j).
Definition box_Ju n m (s : fdata n m (m + m)) : fdata n m (m + m) :=
  let Ju := rsubmx (fjac s) in
  set_Ju s (col_mx (set_diag (- 1) (usubmx Ju)) (set_diag 1 (dsubmx Ju))).
Definition control_box n m (umin umax : 'cV[F]_m) : sfun n m (m + m) :=
  @SFun n m (m + m) (fdata n m (m + m)) (box_Ju (fdata0 n m (m + m)))
    (fun x u s => set_val s (col_mx (umin - u) (u - umax)))
    (fun x u s => box_Ju s)
    (@no_vhp _ n m (m + m)) id.

(** ** Slices, modelling/function-xpr-slice.hxx *)

(** [d.row(j) = src.row(i)] *)
Definition set_row k c (d : 'M[F]_(k, c)) (j : 'I_k) (v : 'rV[F]_c) : 'M[F]_(k, c) :=
  \matrix_(a, b) (if a == j then v 0 b else d a b).
(** the loops 26-29 and 43-46: row [j] of the output is row [indices[j]] of the
    function's.  The indices are taken in range (else Eigen's assertion fails). *)
Definition slice_rows k r c (idx : 'I_k -> 'I_r) (d : 'M[F]_(k, c)) (src : 'M[F]_(r, c)) :=
  foldl (fun d j => set_row d j (row (idx j) src)) d (enum 'I_k).

(** The multipliers of computeVectorHessianProducts_impl, 57-60: [lbda_sub] is a
    copy of [lbda], of the size of the slice, in which the entries [indices[j]]
    are set to zero.  [None]: an index is not below the size of the slice. *)
Definition slice_lam k r (idx : 'I_k -> 'I_r) (lam : 'cV[F]_k) : option 'cV[F]_k :=
  foldl (fun o (j : 'I_k) =>
           if o is Some l then
             if insub (idx j : nat) is Some i then Some (set_row l i 0) else None
           else None)
        (Some lam) (enum 'I_k).

(** [lbda_sub] is then given to the function, whose multipliers have dimension
    [r] (62-63): a size mismatch is taken as a failure, which is what Eigen's
    assertions or reads past the end make of it in the functions of the library.
    The function's product stays in [sub_data]. *)
Definition slice n m r k (f : sfun n m r) (idx : 'I_k -> 'I_r) : sfun n m k :=
  @SFun n m k (fdata n m k * fst_t f)
    (fdata0 n m k, fnew f)
    (fun x u s =>
       let sub := feval x u s.2 in
       (set_val s.1 (slice_rows idx (fval s.1) (fval (fout sub))), sub))
    (fun x u s =>
       let sub := fjacs x u s.2 in
       (set_jac s.1 (slice_rows idx (fjac s.1) (fjac (fout sub))), sub))
    (fun x u lam s =>
       if slice_lam idx lam is Some l then
         if @idP (k == r) is ReflectT e then
           if fvhps x u (castmx (eqP e, erefl) l) s.2 is Some sub then Some (s.1, sub) else None
         else None
       else None)
    (fun s => s.1).

(** ** Linear compositions, modelling/linear-function-composition.hxx 8-28 (the
    unary variant, 30-46, does the same without controls). *)
Definition compose n m r k (A : 'M[F]_(k, r)) (b : 'cV[F]_k) (f : sfun n m r) : sfun n m k :=
  @SFun n m k (fdata n m k * fst_t f)
    (fdata0 n m k, fnew f)
    (fun x u s => let sub := feval x u s.2 in (set_val s.1 (b + A *m fval (fout sub)), sub))
    (fun x u s => let sub := fjacs x u s.2 in (set_jac s.1 (A *m fjac (fout sub)), sub))
    (@no_vhp _ n m k)
    (fun s => s.1).

(** ** Finite differences, modelling/autodiff/finite-difference.hpp, for a
    function or an explicit dynamics model on vector spaces, where integrate is the
    sum and difference the difference of vectors (the two branches then do the
    same). *)

(** Data, 19-43: the function's data twice, and the perturbations. *)
Record fd_data n m r (f : sfun n m r) := FdData {
  fd_out : fdata n m r; fd_0 : fst_t f; fd_1 : fst_t f;
  fd_dx : 'cV[F]_n; fd_du : 'cV[F]_m }.

Definition set_entry k (v : 'cV[F]_k) (i : 'I_k) (c : F) : 'cV[F]_k := set_row v i (const_mx c).
Definition set_col r c (J : 'M[F]_(r, c)) (i : 'I_c) (v : 'cV[F]_r) : 'M[F]_(r, c) :=
  \matrix_(a, b) (if b == i then v a 0 else J a b).

(** One turn of the loops over the state (173-185) and over the control (187-199). *)
Definition fd_turn_x n m r (f : sfun n m r) (eps : F) x u (s : fd_data f) (i : 'I_n) : fd_data f :=
  let dx := set_entry (fd_dx s) i eps in
  let xp := x + dx in
  let d1 := feval xp u (fd_1 s) in
  let c := eps^-1 *: (fval (fout d1) - fval (fout (fd_0 s))) in
  FdData (set_Jx (fd_out s) (set_col (lsubmx (fjac (fd_out s))) i c))
         (fd_0 s) d1 (set_entry dx i 0) (fd_du s).
Definition fd_turn_u n m r (f : sfun n m r) (eps : F) x u (s : fd_data f) (i : 'I_m) : fd_data f :=
  let du := set_entry (fd_du s) i eps in
  let up := u + du in
  let d1 := feval x up (fd_1 s) in
  let c := eps^-1 *: (fval (fout d1) - fval (fout (fd_0 s))) in
  FdData (set_Ju (fd_out s) (set_col (rsubmx (fjac (fd_out s))) i c))
         (fd_0 s) d1 (fd_dx s) (set_entry du i 0).

(** FiniteDifferenceHelper, 222-253, with evaluateImpl (136-147) and
    computeJacobiansImpl (149-200).  (The constructor for stage functions, 111-120,
    leaves [nu] unset; it only sizes a buffer that is assigned afterwards.) *)
Definition fin_diff n m r (eps : F) (f : sfun n m r) : sfun n m r :=
  @SFun n m r (fd_data f)
    (FdData (fdata0 n m r) (fnew f) (fnew f) 0 0)
    (fun x u s =>
       let d0 := feval x u (fd_0 s) in
       FdData (set_val (fd_out s) (fval (fout d0))) d0 (fd_1 s) (fd_dx s) (fd_du s))
    (fun x u s =>
       let s := foldl (@fd_turn_x n m r f eps x u) s (enum 'I_n) in
       foldl (@fd_turn_u n m r f eps x u) s (enum 'I_m))
    (@no_vhp _ n m r)
    (@fd_out n m r f).

End Fun.
