(** Model of the integrators (modelling/dynamics/integrator-euler.hxx,
    integrator-semi-euler.hxx, integrator-rk2.hxx, integrator-midpoint.hxx), of the
    ODE interface (ode-abstract.hxx) and of LinearODE (linear-ode.hxx, .hpp), on
    vector spaces.

    Exact scalars.  A model owns a data object which it reads and writes; data are
    passed explicitly. *)
From mathcomp Require Import all_ssreflect all_algebra.
Set Implicit Arguments. Unset Strict Implicit. Unset Printing Implicit Defensive.
Import GRing.Theory.
Local Open Scope ring_scope.

Section S.
Variable F : fieldType.
Implicit Types (n m : nat).

(** vector-space.hpp 48-51, 53-56, 58-59, 63-66, 68-80 *)
Definition integrate n (x v : 'cV[F]_n) : 'cV[F]_n := x + v.
Definition Jintegrate n (x v : 'cV[F]_n) : 'M[F]_n := 1%:M.
Definition JintegrateTransport n k (x v : 'cV[F]_n) (J : 'M[F]_(n,k)) : 'M[F]_(n,k) := J.
Definition difference n (x0 x1 : 'cV[F]_n) : 'cV[F]_n := x1 - x0.
Definition Jdifference n (x0 x1 : 'cV[F]_n) (arg : bool) : 'M[F]_n := if arg then 1%:M else -1 *: 1%:M.

(** ContinuousDynamicsData (continuous-dynamics-abstract.hpp, .hxx 21-38) *)
Record cdata n m := CData { c_value : 'cV[F]_n; c_Jx : 'M[F]_n; c_Ju : 'M[F]_(n,m);
  c_Jxdot : 'M[F]_n; c_xdot : 'cV[F]_n }.
(** ODEAbstract (ode-abstract.hpp): createData, forward and dForward *)
Record ode n m := Ode { o_new : cdata n m;
  o_fwd : 'cV[F]_n -> 'cV[F]_m -> cdata n m -> cdata n m;
  o_dfwd : 'cV[F]_n -> 'cV[F]_m -> cdata n m -> cdata n m }.
(** continuous-dynamics-abstract.hxx 21-38 *)
Definition cdata0 n m : cdata n m := CData 0 0 0 (-1 *: 1%:M) 0.

(** LinearODE: createData copies A and B (linear-ode.hpp), forward and dForward
    (linear-ode.hxx 8-20) *)
Definition linear_ode n m (A : 'M[F]_n) (B : 'M[F]_(n,m)) (c : 'cV[F]_n) : ode n m :=
  Ode (CData 0 A B (-1 *: 1%:M) 0)
    (fun x u d => CData (c_value d) (c_Jx d) (c_Ju d) (c_Jxdot d) (A *m x + B *m u + c))
    (fun x u d => d).

(** ContinuousDynamicsAbstract: a residual f(x, u, xdot) *)
Record cdyn n m := CDyn { k_new : cdata n m;
  k_eval : 'cV[F]_n -> 'cV[F]_m -> 'cV[F]_n -> cdata n m -> cdata n m;
  k_jac : 'cV[F]_n -> 'cV[F]_m -> 'cV[F]_n -> cdata n m -> cdata n m }.
(** ode-abstract.hxx 12-31 *)
Definition ode_cdyn n m (o : ode n m) : cdyn n m :=
  CDyn (o_new o)
    (fun x u xdot d => let d := o_fwd o x u d in
       CData (c_xdot d - xdot) (c_Jx d) (c_Ju d) (c_Jxdot d) (c_xdot d))
    (fun x u xdot d => let d := o_dfwd o x u d in
       CData (c_value d) (c_Jx d) (c_Ju d) (-1 *: 1%:M) (c_xdot d)).

(** ExplicitIntegratorData, with the two buffers of the semi-implicit scheme and the
    second ODE data of RK2 (integrator-explicit.hpp 51-66, integrator-semi-euler.hpp
    48-63, integrator-rk2.hpp) *)
Record idata n m := IData { i_cd : cdata n m; i_cd2 : cdata n m; i_dx : 'cV[F]_n; i_dx1 : 'cV[F]_n;
  i_x1 : 'cV[F]_n; i_xnext : 'cV[F]_n; i_Jx : 'M[F]_n; i_Ju : 'M[F]_(n,m); i_Jtmp : 'M[F]_n }.

(** integrator-euler.hxx 14-23 *)
Definition euler_fwd n m (o : ode n m) (dt : F) x u (d : idata n m) : idata n m :=
  let cd := o_fwd o x u (i_cd d) in
  let dx := dt *: c_xdot cd in
  IData cd (i_cd2 d) dx (i_dx1 d) (i_x1 d) (integrate x dx) (i_Jx d) (i_Ju d) (i_Jtmp d).
(** integrator-euler.hxx 25-41 *)
Definition euler_dfwd n m (o : ode n m) (dt : F) x u (d : idata n m) : idata n m :=
  let cd := o_dfwd o x u (i_cd d) in
  let Jx := dt *: c_Jx cd in
  let Ju := dt *: c_Ju cd in
  let Jx := JintegrateTransport x (i_dx d) Jx in
  let Jtmp := Jintegrate x (i_dx d) in
  let Jx := Jx + Jtmp in
  let Ju := JintegrateTransport x (i_dx d) Ju in
  IData cd (i_cd2 d) (i_dx d) (i_dx1 d) (i_x1 d) (i_xnext d) Jx Ju Jtmp.

(** integrator-semi-euler.hxx 18-31, for ndx = n + n (the constructor asserts an even
    ndx, 14-15): the first integrate uses the upper half of dx_ left by the previous
    call *)
Definition semi_fwd n m (o : ode (n + n) m) (dt : F) x u (d : idata (n + n) m) : idata (n + n) m :=
  let cd := o_fwd o x u (i_cd d) in
  let dx := col_mx (usubmx (i_dx d)) (dt *: dsubmx (c_xdot cd)) in
  let xnext := integrate x dx in
  let dx := col_mx (dt *: dsubmx xnext) (dsubmx dx) in
  IData cd (i_cd2 d) dx (i_dx1 d) (i_x1 d) (integrate x dx) (i_Jx d) (i_Ju d) (i_Jtmp d).
(** integrator-semi-euler.hxx 33-63 *)
Definition semi_dfwd n m (o : ode (n + n) m) (dt : F) x u (d : idata (n + n) m) : idata (n + n) m :=
  let cd := o_dfwd o x u (i_cd d) in
  let Jx := JintegrateTransport x (i_dx d) (dt *: c_Jx cd) in
  let Ju := JintegrateTransport x (i_dx d) (dt *: c_Ju cd) in
  let Jtmp := Jintegrate x (i_dx d) in
  let Jx := Jx + Jtmp in
  let J2 := col_mx (dt *: dsubmx Jx) (dt *: dsubmx (c_Jx cd)) in
  let Jtu := col_mx (dt *: dsubmx Ju) (dt *: dsubmx (c_Ju cd)) in
  let J2 := JintegrateTransport x (i_dx d) J2 in
  let Jtu := JintegrateTransport x (i_dx d) Jtu in
  let J2 := J2 + Jtmp in
  IData cd (i_cd2 d) (i_dx d) (i_dx1 d) (i_x1 d) (i_xnext d)
    (col_mx (usubmx J2) (dsubmx Jx)) (col_mx (usubmx Jtu) (dsubmx Ju)) Jtmp.

(** integrator-rk2.hxx 14-31 *)
Definition rk2_fwd n m (o : ode n m) (dt : F) x u (d : idata n m) : idata n m :=
  let cd1 := o_fwd o x u (i_cd d) in
  let dx1 := (2%:R^-1 * dt) *: c_xdot cd1 in
  let x1 := integrate x dx1 in
  let cd2 := o_fwd o x1 u (i_cd2 d) in
  let dx := dt *: c_xdot cd2 in
  IData cd1 cd2 dx dx1 x1 (integrate x dx) (i_Jx d) (i_Ju d) (i_Jtmp d).
(** integrator-rk2.hxx 33-64 *)
Definition rk2_dfwd n m (o : ode n m) (dt : F) x u (d : idata n m) : idata n m :=
  let cd1 := o_dfwd o x u (i_cd d) in
  let Jx := JintegrateTransport x (i_dx1 d) ((2%:R^-1 * dt) *: c_Jx cd1) in
  let Ju := JintegrateTransport x (i_dx1 d) ((2%:R^-1 * dt) *: c_Ju cd1) in
  let Jx := Jx + Jintegrate x (i_dx1 d) in
  let cd2 := o_dfwd o (i_x1 d) u (i_cd2 d) in
  let Jx := (dt *: c_Jx cd2) *m Jx in
  let Ju := (dt *: c_Jx cd2) *m Ju + dt *: c_Ju cd2 in
  let Jx := JintegrateTransport (i_x1 d) (i_dx d) Jx in
  let Ju := JintegrateTransport (i_x1 d) (i_dx d) Ju in
  let Jtmp := Jintegrate (i_x1 d) (i_dx d) in
  IData cd1 cd2 (i_dx d) (i_dx1 d) (i_x1 d) (i_xnext d) (Jx + Jtmp) Ju Jtmp.

(** IntegratorMidpointData (integrator-midpoint.hpp) *)
Record mdata n m := MData { m_cd : cdata n m; m_xdot : 'cV[F]_n; m_dx1 : 'cV[F]_n; m_x1 : 'cV[F]_n;
  m_value : 'cV[F]_n; m_Jx : 'M[F]_n; m_Ju : 'M[F]_(n,m); m_Jy : 'M[F]_n }.
(** integrator-midpoint.hxx 21-40 *)
Definition mid_eval n m (k : cdyn n m) (dt : F) x u y (d : mdata n m) : mdata n m :=
  let xdot := difference x y in
  let dx1 := 2%:R^-1 *: xdot in
  let xdot := dt^-1 *: xdot in
  let x1 := integrate x dx1 in
  let cd := k_eval k x1 u xdot (m_cd d) in
  MData cd xdot dx1 x1 (dt *: c_value cd) (m_Jx d) (m_Ju d) (m_Jy d).
(** integrator-midpoint.hxx 42-75 *)
Definition mid_jac n m (k : cdyn n m) (dt : F) x u y (d : mdata n m) : mdata n m :=
  let dx := 2%:R *: m_dx1 d in
  let Jv0 := Jdifference x y false in
  let Jv1 := Jdifference x y true in
  let Jtm0 := Jintegrate x (m_dx1 d) in
  let Jtm1 := Jintegrate x (m_dx1 d) in
  let Jtm0 := Jtm0 + (2%:R^-1 *: Jtm1) *m Jv0 in
  let Jtm1 := (2%:R^-1 *: Jtm1) *m Jv1 in
  let cd := k_jac k (m_x1 d) u (m_xdot d) (m_cd d) in
  let cJx := JintegrateTransport x (m_dx1 d) (c_Jx cd) in
  let Jx := dt *: (cJx *m Jtm0) + c_Jxdot cd *m Jv0 in
  let Ju := dt *: c_Ju cd in
  let cJx := JintegrateTransport y (- dx) cJx in
  let Jy := dt *: (cJx *m Jtm1) + c_Jxdot cd *m Jv1 in
  MData (CData (c_value cd) cJx (c_Ju cd) (c_Jxdot cd) (c_xdot cd)) (m_xdot d) (m_dx1 d) (m_x1 d)
    (m_value d) Jx Ju Jy.
End S.
