(** C40: the Jacobians of the integrators are the derivatives of the step. *)
From mathcomp Require Import all_ssreflect all_algebra.
From Verif Require Import Frechet IntegModel.
Set Implicit Arguments. Unset Strict Implicit. Unset Printing Implicit Defensive.
Import Order.TTheory GRing.Theory Num.Theory.
Local Open Scope ring_scope.

Section S.
Variable R : realFieldType.

(** ** Specification *)
(** derivative of a function of (x, u), of (x, u, y) *)
Definition deriv2 n m p (f : 'cV[R]_n -> 'cV[R]_m -> 'cV[R]_p) x u (A : 'M[R]_(p,n)) (B : 'M[R]_(p,m)) :=
  frechet (fun z => f (usubmx z) (dsubmx z)) (col_mx x u) (row_mx A B).
Definition deriv3 n m k p (f : 'cV[R]_n -> 'cV[R]_m -> 'cV[R]_k -> 'cV[R]_p) x u y
  (A : 'M[R]_(p,n)) (B : 'M[R]_(p,m)) (C : 'M[R]_(p,k)) :=
  frechet (fun z => f (usubmx (usubmx z)) (dsubmx (usubmx z)) (dsubmx z)) (col_mx (col_mx x u) y)
    (row_mx (row_mx A B) C).

(** value_ and Jxdot_ are not written by an ODE: its callers may *)
Definition with_res n m (w : 'cV[R]_n) (J : 'M[R]_n) (d : cdata R n m) :=
  CData w (c_Jx d) (c_Ju d) J (c_xdot d).
(** data of an ODE after any sequence of calls *)
Inductive oreach n m (o : ode R n m) : cdata R n m -> Prop :=
| OR0 : oreach o (o_new o)
| OR1 x u d : oreach o d -> oreach o (o_fwd o x u d)
| OR2 x u d : oreach o d -> oreach o (o_dfwd o x u d)
| OR3 w J d : oreach o d -> oreach o (with_res w J d).
(** the ODE object computes [f], and the Jacobians [Fx], [Fu] after it *)
Definition realizes n m (o : ode R n m) f (Fx : 'cV[R]_n -> 'cV[R]_m -> 'M[R]_n)
  (Fu : 'cV[R]_n -> 'cV[R]_m -> 'M[R]_(n,m)) : Prop :=
  forall d x u w J, oreach o d ->
    c_xdot (o_fwd o x u d) = f x u /\
    let e := o_dfwd o x u (with_res w J (o_fwd o x u d)) in c_Jx e = Fx x u /\ c_Ju e = Fu x u.
(** data of an integrator after any sequence of calls *)
Inductive ireach n m (d0 : idata R n m -> Prop) (fwd dfwd : 'cV[R]_n -> 'cV[R]_m -> idata R n m -> idata R n m)
  : idata R n m -> Prop :=
| IR0 d : d0 d -> ireach d0 fwd dfwd d
| IR1 x u d : ireach d0 fwd dfwd d -> ireach d0 fwd dfwd (fwd x u d)
| IR2 x u d : ireach d0 fwd dfwd d -> ireach d0 fwd dfwd (dfwd x u d).
(** fresh data: those of the ODE are new, the rest is arbitrary *)
Definition fresh n m (o : ode R n m) (d : idata R n m) := i_cd d = o_new o /\ i_cd2 d = o_new o.

Inductive kreach n m (k : cdyn R n m) : cdata R n m -> Prop :=
| KR0 : kreach k (k_new k)
| KR1 x u v d : kreach k d -> kreach k (k_eval k x u v d)
| KR2 x u v d : kreach k d -> kreach k (k_jac k x u v d).
Definition krealizes n m (k : cdyn R n m) g (Gx : 'cV[R]_n -> 'cV[R]_m -> 'cV[R]_n -> 'M[R]_n)
  (Gu : 'cV[R]_n -> 'cV[R]_m -> 'cV[R]_n -> 'M[R]_(n,m)) (Gv : 'cV[R]_n -> 'cV[R]_m -> 'cV[R]_n -> 'M[R]_n) : Prop :=
  forall d x u v, kreach k d ->
    let e := k_eval k x u v d in let j := k_jac k x u v e in
    c_value e = g x u v /\ c_Jx j = Gx x u v /\ c_Ju j = Gu x u v /\ c_Jxdot j = Gv x u v.
Inductive mreach n m (k : cdyn R n m) (dt : R) : mdata R n m -> Prop :=
| MR0 d : m_cd d = k_new k -> mreach k dt d
| MR1 x u y d : mreach k dt d -> mreach k dt (mid_eval k dt x u y d)
| MR2 x u y d : mreach k dt d -> mreach k dt (mid_jac k dt x u y d).

(** the steps of the four schemes *)
Definition euler_step n m (f : 'cV[R]_n -> 'cV[R]_m -> 'cV[R]_n) (dt : R) x u := x + dt *: f x u.
(** state (q, v), acceleration = lower half of f *)
Definition semi_step n m (f : 'cV[R]_(n+n) -> 'cV[R]_m -> 'cV[R]_(n+n)) (dt : R) x u :=
  let v' := dsubmx x + dt *: dsubmx (f x u) in col_mx (usubmx x + dt *: v') v'.
Definition rk2_step n m (f : 'cV[R]_n -> 'cV[R]_m -> 'cV[R]_n) (dt : R) x u :=
  x + dt *: f (x + (dt / 2%:R) *: f x u) u.
Definition mid_res n m (g : 'cV[R]_n -> 'cV[R]_m -> 'cV[R]_n -> 'cV[R]_n) (dt : R) x u y :=
  dt *: g (2%:R^-1 *: (x + y)) u (dt^-1 *: (y - x)).

(** ** Proofs *)
Lemma realizes_same n m (o : ode R n m) f Fx Fu : realizes o f Fx Fu -> forall d x u, oreach o d ->
  c_xdot (o_fwd o x u d) = f x u /\
  c_Jx (o_dfwd o x u (o_fwd o x u d)) = Fx x u /\ c_Ju (o_dfwd o x u (o_fwd o x u d)) = Fu x u.
Proof.
move=> Ho d x u Hd; set e := o_fwd o x u d.
have [E [E1 E2]] := Ho d x u (c_value e) (c_Jxdot e) Hd.
have Ee : with_res (c_value e) (c_Jxdot e) e = e by rewrite /with_res; case: (e).
by rewrite -/e Ee in E E1 E2.
Qed.
Lemma ireach_ode n m (o : ode R n m) fwd dfwd :
  (forall x u d, oreach o (i_cd d) -> oreach o (i_cd2 d) ->
     oreach o (i_cd (fwd x u d)) /\ oreach o (i_cd2 (fwd x u d))) ->
  (forall x u d, oreach o (i_cd d) -> oreach o (i_cd2 d) ->
     oreach o (i_cd (dfwd x u d)) /\ oreach o (i_cd2 (dfwd x u d))) ->
  forall d, ireach (fresh o) fwd dfwd d -> oreach o (i_cd d) /\ oreach o (i_cd2 d).
Proof.
move=> H1 H2 d; elim=> [{}d [-> ->]|x u {}d _ [A B]|x u {}d _ [A B]]; first by split; constructor.
- exact: H1.
- exact: H2.
Qed.
Lemma deriv2_fst n m (x : 'cV[R]_n) (u : 'cV[R]_m) : deriv2 (fun x u => x) x u 1%:M 0.
Proof. exact: frechet_up. Qed.
Lemma deriv2_snd n m (x : 'cV[R]_n) (u : 'cV[R]_m) : deriv2 (fun x u => u) x u 0 1%:M.
Proof. exact: frechet_down. Qed.
Lemma deriv2_ext n m p (f g : 'cV[R]_n -> 'cV[R]_m -> 'cV[R]_p) x u A B :
  (forall x u, f x u = g x u) -> deriv2 f x u A B -> deriv2 g x u A B.
Proof. by move=> E; apply: frechet_ext => z. Qed.
Lemma deriv2_eq n m p (f : 'cV[R]_n -> 'cV[R]_m -> 'cV[R]_p) x u A B A' B' :
  A = A' -> B = B' -> deriv2 f x u A B -> deriv2 f x u A' B'.
Proof. by move=> -> ->. Qed.
Lemma frechet_eq n m (f : 'cV[R]_n -> 'cV[R]_m) x A B : A = B -> frechet f x A -> frechet f x B.
Proof. by move=> ->. Qed.
Lemma deriv2_addZ n m p (f g : 'cV[R]_n -> 'cV[R]_m -> 'cV[R]_p) x u A B A' B' a :
  deriv2 f x u A B -> deriv2 g x u A' B' -> deriv2 (fun x u => f x u + a *: g x u) x u (A + a *: A') (B + a *: B').
Proof.
by move=> Hf Hg; have := frechet_add Hf (frechet_scale a Hg); rewrite scale_row_mx add_row_mx.
Qed.
Lemma deriv2_comp n m p q (f : 'cV[R]_p -> 'cV[R]_m -> 'cV[R]_q) (g : 'cV[R]_n -> 'cV[R]_m -> 'cV[R]_p) x u A B A' B' :
  deriv2 f (g x u) u A B -> deriv2 g x u A' B' ->
  deriv2 (fun x u => f (g x u) u) x u (A *m A') (A *m B' + B).
Proof.
move=> Hf Hg; have H := frechet_col Hg (frechet_down (col_mx x u)).
have := frechet_comp H; move=> /(_ _ _ (row_mx A B)); rewrite /= col_mxKu col_mxKd => /(_ _ Hf).
rewrite mul_row_col mul_mx_row mul_mx_row mulmx0 mulmx1 add_row_mx addr0.
by apply: frechet_ext => z; rewrite col_mxKu col_mxKd.
Qed.
Lemma deriv2_lin n m p q (L : 'M[R]_(q,p)) (f : 'cV[R]_n -> 'cV[R]_m -> 'cV[R]_p) x u A B :
  deriv2 f x u A B -> deriv2 (fun x u => L *m f x u) x u (L *m A) (L *m B).
Proof. by move=> Hf; have := frechet_comp Hf (frechet_lin L _); rewrite mul_mx_row. Qed.
Lemma dsub_lin p q k (M : 'M[R]_(p + q, k)) : row_mx 0 1%:M *m M = dsubmx M.
Proof. by rewrite -{1}(vsubmxK M) mul_row_col mul0mx mul1mx add0r. Qed.
Lemma usub_lin p q k (M : 'M[R]_(p + q, k)) : row_mx 1%:M 0 *m M = usubmx M.
Proof. by rewrite -{1}(vsubmxK M) mul_row_col mul0mx mul1mx addr0. Qed.
Lemma deriv2_down n m p q (f : 'cV[R]_n -> 'cV[R]_m -> 'cV[R]_(p + q)) x u A B :
  deriv2 f x u A B -> deriv2 (fun x u => dsubmx (f x u)) x u (dsubmx A) (dsubmx B).
Proof.
move=> Hf; have := deriv2_lin (row_mx 0 1%:M) Hf; rewrite !dsub_lin.
by apply: deriv2_ext => y v; rewrite dsub_lin.
Qed.
Lemma deriv2_up n m p q (f : 'cV[R]_n -> 'cV[R]_m -> 'cV[R]_(p + q)) x u A B :
  deriv2 f x u A B -> deriv2 (fun x u => usubmx (f x u)) x u (usubmx A) (usubmx B).
Proof.
move=> Hf; have := deriv2_lin (row_mx 1%:M 0) Hf; rewrite !usub_lin.
by apply: deriv2_ext => y v; rewrite usub_lin.
Qed.
Lemma deriv2_col n m p q (f : 'cV[R]_n -> 'cV[R]_m -> 'cV[R]_p) (g : 'cV[R]_n -> 'cV[R]_m -> 'cV[R]_q) x u A B A' B' :
  deriv2 f x u A B -> deriv2 g x u A' B' ->
  deriv2 (fun x u => col_mx (f x u) (g x u)) x u (col_mx A A') (col_mx B B').
Proof. by move=> Hf Hg; have := frechet_col Hf Hg; rewrite -block_mxEv block_mxEh. Qed.

(** Euler *)
Theorem C40_euler : forall n m (o : ode R n m) f Fx Fu dt d x u,
  realizes o f Fx Fu -> ireach (fresh o) (euler_fwd o dt) (euler_dfwd o dt) d ->
  deriv2 f x u (Fx x u) (Fu x u) ->
  let e := euler_dfwd o dt x u (euler_fwd o dt x u d) in
  (forall y v, i_xnext (euler_fwd o dt y v d) = euler_step f dt y v) /\ i_xnext e = euler_step f dt x u /\
  deriv2 (euler_step f dt) x u (i_Jx e) (i_Ju e).
Proof.
move=> n m o f Fx Fu dt d x u /realizes_same Ho Hd Df e.
have [Hc _] : oreach o (i_cd d) /\ oreach o (i_cd2 d).
  apply: ireach_ode Hd => y v c A B; split=> //=; by constructor.
have [Ex [EJx EJu]] := Ho _ x u Hc.
have Es y v : i_xnext (euler_fwd o dt y v d) = euler_step f dt y v.
  by rewrite /= /integrate; have [-> _] := Ho _ y v Hc.
split=> //; split; first exact: Es.
rewrite /e /= EJx EJu /JintegrateTransport /Jintegrate.
have := deriv2_addZ dt (deriv2_fst x u) Df; rewrite add0r addrC; exact.
Qed.

(** Semi-implicit Euler *)
Theorem C40_semi_euler : forall n m (o : ode R (n + n) m) f Fx Fu dt d x u,
  realizes o f Fx Fu -> ireach (fresh o) (semi_fwd o dt) (semi_dfwd o dt) d ->
  deriv2 f x u (Fx x u) (Fu x u) ->
  let e := semi_dfwd o dt x u (semi_fwd o dt x u d) in
  (forall y v, i_xnext (semi_fwd o dt y v d) = semi_step f dt y v) /\ i_xnext e = semi_step f dt x u /\
  deriv2 (semi_step f dt) x u (i_Jx e) (i_Ju e).
Proof.
move=> n m o f Fx Fu dt d x u /realizes_same Ho Hd Df e.
have [Hc _] : oreach o (i_cd d) /\ oreach o (i_cd2 d).
  apply: ireach_ode Hd => y v c A B; split=> //=; by constructor.
have [Ex [EJx EJu]] := Ho _ x u Hc.
have Es y v : i_xnext (semi_fwd o dt y v d) = semi_step f dt y v.
  rewrite /= /integrate /semi_step; have [-> _] := Ho _ y v Hc.
  by rewrite -{1}(vsubmxK y) add_col_mx !linearD /= !col_mxKd.
split=> //; split; first exact: Es.
rewrite /e /= EJx EJu /JintegrateTransport /Jintegrate.
have Dv := deriv2_addZ dt (deriv2_down (deriv2_fst x u)) (deriv2_down Df).
have D := deriv2_col (deriv2_addZ dt (deriv2_up (deriv2_fst x u)) Dv) Dv.
apply: deriv2_eq D.
- have Ed : dsubmx 1%:M + dt *: dsubmx (Fx x u) = dsubmx (dt *: Fx x u + 1%:M) by rewrite raddfD /= linearZ addrC.
  rewrite Ed; congr col_mx.
  by rewrite [usubmx (col_mx _ _ + _)]raddfD /= col_mxKu [in RHS]addrC.
- by rewrite !linearZ /= !linear0 !add0r col_mxKu.
Qed.

(** RK2 *)
Theorem C40_rk2 : forall n m (o : ode R n m) f Fx Fu dt d x u,
  realizes o f Fx Fu -> ireach (fresh o) (rk2_fwd o dt) (rk2_dfwd o dt) d ->
  let x1 := x + (dt / 2%:R) *: f x u in
  deriv2 f x u (Fx x u) (Fu x u) -> deriv2 f x1 u (Fx x1 u) (Fu x1 u) ->
  let e := rk2_dfwd o dt x u (rk2_fwd o dt x u d) in
  (forall y v, i_xnext (rk2_fwd o dt y v d) = rk2_step f dt y v) /\ i_xnext e = rk2_step f dt x u /\
  deriv2 (rk2_step f dt) x u (i_Jx e) (i_Ju e).
Proof.
move=> n m o f Fx Fu dt d x u /realizes_same Ho Hd x1 Df Df1 e.
have [Hc Hc2] : oreach o (i_cd d) /\ oreach o (i_cd2 d).
  apply: ireach_ode Hd => y v c A B; split=> /=; by constructor.
have [Ex [EJx EJu]] := Ho _ x u Hc.
have Es y v : i_xnext (rk2_fwd o dt y v d) = rk2_step f dt y v.
  rewrite /= /integrate /rk2_step; have [-> _] := Ho _ y v Hc; rewrite [2%:R^-1 * dt]mulrC.
  by have [-> _] := Ho _ (y + (dt / 2%:R) *: f y v) v Hc2.
split=> //; split; first exact: Es.
rewrite /e /= EJx EJu /JintegrateTransport /Jintegrate /integrate Ex [2%:R^-1 * dt]mulrC -/x1.
have [Ex1 [EJx1 EJu1]] := Ho _ x1 u Hc2; rewrite EJx1 EJu1.
have Dg := deriv2_addZ (dt / 2%:R) (deriv2_fst x u) Df.
have D := deriv2_addZ dt (deriv2_fst x u) (deriv2_comp (g := fun x u => x + (dt / 2%:R) *: f x u) Df1 Dg).
rewrite !add0r scalerDr !scalemxAl [1%:M + dt / 2%:R *: _]addrC [1%:M + _]addrC in D.
exact: D.
Qed.

(** Midpoint rule: residual dt g((x+y)/2, u, (y-x)/dt) *)
Lemma mreach_k n m (k : cdyn R n m) dt d : mreach k dt d -> kreach k (m_cd d).
Proof.
elim=> [{}d ->|x u y {}d _ H|x u y {}d _ H] /=; first by constructor.
- by constructor.
- rewrite /JintegrateTransport.
  set c := k_jac _ _ _ _ _; have -> : CData (c_value c) (c_Jx c) (c_Ju c) (c_Jxdot c) (c_xdot c) = c by case: (c).
  by constructor.
Qed.
Theorem C40_midpoint : forall n m (k : cdyn R n m) g Gx Gu Gv dt d x u y,
  krealizes k g Gx Gu Gv -> mreach k dt d -> 0 < dt ->
  let p := 2%:R^-1 *: (x + y) in let v := dt^-1 *: (y - x) in
  deriv3 g p u v (Gx p u v) (Gu p u v) (Gv p u v) ->
  let e := mid_jac k dt x u y (mid_eval k dt x u y d) in
  (forall x u y, m_value (mid_eval k dt x u y d) = mid_res g dt x u y) /\ m_value e = mid_res g dt x u y /\
  deriv3 (mid_res g dt) x u y (m_Jx e) (m_Ju e) (m_Jy e).
Proof.
move=> n m k g Gx Gu Gv dt d x u y Hk Hd dt0 p v Dg e.
have Hc := mreach_k Hd.
have h2 : (2%:R : R) != 0 by rewrite pnatr_eq0.
have Em (a b : 'cV[R]_n) : a + 2%:R^-1 *: (b - a) = 2%:R^-1 *: (a + b).
  have E : a = 2%:R^-1 *: a + 2%:R^-1 *: a by rewrite -scalerDl -mulr2n -mulr_natr mulVf // scale1r.
  rewrite scalerBr addrCA [RHS]scalerDr [RHS]addrC; congr (_ + _).
  by rewrite {1}E addrK.
have Es a b c : m_value (mid_eval k dt a b c d) = mid_res g dt a b c.
  rewrite /= /integrate /difference Em /mid_res.
  by have [-> _] := Hk _ (2%:R^-1 *: (a + c)) b (dt^-1 *: (c - a)) Hc.
split=> //; split; first exact: Es.
rewrite /e /= /integrate /difference /JintegrateTransport /Jintegrate /Jdifference Em -/p -/v.
have [_ [-> [-> ->]]] := Hk _ p u v Hc.
set A := Gx p u v in Dg *; set B := Gu p u v in Dg *; set C := Gv p u v in Dg *.
have Lp : frechet (fun z : 'cV[R]_(n + m + n) => 2%:R^-1 *: (usubmx (usubmx z) + dsubmx z)) (col_mx (col_mx x u) y)
            (row_mx (row_mx (2%:R^-1 *: 1%:M) 0) (2%:R^-1 *: 1%:M)).
  apply: frechet_ext (frechet_lin _ _) => z.
  rewrite -{1}(vsubmxK z) -{1}(vsubmxK (usubmx z)) !mul_row_col mul0mx addr0.
  by rewrite -!scalemxAl !mul1mx scalerDr.
have Lu : frechet (fun z : 'cV[R]_(n + m + n) => dsubmx (usubmx z)) (col_mx (col_mx x u) y)
            (row_mx (row_mx 0 1%:M) 0).
  apply: frechet_ext (frechet_lin _ _) => z.
  by rewrite -{1}(vsubmxK z) -{1}(vsubmxK (usubmx z)) !mul_row_col !mul0mx addr0 add0r mul1mx.
have Lv : frechet (fun z : 'cV[R]_(n + m + n) => dt^-1 *: (dsubmx z - usubmx (usubmx z))) (col_mx (col_mx x u) y)
            (row_mx (row_mx (- dt^-1 *: 1%:M) 0) (dt^-1 *: 1%:M)).
  apply: frechet_ext (frechet_lin _ _) => z.
  rewrite -{1}(vsubmxK z) -{1}(vsubmxK (usubmx z)) !mul_row_col mul0mx addr0.
  by rewrite -!scalemxAl !mul1mx scalerBr scaleNr addrC.
have L := frechet_col (frechet_col Lp Lu) Lv.
have := frechet_comp L; move=> /(_ _ _ (row_mx (row_mx A B) C)).
rewrite /= !col_mxKu !col_mxKd -/p -/v => /(_ _ Dg) D.
have {}D := frechet_scale dt D; rewrite /deriv3.
apply: (frechet_eq (A := dt *: (row_mx (row_mx A B) C *m
   col_mx (col_mx (row_mx (row_mx (2%:R^-1 *: 1%:M) 0) (2%:R^-1 *: 1%:M)) (row_mx (row_mx 0 1%:M) 0))
          (row_mx (row_mx (- dt^-1 *: 1%:M) 0) (dt^-1 *: 1%:M))))); last first.
  by apply: frechet_ext D => z; rewrite /mid_res !col_mxKu !col_mxKd.
rewrite !mul_row_col !mul_mx_row !mulmx0 !mulmx1 !add_row_mx !addr0 add0r !scale_row_mx.
have dtN : dt != 0 by rewrite gt_eqF.
have EC (M : 'M[R]_n) a : M *m (a *: 1%:M) = a *: M by rewrite -scalemxAr mulmx1.
have E1 : 1%:M + 2%:R^-1 *: 1%:M *m (-1 *: 1%:M) = 2%:R^-1 *: 1%:M :> 'M[R]_n.
  rewrite EC scaleN1r; have := half_add (1 : R); rewrite mul1r => {1}<-.
  by rewrite (_ : (2%:R^-1 + 2%:R^-1)%:M = 2%:R^-1 *: 1%:M + 2%:R^-1 *: 1%:M) ?addrK // -scalerDl scalemx1.
by rewrite E1 !EC !scalerDr !scalerA divff // mulrN divff // scale1r.
Qed.

(** An ODE used as continuous dynamics: f(x,u) - xdot, with Jacobian -1 in xdot. *)
Theorem C40_ode : forall n m (o : ode R n m) f Fx Fu,
  realizes o f Fx Fu ->
  krealizes (ode_cdyn o) (fun x u v => f x u - v) (fun x u _ => Fx x u) (fun x u _ => Fu x u) (fun _ _ _ => - 1%:M)
  /\ forall x u v, deriv2 f x u (Fx x u) (Fu x u) ->
     deriv3 (fun x u v => f x u - v) x u v (Fx x u) (Fu x u) (- 1%:M).
Proof.
move=> n m o f Fx Fu Ho; split.
  move=> d x u v Hd.
  have {}Hd : oreach o d.
    elim: Hd => [|y w z {}d _ H|y w z {}d _ H] /=; first by constructor.
    - apply: (OR3 (c_xdot (o_fwd o y w d) - z) (c_Jxdot (o_fwd o y w d)) (d := o_fwd o y w d)).
      by constructor.
    - apply: (OR3 (c_value (o_dfwd o y w d)) (-1 *: 1%:M) (d := o_dfwd o y w d)).
      by constructor.
  move=> e j; have [E [E1 E2]] := Ho d x u (c_value e) (c_Jxdot e) Hd.
  by rewrite /= E /j /= scaleN1r; split=> //.
move=> x u v Df; rewrite /deriv3.
have Df' : frechet (fun z => f (usubmx z) (dsubmx z)) (usubmx (col_mx (col_mx x u) v)) (row_mx (Fx x u) (Fu x u)).
  by rewrite col_mxKu.
have := frechet_add (frechet_comp (frechet_up (col_mx (col_mx x u) v)) Df') (frechet_scale (-1) (frechet_down (col_mx (col_mx x u) v))).
rewrite mul_mx_row mulmx1 mulmx0 scale_row_mx scaler0 scaleN1r add_row_mx addr0 add0r.
by apply: frechet_ext => z; rewrite scaleN1r.
Qed.

(** LinearODE realizes A x + B u + c, and A, B are its derivatives. *)
Theorem C40_linear_ode : forall n m (A : 'M[R]_n) (B : 'M[R]_(n,m)) c,
  realizes (linear_ode A B c) (fun x u => A *m x + B *m u + c) (fun _ _ => A) (fun _ _ => B) /\
  forall x u, deriv2 (fun x u => A *m x + B *m u + c) x u A B.
Proof.
move=> n m A B c; split.
  move=> d x u w J Hd /=; split=> //.
  elim: Hd => [|y z {}d _ H|y z {}d _ H|w' J' {}d _ H] //=.
move=> x u; apply: frechet_ext (frechet_aff (row_mx A B) c _) => z.
by rewrite -{1}(vsubmxK z) mul_row_col.
Qed.
End S.

(** The hypotheses hold: double integrator, step 1/2; the semi-implicit step from
    q = v = 1 with acceleration 2 reaches q = 2, v = 2. *)
Notation QF := rat_realFieldType.
Example C40_example :
  let A : 'M[QF]_(1 + 1) := block_mx 0 1%:M 0 0 in
  let B : 'M[QF]_(1 + 1, 1) := col_mx 0 1%:M in
  let f := fun (x : 'cV[QF]_(1 + 1)) u => A *m x + B *m u + 0 in
  let o := linear_ode A B 0 in let dt : QF := 2%:R^-1 in
  let d := IData (o_new o) (o_new o) (const_mx 7%:R) 0 0 0 (const_mx 3%:R) 0 0 in
  let x : 'cV[QF]_(1+1) := const_mx 1 in let u : 'cV[QF]_1 := const_mx 2%:R in
  let e := semi_dfwd o dt x u (semi_fwd o dt x u d) in
  let r := rk2_dfwd o dt x u (rk2_fwd o dt x u d) in
  let c : mdata QF (1 + 1) 1 := MData (k_new (ode_cdyn o)) 0 0 0 0 0 0 0 in
  let g := mid_jac (ode_cdyn o) dt x u x (mid_eval (ode_cdyn o) dt x u x c) in
  i_xnext e = const_mx 2%:R /\
  deriv2 (semi_step f dt) x u (i_Jx e) (i_Ju e) /\
  deriv2 (rk2_step f dt) x u (i_Jx r) (i_Ju r) /\
  deriv3 (mid_res (fun x u v => f x u - v) dt) x u x (m_Jx g) (m_Ju g) (m_Jy g).
Proof.
move=> A B f o dt d x u e r c g.
have [Ho Dl] : realizes o f (fun _ _ => A) (fun _ _ => B) /\ forall x u, deriv2 f x u A B
  by exact: C40_linear_ode.
have Hd : fresh o d by [].
have [_ [Es Ds]] := C40_semi_euler (x := x) (u := u) Ho (IR0 (semi_fwd o dt) (semi_dfwd o dt) Hd) (Dl x u).
have [_ [_ Dr]] := C40_rk2 (x := x) (u := u) Ho (IR0 (rk2_fwd o dt) (rk2_dfwd o dt) Hd) (Dl x u) (Dl _ u).
have [Hk Dk] := C40_ode Ho.
have dt0 : 0 < dt by [].
have [_ [_ Dm]] := C40_midpoint (x := x) (u := u) (y := x) Hk (MR0 (k := ode_cdyn o) dt (d := c) erefl) dt0 (Dk _ _ _ (Dl _ _)).
split; last by split.
rewrite Es /semi_step /f addr0.
have Ed : dsubmx (A *m x + B *m u) = u.
  rewrite raddfD /= /A /B -(vsubmxK x) mul_block_col mul_col_mx mul1mx !mul0mx !addr0 !col_mxKd.
  by rewrite add0r mul1mx.
rewrite Ed; apply/colP => i; rewrite !mxE.
by case: (splitP i) => k _; rewrite !mxE.
Qed.

Print Assumptions C40_euler.
Print Assumptions C40_semi_euler.
Print Assumptions C40_rk2.
Print Assumptions C40_midpoint.
Print Assumptions C40_ode.
Print Assumptions C40_linear_ode.
