(** Explicit dynamics, their data, linear discrete dynamics and direct sums of explicit dynamics.
    include/aligator/core/explicit-dynamics.hpp, include/aligator/modelling/linear-discrete-dynamics.hpp,
    include/aligator/modelling/explicit-dynamics-direct-sum.hxx, include/aligator/modelling/spaces/cartesian-product.hxx.

    Scalars are exact reals. Vectors carry their size; [None] is an exception or a violated Eigen
    assertion (undefined behaviour when assertions are off). Memory and polymorphic copies are not
    modelled: a component is copied by value into the sum, which in this model is sharing an
    immutable object. The second-order buffers Hxx_, Hxu_, Huu_ and Jtmp_xnext are never written
    by the code below and left out. *)
Require Import Reals Arith Bool List.
Require Import Verif.CentroidalModel.
Open Scope R_scope.

(** A vector with its size (Eigen's size()). *)
Record svec := SVec { sv_n : nat; sv_at : vec }.

(** v.segment(i, n): the entries beyond the size are not readable; they are 0 here. *)
Definition segment (v : vec) (i n : nat) : svec := SVec n (fun k => if Nat.ltb k n then v (i + k)%nat else 0).

(** ManifoldAbstractTpl (core/manifold-base.hpp): dimensions, neutral element and difference;
    the other operations are not called by the code below. *)
Record space := Space { sp_nx : nat; sp_ndx : nat; sp_neutral : vec; sp_diff : vec -> vec -> vec }.

(** VectorSpaceTpl (core/vector-space.hpp). *)
Definition vector_space (n : nat) : space := Space n n vzero (fun x y i => y i - x i).

(** polymorphic * polymorphic (spaces/cartesian-product.hpp 157-161) with neutral and difference
    (cartesian-product.hxx 12-20 and difference_impl): always exactly two components. *)
Definition product (a b : space) : space :=
  Space (sp_nx a + sp_nx b) (sp_ndx a + sp_ndx b)
    (fun k => if Nat.ltb k (sp_nx a) then sp_neutral a k else sp_neutral b (k - sp_nx a)%nat)
    (fun x y k =>
       if Nat.ltb k (sp_ndx a)
       then sp_diff a (sv_at (segment x 0 (sp_nx a))) (sv_at (segment y 0 (sp_nx a))) k
       else sp_diff b (sv_at (segment x (sp_nx a) (sp_nx b))) (sv_at (segment y (sp_nx a) (sp_nx b))) (k - sp_ndx a)%nat).

(** split (cartesian-product.hxx 42-54) of a product of two spaces: throws on the wrong size. *)
Definition split2 (a b : space) (x : svec) : option (svec * svec) :=
  if Nat.eqb (sv_n x) (sp_nx a + sp_nx b)
  then Some (segment (sv_at x) 0 (sp_nx a), segment (sv_at x) (sp_nx a) (sp_nx b))
  else None.

(** ExplicitDynamicsDataTpl (explicit-dynamics.hpp 64-110): xnext_ (resizable) and jac_buffer_,
    of size ndx2 by ndx1 + nu. *)
Record edata := EData { ed_ndx1 : nat; ed_nu : nat; ed_ndx2 : nat; ed_xnext : svec; ed_jac : mtx }.

(** Jx() = leftCols(ndx1), Ju() = rightCols(nu) (101-104). *)
Definition ed_Jx (d : edata) : mtx := ed_jac d.
Definition ed_Ju (d : edata) : mtx := fun i j => ed_jac d i (ed_ndx1 d + ed_nu d - ed_nu d + j)%nat.

(** Writing a block of size r by c at row i and column j of the buffer from a matrix of size h by w:
    Eigen asserts the sizes agree and the block is inside. *)
Definition put (d : edata) (rows cols i j r c : nat) (off h w : nat) (B : mtx) : option edata :=
  if Nat.eqb r h && Nat.eqb c w && Nat.leb (i + r) rows && Nat.leb (j + c) cols
  then Some (EData (ed_ndx1 d) (ed_nu d) (ed_ndx2 d) (ed_xnext d) (bset (ed_jac d) i (off + j) r c B))
  else None.
(** Jx().block(i, j, r, c) = B and Ju().block(i, j, r, c) = B. *)
Definition put_Jx (d : edata) i j r c h w B := put d (ed_ndx2 d) (ed_ndx1 d) i j r c 0 h w B.
Definition put_Ju (d : edata) i j r c h w B := put d (ed_ndx2 d) (ed_nu d) i j r c (ed_ndx1 d + ed_nu d - ed_nu d) h w B.

(** An ExplicitDynamicsModelTpl (explicit-dynamics.hpp 21-60), with the type of its data. *)
Record dyn := Dyn {
  dy_space : space; dy_next : space; dy_nu : nat;
  dy_D : Type;
  dy_base : dy_D -> edata;
  dy_create : option dy_D;
  dy_forward : svec -> svec -> dy_D -> option dy_D;
  dy_dforward : svec -> svec -> dy_D -> option dy_D }.

(** The constructor of the data from a model (68-85, 106-110): zero, then the neutral state. *)
Definition edata_make (s s2 : space) (nu : nat) : edata :=
  EData (sp_ndx s) nu (sp_ndx s2) (SVec (sp_nx s) (sp_neutral s)) mzero.

(** Row i of a matrix with n columns times a vector: the sum in the order of the columns. *)
Definition mulv (n : nat) (A : mtx) (x : vec) (i : nat) : R := for_n n (fun j acc => acc + A i j * x j) 0.

(** ** LinearDiscreteDynamicsTpl (linear-discrete-dynamics.hpp 11-47) *)
(** The matrices with their sizes, as given to the constructor (24-29), which checks nothing. *)
Record lin := Lin { l_Ar : nat; l_Ac : nat; l_A : mtx; l_Br : nat; l_Bc : nat; l_B : mtx; l_c : svec }.

(** forward (31-36): xnext_ is resized by the assignment of c_. *)
Definition lin_forward (l : lin) (x u : svec) (d : edata) : option edata :=
  if Nat.eqb (l_Ac l) (sv_n x) && Nat.eqb (l_Ar l) (sv_n (l_c l)) &&
     Nat.eqb (l_Bc l) (sv_n u) && Nat.eqb (l_Br l) (sv_n (l_c l))
  then
    let v0 := sv_at (l_c l) in
    let v1 := fun i => v0 i + mulv (l_Ac l) (l_A l) (sv_at x) i in
    let v2 := fun i => v1 i + mulv (l_Bc l) (l_B l) (sv_at u) i in
    Some (EData (ed_ndx1 d) (ed_nu d) (ed_ndx2 d) (SVec (sv_n (l_c l)) v2) (ed_jac d))
  else None.

(** dForward (38) does nothing. *)
Definition lin_dforward (l : lin) (x u : svec) (d : edata) : option edata := Some d.

(** createData (40-45): the whole views are assigned. *)
Definition lin_create (l : lin) : option edata :=
  let d := edata_make (vector_space (l_Ac l)) (vector_space (l_Ac l)) (l_Bc l) in
  match put_Jx d 0 0 (ed_ndx2 d) (ed_ndx1 d) (l_Ar l) (l_Ac l) (l_A l) with
  | Some d1 => put_Ju d1 0 0 (ed_ndx2 d1) (ed_nu d1) (l_Br l) (l_Bc l) (l_B l)
  | None => None
  end.

Definition linear_dynamics (l : lin) : dyn :=
  Dyn (vector_space (l_Ac l)) (vector_space (l_Ac l)) (l_Bc l) edata (fun d => d) (lin_create l) (lin_forward l) (lin_dforward l).

(** ** DirectSumExplicitDynamicsTpl (explicit-dynamics-direct-sum.hxx) *)
(** Data (19-24): the base data and those of the two components. *)
Record dsum (f g : dyn) := DSum { ds_base : edata; ds_1 : dy_D f; ds_2 : dy_D g }.
Arguments DSum {f g}. Arguments ds_base {f g}. Arguments ds_1 {f g}. Arguments ds_2 {f g}.

Section Sum.
Variables f g : dyn.

(** The constructor (9-17): the product of the next spaces is both the space and the next space. *)
Definition ds_space : space := product (dy_next f) (dy_next g).

Definition ds_create : option (dsum f g) :=
  match dy_create f, dy_create g with
  | Some d1, Some d2 => Some (DSum (edata_make ds_space ds_space (dy_nu f + dy_nu g)) d1 d2)
  | _, _ => None
  end.

(** u.head(nu_f) and u.tail(nu_g): each asserts that u is long enough. *)
Definition ctrl2 (u : svec) : option (svec * svec) :=
  if Nat.leb (dy_nu f) (sv_n u) && Nat.leb (dy_nu g) (sv_n u)
  then Some (segment (sv_at u) 0 (dy_nu f), segment (sv_at u) (sv_n u - dy_nu g) (dy_nu g))
  else None.

(** forward (26-41). *)
Definition ds_forward (x u : svec) (d : dsum f g) : option (dsum f g) :=
  match split2 (dy_next f) (dy_next g) x, ctrl2 u with
  | Some (x1, x2), Some (u1, u2) =>
      match dy_forward f x1 u1 (ds_1 d), dy_forward g x2 u2 (ds_2 d) with
      | Some d1, Some d2 =>
          let b := ds_base d in
          let n1 := sp_nx (dy_next f) in let n2 := sp_nx (dy_next g) in
          let y1 := ed_xnext (dy_base f d1) in let y2 := ed_xnext (dy_base g d2) in
          let n := sv_n (ed_xnext b) in
          if Nat.eqb (sv_n y1) n1 && Nat.leb n1 n && Nat.eqb (sv_n y2) n2 && Nat.leb n2 n
          then
            let v1 := sset (sv_at (ed_xnext b)) 0 n1 (sv_at y1) in
            let v2 := sset v1 (n - n2) n2 (sv_at y2) in
            Some (DSum (EData (ed_ndx1 b) (ed_nu b) (ed_ndx2 b) (SVec n v2) (ed_jac b)) d1 d2)
          else None
      | _, _ => None
      end
  | _, _ => None
  end.

(** dForward (43-71). *)
Definition ds_dforward (x u : svec) (d : dsum f g) : option (dsum f g) :=
  match split2 (dy_next f) (dy_next g) x, ctrl2 u with
  | Some (x1, x2), Some (u1, u2) =>
      match dy_dforward f x1 u1 (ds_1 d), dy_dforward g x2 u2 (ds_2 d) with
      | Some d1, Some d2 =>
          let e1 := dy_base f d1 in let e2 := dy_base g d2 in
          let nuf := dy_nu f in let nug := dy_nu g in
          let of := sp_ndx (dy_next f) in let og := sp_ndx (dy_next g) in
          let b := ds_base d in
          match put_Jx b 0 0 of (sp_ndx (dy_next f)) (ed_ndx2 e1) (ed_ndx1 e1) (ed_Jx e1) with
          | Some b1 =>
          match put_Jx b1 (ed_ndx2 b1 - og) (ed_ndx1 b1 - sp_ndx (dy_next g)) og (sp_ndx (dy_next g)) (ed_ndx2 e2) (ed_ndx1 e2) (ed_Jx e2) with
          | Some b2 =>
          match put_Ju b2 0 0 of nuf (ed_ndx2 e1) (ed_nu e1) (ed_Ju e1) with
          | Some b3 =>
          match put_Ju b3 (ed_ndx2 b3 - og) (ed_nu b3 - nug) og nug (ed_ndx2 e2) (ed_nu e2) (ed_Ju e2) with
          | Some b4 => Some (DSum b4 d1 d2)
          | None => None end | None => None end | None => None end | None => None end
      | _, _ => None
      end
  | _, _ => None
  end.

(** directSum (explicit-dynamics-direct-sum.hpp 53-57). *)
Definition direct_sum : dyn :=
  Dyn ds_space ds_space (dy_nu f + dy_nu g) (dsum f g) ds_base ds_create ds_forward ds_dforward.
End Sum.
