(** Model of the centroidal dynamics (modelling/dynamics/centroidal-fwd.hxx,
    continuous-centroidal-fwd.hxx) and residuals (modelling/centroidal/*.hxx).

    Real scalars.  Vectors and matrices are functions of their indices, a write
    replaces entries; sizes are explicit where the code uses them (tail, rightCols).
    Reading or writing out of bounds is not represented: state sizes are at least 9,
    force_size at least 3 and the control has nk * force_size entries (the
    constructors pass these sizes). *)
From Coq Require Import Reals List Arith Bool.
Local Open Scope R_scope.

Definition vec := nat -> R.
Definition mtx := nat -> nat -> R.
(** v[i] = a, v[i] += a *)
Definition vset (v : vec) (i : nat) (a : R) : vec := fun k => if Nat.eqb k i then a else v k.
Definition vadd (v : vec) (i : nat) (a : R) : vec := vset v i (v i + a).
(** v.segment<w>(i) = s, v.segment<w>(i) += s *)
Definition in_seg (i w k : nat) : bool := Nat.leb i k && Nat.ltb k (i + w).
Definition sset (v : vec) (i w : nat) (s : vec) : vec := fun k => if in_seg i w k then s (k - i)%nat else v k.
Definition sadd (v : vec) (i w : nat) (s : vec) : vec := sset v i w (fun k => v (i + k)%nat + s k).
(** M(i, j) += a *)
Definition madd (M : mtx) (i j : nat) (a : R) : mtx :=
  fun k l => if Nat.eqb k i && Nat.eqb l j then M i j + a else M k l.
(** M.block(i, j, h, w) = B *)
Definition bset (M : mtx) (i j h w : nat) (B : mtx) : mtx :=
  fun k l => if in_seg i h k && in_seg j w l then B (k - i)%nat (l - j)%nat else M k l.
Definition ident : mtx := fun k l => if Nat.eqb k l then 1 else 0.
Definition mzero : mtx := fun _ _ => 0.
Definition vzero : vec := fun _ => 0.
(** x << nine coefficients, row by row *)
Definition m3 (a b c d e f g h i : R) : mtx := fun k l =>
  match k, l with
  | 0, 0 => a | 0, 1 => b | 0, 2 => c | 1, 0 => d | 1, 1 => e | 1, 2 => f
  | 2, 0 => g | 2, 1 => h | 2, 2 => i | _, _ => 0%R
  end%nat.
(** for (i = 0; i < n; i++) body *)
Fixpoint for_n {D : Type} (n : nat) (body : nat -> D -> D) (d : D) : D :=
  match n with 0%nat => d | S n => body n (for_n n body d) end.

(** ContactMap (contact-map.hpp 8-26): both vectors have size_ entries (C47) *)
Record cmap := CMap { cm_size : nat; cm_state : nat -> bool; cm_pose : nat -> vec }.
(** CentroidalFwdDynamics (centroidal-fwd.hpp 38-44), and its continuous version *)
Record cfwd := CFwd { cf_mass : R; cf_gravity : vec; cf_map : cmap; cf_fs : nat }.
(** ContinuousDynamicsData: xdot_, Jx_, Ju_ *)
Record cfdata := CFData { cf_xdot : vec; cf_Jx : mtx; cf_Ju : mtx }.
(** continuous-dynamics-abstract.hxx 21-38 *)
Definition cfdata0 : cfdata := CFData vzero mzero mzero.

(** body of the loop of centroidal-fwd.hxx 31-50, the forces being read at [off] *)
Definition fwd_body (c : cfwd) (off : nat) (x f : vec) (i : nat) (v : vec) : vec :=
  if cm_state (cf_map c) i then
    let p := cm_pose (cf_map c) i in let o := (off + i * cf_fs c)%nat in
    let v := sadd v 3 3 (fun k => f (o + k)%nat) in
    let v := vadd v 6 ((p 1%nat - x 1%nat) * f (o + 2)%nat - (p 2%nat - x 2%nat) * f (o + 1)%nat) in
    let v := vadd v 7 ((p 2%nat - x 2%nat) * f o - (p 0%nat - x 0%nat) * f (o + 2)%nat) in
    let v := vadd v 8 ((p 0%nat - x 0%nat) * f (o + 1)%nat - (p 1%nat - x 1%nat) * f o) in
    if Nat.eqb (cf_fs c) 6 then sadd v 6 3 (fun k => f (o + 3 + k)%nat) else v
  else v.
(** centroidal-fwd.hxx 28-30 *)
Definition fwd_head (c : cfwd) (x v : vec) : vec :=
  let v := sset v 0 3 (fun k => 1 / cf_mass c * x (3 + k)%nat) in
  let v := sset v 3 3 (fun k => cf_mass c * cf_gravity c k) in
  sset v 6 3 vzero.
(** centroidal-fwd.hxx 21-51; xdot_ has 9 entries, so tail<3> is segment<3>(6) *)
Definition cf_forward (c : cfwd) (x u : vec) (d : cfdata) : cfdata :=
  CFData (for_n (cm_size (cf_map c)) (fwd_body c 0 x u) (fwd_head c x (cf_xdot d))) (cf_Jx d) (cf_Ju d).

(** Jx_(6,1) -= ... Jx_(8,1) += (centroidal-fwd.hxx 64-69) *)
Definition jx_body (r : nat) (f : vec) (o : nat) (J : mtx) : mtx :=
  let J := madd J r 1 (- f (o + 2)%nat) in let J := madd J r 2 (f (o + 1)%nat) in
  let J := madd J (r + 1) 0 (f (o + 2)%nat) in let J := madd J (r + 1) 2 (- f o) in
  let J := madd J (r + 2) 0 (- f (o + 1)%nat) in madd J (r + 2) 1 (f o).
(** Jtemp_ (centroidal-fwd.hxx 71-76) *)
Definition jtemp (p x : vec) : mtx :=
  m3 0 (- (p 2%nat - x 2%nat)) (p 1%nat - x 1%nat)
     (p 2%nat - x 2%nat) 0 (- (p 0%nat - x 0%nat))
     (- (p 1%nat - x 1%nat)) (p 0%nat - x 0%nat) 0.
(** the blocks written for one contact (centroidal-fwd.hxx 78-82) *)
Definition ju_body (c : cfwd) (off : nat) (x : vec) (i : nat) (J : mtx) : mtx :=
  let o := (off + cf_fs c * i)%nat in
  let J := bset J 6 o 3 3 (jtemp (cm_pose (cf_map c) i) x) in
  let J := bset J 3 o 3 3 ident in
  if Nat.eqb (cf_fs c) 6 then bset J 6 (o + 3) 3 3 ident else J.
(** centroidal-fwd.hxx 54-86 *)
Definition cf_dforward (c : cfwd) (x u : vec) (d : cfdata) : cfdata :=
  let Jx := bset mzero 0 3 3 3 ident in
  let Jx := bset Jx 0 3 3 3 (fun k l => Jx k (3 + l)%nat / cf_mass c) in
  let '(Jx, Ju) := for_n (cm_size (cf_map c))
    (fun i J => if cm_state (cf_map c) i
                then (jx_body 6 u (i * cf_fs c) (fst J), ju_body c 0 x i (snd J)) else J) (Jx, mzero) in
  CFData (cf_xdot d) Jx Ju.

(** continuous-centroidal-fwd.hxx 28-58: the forces are x[9..], the control their rates;
    nu_ = size_ * force_size *)
Definition cc_nu (c : cfwd) : nat := (cm_size (cf_map c) * cf_fs c)%nat.
Definition cc_forward (c : cfwd) (x u : vec) (d : cfdata) : cfdata :=
  let v := for_n (cm_size (cf_map c)) (fwd_body c 9 x x) (fwd_head c x (cf_xdot d)) in
  CFData (sset v 9 (cc_nu c) u) (cf_Jx d) (cf_Ju d).
(** continuous-centroidal-fwd.hxx 60-97 *)
Definition cc_dforward (c : cfwd) (x : vec) (d : cfdata) : cfdata :=
  let Jx := bset mzero 0 3 3 3 ident in
  let Jx := bset Jx 0 3 3 3 (fun k l => Jx k (3 + l)%nat / cf_mass c) in
  let Jx := for_n (cm_size (cf_map c))
    (fun i J => if cm_state (cf_map c) i
                then ju_body c 9 x i (jx_body 6 x (9 + i * cf_fs c) J) else J) Jx in
  CFData (cf_xdot d) Jx (bset mzero 9 0 (cc_nu c) (cc_nu c) ident).

(** StageFunctionData, zero at construction (function-abstract.hxx) *)
Record sdata := SData { s_value : vec; s_Jx : mtx; s_Ju : mtx }.
Definition sdata0 : sdata := SData vzero mzero mzero.
(** residual objects: evaluate and computeJacobians *)
Record sres := SRes { r_eval : vec -> vec -> sdata -> sdata; r_jac : vec -> vec -> sdata -> sdata }.

(** angular-acceleration.hxx 8-31; nk_ equals the map's size by the constructor's check
    (angular-acceleration.hpp 40-44) *)
Definition aa_body (c : cfwd) (x u : vec) (i : nat) (v : vec) : vec :=
  if cm_state (cf_map c) i then
    let p := cm_pose (cf_map c) i in let o := (i * cf_fs c)%nat in
    let v := vadd v 0 ((p 1%nat - x 1%nat) * u (o + 2)%nat - (p 2%nat - x 2%nat) * u (o + 1)%nat) in
    let v := vadd v 1 ((p 2%nat - x 2%nat) * u o - (p 0%nat - x 0%nat) * u (o + 2)%nat) in
    let v := vadd v 2 ((p 0%nat - x 0%nat) * u (o + 1)%nat - (p 1%nat - x 1%nat) * u o) in
    if Nat.eqb (cf_fs c) 6 then sadd v 0 3 (fun k => u (o + 3 + k)%nat) else v
  else v.
(** angular-acceleration.hxx 33-63 *)
Definition aa_ju (c : cfwd) (x : vec) (i : nat) (J : mtx) : mtx :=
  let o := (cf_fs c * i)%nat in
  let J := bset J 0 o 3 3 (jtemp (cm_pose (cf_map c) i) x) in
  if Nat.eqb (cf_fs c) 6 then bset J 0 (o + 3) 3 3 ident else J.
Definition angular_acceleration (c : cfwd) : sres :=
  SRes (fun x u d => SData (for_n (cm_size (cf_map c)) (aa_body c x u) vzero) (s_Jx d) (s_Ju d))
    (fun x u d =>
       let '(Jx, Ju) := for_n (cm_size (cf_map c))
         (fun i J => if cm_state (cf_map c) i
                     then (jx_body 0 u (i * cf_fs c) (fst J), aa_ju c x i (snd J)) else J) (mzero, mzero) in
       SData (s_value d) Jx Ju).

(** centroidal-acceleration.hxx 8-35; value_ has 3 entries *)
Definition centroidal_acceleration (c : cfwd) : sres :=
  SRes (fun x u d =>
     let v := for_n (cm_size (cf_map c))
       (fun i v => if cm_state (cf_map c) i then sadd v 0 3 (fun k => u (i * cf_fs c + k)%nat) else v) vzero in
     let v : vec := fun k => v k / cf_mass c in
     SData (fun k => v k + cf_gravity c k) (s_Jx d) (s_Ju d))
    (fun x u d =>
       let Ju := for_n (cm_size (cf_map c))
         (fun i J => if cm_state (cf_map c) i then
            let J := bset J 0 (i * cf_fs c) 3 3 ident in
            bset J 0 (i * cf_fs c) 3 3 (fun k l => J k (i * cf_fs c + l)%nat * (1 / cf_mass c)) else J) mzero in
       SData (s_value d) (s_Jx d) Ju).

(** centroidal-translation.hxx 8-21, linear-momentum.hxx 8-21, angular-momentum.hxx 8-21:
    only the identity block is written; rightCols<3> starts at column ndx - 3 *)
Definition centroidal_com (ref : vec) : sres :=
  SRes (fun x u d => SData (fun k => x k - ref k) (s_Jx d) (s_Ju d))
    (fun x u d => SData (s_value d) (bset (s_Jx d) 0 0 3 3 ident) (s_Ju d)).
Definition linear_momentum (ref : vec) : sres :=
  SRes (fun x u d => SData (fun k => x (3 + k)%nat - ref k) (s_Jx d) (s_Ju d))
    (fun x u d => SData (s_value d) (bset (s_Jx d) 0 3 3 3 ident) (s_Ju d)).
Definition angular_momentum (ndx : nat) (ref : vec) : sres :=
  SRes (fun x u d => SData (fun k => x (6 + k)%nat - ref k) (s_Jx d) (s_Ju d))
    (fun x u d => SData (s_value d) (bset (s_Jx d) 0 (ndx - 3) 3 3 ident) (s_Ju d)).

(** centroidal-wrapper.hxx 8-31: the wrapped residual with ndx1 = n, nu = m, nr rows, on the
    state (x, u); the wrapped data is kept beside *)
Record wdata := WData { w_outer : sdata; w_inner : sdata }.
Definition wdata0 : wdata := WData sdata0 sdata0.
Definition w_eval (s : sres) (n : nat) (z : vec) (d : wdata) : wdata :=
  let i := r_eval s z (fun k => z (n + k)%nat) (w_inner d) in
  WData (SData (s_value i) (s_Jx (w_outer d)) (s_Ju (w_outer d))) i.
Definition w_jac (s : sres) (n m nr : nat) (z : vec) (d : wdata) : wdata :=
  let i := r_jac s z (fun k => z (n + k)%nat) (w_inner d) in
  let J := bset mzero 0 0 nr n (s_Jx i) in
  WData (SData (s_value (w_outer d)) (bset J 0 n nr m (s_Ju i)) mzero) i.
