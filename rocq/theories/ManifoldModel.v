(** Model of the state spaces: ManifoldAbstract (core/manifold-base.hpp, .hxx),
    VectorSpace (core/vector-space.hpp), CartesianProduct
    (modelling/spaces/cartesian-product.hpp, .hxx) and TangentBundle
    (modelling/spaces/tangent-bundle.hpp, .hxx).

    Real scalars; vectors are lists, matrices lists of rows.  A component writes a
    whole vector into the segment it is given.  [arg] is false for 0 and true for 1
    (other values raise or do nothing).  Reading outside a vector is an assertion in
    the code; it is outside the hypotheses of the theorems.  rand is not modelled. *)
From Coq Require Import Reals List Arith.
From Verif Require Import CSetModel MultModel MeritModel.
Import ListNotations.
Local Open Scope R_scope.

(** x.segment(c, n), and out.segment(c, _) = s *)
Definition seg (c n : nat) (x : list R) : list R := firstn n (skipn c x).
Definition set_seg {A} (c : nat) (s out : list A) : list A := firstn c out ++ s ++ skipn (c + length s) out.
(** Jout.block(c, c, n, n) = B *)
Definition set_block (c : nat) (B M : list (list R)) : list (list R) :=
  set_seg c (zip_with (set_seg c) B (firstn (length B) (skipn c M))) M.
Definition zeros (n : nat) : list R := repeat 0 n.
Definition zero_mat (n : nat) : list (list R) := repeat (zeros n) n.
(** setIdentity() *)
Definition identity (n : nat) : list (list R) := map (fun i => set_seg i [1] (zeros n)) (seq 0 n).

(** manifold-base.hpp 10-160: dimensions and virtual functions *)
Record manifold := Manifold {
  m_nx : nat; m_ndx : nat;
  m_neutral : list R;
  m_normalized : list R -> bool;
  m_integrate : list R -> list R -> list R;
  m_difference : list R -> list R -> list R;
  m_interpolate : list R -> list R -> R -> list R;
  m_Jintegrate : list R -> list R -> bool -> list (list R);
  m_transport : list R -> list R -> bool -> list (list R) -> list (list R);
  m_Jdifference : list R -> list R -> bool -> list (list R) }.

(** manifold-base.hpp 147-152: default interpolate_impl *)
Definition default_interpolate (integrate difference : list R -> list R -> list R) (x0 x1 : list R) (u : R) : list R :=
  integrate x0 (vscale u (difference x0 x1)).

(** vector-space.hpp 48-88; isNormalized and neutral are the defaults (manifold-base.hpp 48, 154-157) *)
Definition vector_space (n : nat) : manifold :=
  Manifold n n (zeros n) (fun _ => true)
    (fun x v => vplus' x v)
    (fun x0 x1 => zip_with Rminus x1 x0)
    (fun x0 x1 u => vplus' (vscale u x1) (vscale (1 - u) x0))
    (fun _ _ _ => identity n)
    (fun _ _ _ J => J)
    (fun _ _ arg => if arg then identity n else map (vscale (-1)) (identity n)).

(** cartesian-product.hpp 116-123: _calc_dims *)
Definition sum_of (f : manifold -> nat) (cs : list manifold) : nat := fold_right (fun c a => f c + a)%nat 0%nat cs.
(** cartesian-product.hxx 12-19 *)
Fixpoint p_neutral (cs : list manifold) (c : nat) (out : list R) : list R :=
  match cs with
  | [] => out
  | m :: cs => p_neutral cs (c + m_nx m) (set_seg c (m_neutral m) out)
  end.
(** split_impl (cartesian-product.hxx 43-54) with the size check; split_vector_impl (56-68)
    is the same on ndx *)
Fixpoint p_split (f : manifold -> nat) (cs : list manifold) (c : nat) (x : list R) : list (list R) :=
  match cs with [] => [] | m :: cs => seg c (f m) x :: p_split f cs (c + f m) x end.
Definition split (f : manifold -> nat) (cs : list manifold) (x : list R) : option (list (list R)) :=
  if Nat.eqb (length x) (sum_of f cs) then Some (p_split f cs 0 x) else None.
(** merge (cartesian-product.hxx 70-81), merge_vector (83-94); [out] is the new vector *)
Fixpoint p_merge (f : manifold -> nat) (cs : list manifold) (c : nat) (xs : list (list R)) (out : list R) : list R :=
  match cs, xs with m :: cs, x :: xs => p_merge f cs (c + f m) xs (set_seg c x out) | _, _ => out end.
(** cartesian-product.hxx 31-39: res |= ... starting from true *)
Definition p_normalized (cs : list manifold) (x : list R) : option bool :=
  option_map (fun xs => fold_left (fun res p => orb res (m_normalized (fst p) (snd p))) (combine cs xs) true)
    (split m_nx cs x).
(** cartesian-product.hxx 96-115 *)
Fixpoint p_integrate (cs : list manifold) (cq cv : nat) (x v out : list R) : list R :=
  match cs with
  | [] => out
  | m :: cs => p_integrate cs (cq + m_nx m) (cv + m_ndx m) x v
      (set_seg cq (m_integrate m (seg cq (m_nx m) x) (seg cv (m_ndx m) v)) out)
  end.
(** cartesian-product.hxx 117-136 *)
Fixpoint p_difference (cs : list manifold) (cq cv : nat) (x0 x1 out : list R) : list R :=
  match cs with
  | [] => out
  | m :: cs => p_difference cs (cq + m_nx m) (cv + m_ndx m) x0 x1
      (set_seg cv (m_difference m (seg cq (m_nx m) x0) (seg cq (m_nx m) x1)) out)
  end.
(** cartesian-product.hxx 138-159, Jout being zeroed before; 181-202 the same with
    Jdifference *)
Fixpoint p_Jintegrate (cs : list manifold) (cq cv : nat) (x v : list R) (arg : bool) (J : list (list R)) :=
  match cs with
  | [] => J
  | m :: cs => p_Jintegrate cs (cq + m_nx m) (cv + m_ndx m) x v arg
      (set_block cv (m_Jintegrate m (seg cq (m_nx m) x) (seg cv (m_ndx m) v) arg) J)
  end.
Fixpoint p_Jdifference (cs : list manifold) (cq cv : nat) (x0 x1 : list R) (arg : bool) (J : list (list R)) :=
  match cs with
  | [] => J
  | m :: cs => p_Jdifference cs (cq + m_nx m) (cv + m_ndx m) x0 x1 arg
      (set_block cv (m_Jdifference m (seg cq (m_nx m) x0) (seg cq (m_nx m) x1) arg) J)
  end.
(** cartesian-product.hxx 161-179 *)
Fixpoint p_transport (cs : list manifold) (cq cv : nat) (x v : list R) (arg : bool) (J : list (list R)) :=
  match cs with
  | [] => J
  | m :: cs => p_transport cs (cq + m_nx m) (cv + m_ndx m) x v arg
      (set_seg cv (m_transport m (seg cq (m_nx m) x) (seg cv (m_ndx m) v) arg (firstn (m_ndx m) (skipn cv J))) J)
  end.
(** CartesianProduct: interpolate is the default.  isNormalized on a vector of the wrong
    size raises; here it is false. *)
Definition product (cs : list manifold) : manifold :=
  let nx := sum_of m_nx cs in let ndx := sum_of m_ndx cs in
  let integrate x v := p_integrate cs 0 0 x v (zeros nx) in
  let difference x0 x1 := p_difference cs 0 0 x0 x1 (zeros ndx) in
  Manifold nx ndx (p_neutral cs 0 (zeros nx))
    (fun x => match p_normalized cs x with Some b => b | None => false end)
    integrate difference (default_interpolate integrate difference)
    (fun x v arg => p_Jintegrate cs 0 0 x v arg (zero_mat ndx))
    (fun x v arg J => p_transport cs 0 0 x v arg J)
    (fun x0 x1 arg => p_Jdifference cs 0 0 x0 x1 arg (zero_mat ndx)).

(** operator* (cartesian-product.hpp 158-183): the components of the result *)
Definition times_spaces (l r : manifold) : list manifold := [l; r].
Definition times_product_space (l : list manifold) (r : manifold) : list manifold := l ++ [r].
(** returns right * left (171-175) *)
Definition times_space_product (l : manifold) (r : list manifold) : list manifold := times_product_space r l.
Definition times_products (l r : list manifold) : list manifold := l ++ r.

(** tangent-bundle.hpp 41-44; .hxx 7-100.  tail(n) is the segment starting at size - n. *)
Definition tail (n : nat) (x : list R) : list R := skipn (length x - n) x.
Definition tangent (b : manifold) : manifold :=
  let n := m_nx b in let nv := m_ndx b in
  Manifold (n + nv) (2 * nv)
    (set_seg 0 (m_neutral b) (zeros (n + nv)))
    (fun x => m_normalized b (firstn n x))
    (fun x dx => m_integrate b (firstn n x) (firstn nv dx) ++ vplus' (tail nv x) (tail nv dx))
    (fun x0 x1 => m_difference b (firstn n x0) (firstn n x1) ++ zip_with Rminus (tail nv x1) (tail nv x0))
    (fun x0 x1 u => m_interpolate b (firstn n x0) (firstn n x1) u
                    ++ vplus' (vscale (1 - u) (firstn nv x0)) (vscale u (firstn nv x1)))
    (fun x dx arg => set_block nv (identity nv) (set_block 0 (m_Jintegrate b (firstn n x) (firstn nv dx) arg) (zero_mat (2 * nv))))
    (fun x v arg J => m_transport b (firstn n x) (firstn nv v) arg (firstn nv J) ++ skipn nv J)
    (fun x0 x1 arg => set_block nv (if arg then identity nv else map (vscale (-1)) (identity nv))
       (set_block 0 (m_Jdifference b (firstn n x0) (firstn n x1) arg) (zero_mat (2 * nv)))).
