(** Objects which own Eigen matrices and hold Ref views of their blocks: QFunctionTpl
    (include/aligator/solvers/value-function.hpp) and CostDataAbstractTpl
    (include/aligator/core/cost-abstract.hpp), over an explicit heap.

    A dynamic Eigen matrix owns one buffer of the heap, in column-major order; a Ref is a pointer,
    an offset, sizes and a stride, and does not own anything. Freshly allocated memory holds
    arbitrary scalars ([junk]); access to freed memory, a double free and an access outside a
    buffer are [None]. Simplified: an empty matrix owns an empty buffer instead of no buffer;
    allocation does not fail; exceptions do not occur. *)
Require Import Reals Arith Bool List.
Import ListNotations.
Open Scope R_scope.

(** ** Memory *)
Record heap := Heap { h_next : nat; h_buf : nat -> option (nat * (nat -> R)) }.
Definition heap0 : heap := Heap 0 (fun _ => None).
Definition set_buf (h : heap) (p : nat) (b : option (nat * (nat -> R))) : heap :=
  Heap (h_next h) (fun k => if Nat.eqb k p then b else h_buf h k).

Record mat := Mat { m_ptr : nat; m_rows : nat; m_cols : nat }.
Record view := View { v_ptr : nat; v_off : nat; v_rows : nat; v_cols : nat; v_ld : nat }.

(** Eigen: m.block(i, j, r, c), and the corners and segments built from it *)
Definition block (m : mat) (i j r c : nat) : view := View (m_ptr m) (i + j * m_rows m) r c (m_rows m).
Definition head (m : mat) (n : nat) : view := block m 0 0 n 1.
Definition seg (m : mat) (i n : nat) : view := block m i 0 n 1.
Definition tail (m : mat) (n : nat) : view := block m (m_rows m - n) 0 n 1.
Definition topLeft (m : mat) (r c : nat) : view := block m 0 0 r c.
Definition topRight (m : mat) (r c : nat) : view := block m 0 (m_cols m - c) r c.
Definition bottomLeft (m : mat) (r c : nat) : view := block m (m_rows m - r) 0 r c.
Definition bottomRight (m : mat) (r c : nat) : view := block m (m_rows m - r) (m_cols m - c) r c.

(** reading and writing a coefficient of a view *)
Definition idx (w : view) (i j : nat) : nat := (v_off w + i + j * v_ld w)%nat.
Definition vget (h : heap) (w : view) (i j : nat) : option R :=
  if Nat.ltb i (v_rows w) && Nat.ltb j (v_cols w) then
    match h_buf h (v_ptr w) with
    | Some (n, c) => if Nat.ltb (idx w i j) n then Some (c (idx w i j)) else None
    | None => None
    end
  else None.
Definition vput (h : heap) (w : view) (i j : nat) (a : R) : option heap :=
  if Nat.ltb i (v_rows w) && Nat.ltb j (v_cols w) then
    match h_buf h (v_ptr w) with
    | Some (n, c) => if Nat.ltb (idx w i j) n
        then Some (set_buf h (v_ptr w) (Some (n, fun k => if Nat.eqb k (idx w i j) then a else c k))) else None
    | None => None
    end
  else None.

Section Code.
Variable junk : nat -> nat -> R.

Definition alloc (h : heap) (n : nat) : heap * nat :=
  (Heap (S (h_next h)) (fun k => if Nat.eqb k (h_next h) then Some (n, junk (h_next h)) else h_buf h k), h_next h).
Definition free (h : heap) (p : nat) : option heap :=
  match h_buf h p with Some _ => Some (set_buf h p None) | None => None end.
(** Matrix(r, c) *)
Definition mat_make (h : heap) (r c : nat) : heap * mat := let (h1, p) := alloc h (r * c) in (h1, Mat p r c).
(** setZero *)
Definition mat_zero (h : heap) (m : mat) : option heap :=
  match h_buf h (m_ptr m) with Some (n, _) => Some (set_buf h (m_ptr m) (Some (n, fun _ => 0))) | None => None end.
(** resize: a new buffer exactly when the number of coefficients changes *)
Definition mat_resize (h : heap) (m : mat) (r c : nat) : option (heap * mat) :=
  if Nat.eqb (r * c) (m_rows m * m_cols m) then Some (h, Mat (m_ptr m) r c)
  else match free h (m_ptr m) with Some h1 => Some (mat_make h1 r c) | None => None end.
(** m = s: resizes, then copies the coefficients *)
Definition mat_assign (h : heap) (m s : mat) : option (heap * mat) :=
  match mat_resize h m (m_rows s) (m_cols s) with
  | Some (h1, m1) =>
      match h_buf h1 (m_ptr s), h_buf h1 (m_ptr m1) with
      | Some (_, c), Some (n, _) => Some (set_buf h1 (m_ptr m1) (Some (n, c)), m1)
      | _, _ => None
      end
  | None => None
  end.

(** ** QFunctionTpl (value-function.hpp 43-165) *)
Inductive which := Qx | Qu | Qxx | Qxu | Qxy | Quu | Quy | Qyy.
Record qfun := QFun { q_ndx : nat; q_nu : nat; q_ndy : nat; q_q : R; q_grad : mat; q_hess : mat; q_ref : which -> view }.
Definition ntot (q : qfun) : nat := (q_ndx q + q_nu q + q_ndy q)%nat.

(** redef_refs (146-161) *)
Definition redef_refs (q : qfun) : qfun :=
  let ndx := q_ndx q in let nu := q_nu q in let ndy := q_ndy q in
  QFun ndx nu ndy (q_q q) (q_grad q) (q_hess q) (fun w =>
    match w with
    | Qx => head (q_grad q) ndx
    | Qu => seg (q_grad q) ndx nu
    | Qxx => topLeft (q_hess q) ndx ndx
    | Qxu => block (q_hess q) 0 ndx ndx nu
    | Qxy => topRight (q_hess q) ndx ndy
    | Quu => block (q_hess q) ndx ndx nu nu
    | Quy => block (q_hess q) ndx (ndx + nu) nu ndy
    | Qyy => bottomRight (q_hess q) ndy ndy
    end).

(** the constructor (68-86) *)
Definition q_make (h : heap) (ndx nu ndy : nat) : option (heap * qfun) :=
  let (h1, g) := mat_make h (ndx + nu) 1 in
  let (h2, H) := mat_make h1 (ndx + nu + ndy) (ndx + nu + ndy) in
  let refs := fun w =>
    match w with
    | Qx => head g ndx
    | Qu => seg g ndx nu
    | Qxx => topLeft H ndx ndx
    | Qxu => block H 0 ndx ndx nu
    | Qxy => topRight H ndx ndy
    | Quu => block H ndx ndx nu nu
    | Quy => block H ndx (ndx + nu) nu ndy
    | Qyy => bottomRight H ndy ndy
    end in
  match mat_zero h2 g with
  | Some h3 => match mat_zero h3 H with Some h4 => Some (h4, QFun ndx nu ndy 0 g H refs) | None => None end
  | None => None
  end.

(** operator=(const &) (110-120), also the body of the copy constructor (90-97) *)
Definition q_assign (h : heap) (q s : qfun) : option (heap * qfun) :=
  match mat_assign h (q_grad q) (q_grad s) with
  | Some (h1, g) =>
      match mat_assign h1 (q_hess q) (q_hess s) with
      | Some (h2, H) => Some (h2, redef_refs (QFun (q_ndx s) (q_nu s) (q_ndy s) (q_q s) g H (q_ref q)))
      | None => None
      end
  | None => None
  end.
(** copy constructor (88-98) *)
Definition q_copy (h : heap) (s : qfun) : option (heap * qfun) :=
  match q_make h (q_ndx s) (q_nu s) (q_ndy s) with Some (h1, q) => q_assign h1 q s | None => None end.
(** swap (131-143): std::swap of Eigen matrices exchanges their buffers *)
Definition q_swap (a b : qfun) : qfun * qfun :=
  (redef_refs (QFun (q_ndx b) (q_nu b) (q_ndy b) (q_q b) (q_grad b) (q_hess b) (q_ref a)),
   redef_refs (QFun (q_ndx a) (q_nu a) (q_ndy a) (q_q a) (q_grad a) (q_hess a) (q_ref b))).
Definition q_destroy (h : heap) (q : qfun) : option heap :=
  match free h (m_ptr (q_grad q)) with Some h1 => free h1 (m_ptr (q_hess q)) | None => None end.

(** ** Programs over variables *)
Record st := St { s_h : heap; s_v : nat -> option qfun }.
Definition set_v (f : nat -> option qfun) (v : nat) (q : option qfun) : nat -> option qfun :=
  fun k => if Nat.eqb k v then q else f k.
Inductive op :=
| Make (v ndx nu ndy : nat) | CopyC (v w : nat) | MoveC (v w : nat)
| Assign (v w : nat) | MoveA (v w : nat) | Swap (v w : nat) | Destroy (v : nat)
| Write (v : nat) (w : which) (i j : nat) (a : R) | SetQ (v : nat) (a : R).

(** swap of two variables, which may be the same one: exchanging a matrix with itself and
    redefining the views *)
Definition swap_vars (s : st) (v w : nat) : option st :=
  match s_v s v, s_v s w with
  | Some a, Some b =>
      let (a', b') := q_swap a b in Some (St (s_h s) (set_v (set_v (s_v s) v (Some a')) w (Some b')))
  | _, _ => None
  end.

Definition step (s : st) (o : op) : option st :=
  match o with
  | Make v ndx nu ndy =>
      match s_v s v, q_make (s_h s) ndx nu ndy with
      | None, Some (h, q) => Some (St h (set_v (s_v s) v (Some q))) | _, _ => None end
  | CopyC v w =>
      match s_v s v, s_v s w with
      | None, Some b => match q_copy (s_h s) b with Some (h, q) => Some (St h (set_v (s_v s) v (Some q))) | None => None end
      | _, _ => None end
  (* the move constructor (100-103): an empty object, then swap *)
  | MoveC v w =>
      match s_v s v, s_v s w with
      | None, Some _ =>
          match q_make (s_h s) 0 0 0 with
          | Some (h, q) => swap_vars (St h (set_v (s_v s) v (Some q))) v w | None => None end
      | _, _ => None end
  | Assign v w =>
      match s_v s v, s_v s w with
      | Some a, Some b => match q_assign (s_h s) a b with Some (h, q) => Some (St h (set_v (s_v s) v (Some q))) | None => None end
      | _, _ => None end
  (* operator=(&&) (105-108) is swap *)
  | MoveA v w => swap_vars s v w
  | Swap v w => swap_vars s v w
  | Destroy v =>
      match s_v s v with
      | Some a => match q_destroy (s_h s) a with Some h => Some (St h (set_v (s_v s) v None)) | None => None end
      | None => None end
  (* code which writes one of the views *)
  | Write v w i j x =>
      match s_v s v with
      | Some a => match vput (s_h s) (q_ref a w) i j x with Some h => Some (St h (s_v s)) | None => None end
      | None => None end
  | SetQ v x =>
      match s_v s v with
      | Some a => Some (St (s_h s) (set_v (s_v s) v (Some (QFun (q_ndx a) (q_nu a) (q_ndy a) x (q_grad a) (q_hess a) (q_ref a)))))
      | None => None end
  end.

Fixpoint run (s : st) (p : list op) : option st :=
  match p with [] => Some s | o :: p => match step s o with Some s' => run s' p | None => None end end.
Definition st0 : st := St heap0 (fun _ => None).

(** rotate_vec_left (utils/mpc-util.hpp 16-22) of a vector of n variables from the first-th on:
    std::rotate by one exchanges neighbours from left to right *)
Definition rotate (first n : nat) : list op := map (fun k => Swap k (S k)) (seq first (n - 1)).

(** ** CostDataAbstractTpl (cost-abstract.hpp 73-114) with the copies the compiler generates *)
Inductive cwhich := Lx | Lu | Lxx | Lxu | Lux | Luu.
Record cdata := CDat { c_ndx : nat; c_nu : nat; c_value : R; c_grad : mat; c_hess : mat; c_ref : cwhich -> view }.

(** the constructor (94-108) *)
Definition c_make (h : heap) (ndx nu : nat) : option (heap * cdata) :=
  let (h1, g) := mat_make h (ndx + nu) 1 in
  let (h2, H) := mat_make h1 (ndx + nu) (ndx + nu) in
  let refs := fun w =>
    match w with
    | Lx => head g ndx | Lu => tail g nu
    | Lxx => topLeft H ndx ndx | Lxu => topRight H ndx nu
    | Lux => bottomLeft H nu ndx | Luu => bottomRight H nu nu
    end in
  match mat_zero h2 g with
  | Some h3 => match mat_zero h3 H with Some h4 => Some (h4, CDat ndx nu 0 g H refs) | None => None end
  | None => None
  end.
(** Matrix(const Matrix &) *)
Definition mat_copy (h : heap) (m : mat) : option (heap * mat) :=
  match h_buf h (m_ptr m) with
  | Some (n, c) => let (h1, m1) := mat_make h (m_rows m) (m_cols m) in Some (set_buf h1 (m_ptr m1) (Some (n, c)), m1)
  | None => None
  end.
(** the implicit copy constructor: matrices are copied, and the copy constructor of a Ref makes a
    view of the same memory *)
Definition c_copy (h : heap) (s : cdata) : option (heap * cdata) :=
  match mat_copy h (c_grad s) with
  | Some (h1, g) => match mat_copy h1 (c_hess s) with
      | Some (h2, H) => Some (h2, CDat (c_ndx s) (c_nu s) (c_value s) g H (c_ref s)) | None => None end
  | None => None
  end.
(** assignment of a Ref: the sizes must agree, the coefficients are copied column by column *)
Definition ref_assign (h : heap) (w s : view) : option heap :=
  if Nat.eqb (v_rows w) (v_rows s) && Nat.eqb (v_cols w) (v_cols s) then
    fold_left (fun o ij => match o with
        | Some h => match vget h s (fst ij) (snd ij) with Some a => vput h w (fst ij) (snd ij) a | None => None end
        | None => None end)
      (list_prod (seq 0 (v_rows w)) (seq 0 (v_cols w))) (Some h)
  else None.
(** the implicit copy assignment, member by member in the order of declaration *)
Definition c_assign (h : heap) (d s : cdata) : option (heap * cdata) :=
  match mat_assign h (c_grad d) (c_grad s) with
  | Some (h1, g) => match mat_assign h1 (c_hess d) (c_hess s) with
      | Some (h2, H) =>
          match fold_left (fun o w => match o with Some h => ref_assign h (c_ref d w) (c_ref s w) | None => None end)
                  [Lx; Lu; Lxx; Lxu; Lux; Luu] (Some h2) with
          | Some h3 => Some (h3, CDat (c_ndx s) (c_nu s) (c_value s) g H (c_ref d))
          | None => None end
      | None => None end
  | None => None
  end.
Definition c_destroy (h : heap) (d : cdata) : option heap :=
  match free h (m_ptr (c_grad d)) with Some h1 => free h1 (m_ptr (c_hess d)) | None => None end.
End Code.
