(** Model of ArenaMatrix (core/arena-matrix.hpp) over polymorphic allocators
    (core/allocator.hpp).

    The heap is a list of buffers (the address is the index, never reused), each
    with the memory resource it came from and its coefficients; [None] is an
    uninitialised coefficient.  Allocating zero coefficients gives a non-null
    buffer (as operator new does).  Dynamic sizes only; the swap of rows and
    columns between row and column vectors (get_rows, get_cols) and integer
    overflow are left out. *)
From Coq Require Import ZArith List Bool Arith.
Import ListNotations.
Open Scope nat_scope.

Definition content := list (option Z).
Inductive cell := Live (r : nat) (c : content) | Freed.

(** m_data, rows, cols, m_alloc_size, m_allocator (arena-matrix.hpp 25, 254-256). *)
Record mat := { dat : option nat; rows : nat; cols : nat; asz : nat; rs : nat }.
Definition size (m : mat) : nat := rows m * cols m.

Inductive error :=
  | DoubleFree        (* deallocate of a freed or unknown buffer *)
  | BadFree           (* deallocate with another size or resource *)
  | BadAccess         (* read or write through a null, freed or short buffer *)
  | Ended.            (* operation on an object which is not alive, or
                         construction over a live one *)
Inductive res (A : Type) := Ok (a : A) | Err (e : error).
Arguments Ok {A}. Arguments Err {A}.
Definition bind {A B} (r : res A) (f : A -> res B) : res B :=
  match r with Ok a => f a | Err e => Err e end.

Definition heap := list cell.
Fixpoint setc (h : heap) (b : nat) (c : cell) : heap :=
  match h, b with
  | [], _ => []
  | _ :: t, O => c :: t
  | a :: t, S k => a :: setc t k c
  end.

(** arena-matrix.hpp 244-246: _allocate. *)
Definition alloc (h : heap) (r n : nat) : heap * nat :=
  (h ++ [Live r (repeat None n)], length h).

(** arena-matrix.hpp 238-241: deallocate (the size given is [size()]). *)
Definition deallocate (h : heap) (m : mat) : res heap :=
  match dat m with
  | None => Ok h
  | Some b =>
      match nth_error h b with
      | Some (Live r c) =>
          if (r =? rs m) && (length c =? size m) then Ok (setc h b Freed)
          else Err BadFree
      | _ => Err DoubleFree
      end
  end.

(** Reading and writing the [size()] coefficients through the Map. *)
Definition read (h : heap) (m : mat) : res content :=
  if size m =? 0 then Ok [] else
  match dat m with
  | None => Err BadAccess
  | Some b =>
      match nth_error h b with
      | Some (Live _ c) => if size m <=? length c then Ok (firstn (size m) c) else Err BadAccess
      | _ => Err BadAccess
      end
  end.
Definition store (h : heap) (m : mat) (l : content) : res heap :=
  if size m =? 0 then Ok h else
  match dat m with
  | None => Err BadAccess
  | Some b =>
      match nth_error h b with
      | Some (Live r c) =>
          if (size m <=? length c) && (length l =? size m)
          then Ok (setc h b (Live r (l ++ skipn (size m) c))) else Err BadAccess
      | _ => Err BadAccess
      end
  end.

(** arena-matrix.hpp 36-48: empty matrices. *)
Definition null_mat (r : nat) : mat :=
  {| dat := None; rows := 0; cols := 0; asz := 0; rs := r |}.

(** arena-matrix.hpp 54-62: allocating constructors. *)
Definition new_mat (h : heap) (r nr nc : nat) : heap * mat :=
  let (h', b) := alloc h r (nr * nc) in
  (h', {| dat := Some b; rows := nr; cols := nc; asz := nr * nc; rs := r |}).

(** arena-matrix.hpp 146-170: resize. *)
Definition resize (h : heap) (m : mat) (nr nc : nat) : res (heap * mat) :=
  if negb (asz m =? nr * nc) then
    bind (deallocate h m) (fun h1 =>
    let (h2, b) := alloc h1 (rs m) (nr * nc) in
    Ok (h2, {| dat := Some b; rows := nr; cols := nc; asz := nr * nc; rs := rs m |}))
  else Ok (h, {| dat := dat m; rows := nr; cols := nc; asz := asz m; rs := rs m |}).

(** std::copy_n of the first [n] coefficients of the old buffer. *)
Definition read_n (h : heap) (d : option nat) (n : nat) : res content :=
  if n =? 0 then Ok [] else
  match d with
  | None => Err BadAccess
  | Some b =>
      match nth_error h b with
      | Some (Live _ c) => if n <=? length c then Ok (firstn n c) else Err BadAccess
      | _ => Err BadAccess
      end
  end.

(** arena-matrix.hpp 173-196: conservativeResize. *)
Definition conservativeResize (h : heap) (m : mat) (nr nc : nat) : res (heap * mat) :=
  let n := nr * nc in
  if asz m <? n then
    let (h1, b) := alloc h (rs m) n in
    bind (read_n h1 (dat m) (asz m)) (fun l =>
    bind (deallocate (setc h1 b (Live (rs m) (l ++ repeat None (n - asz m)))) m) (fun h2 =>
    Ok (h2, {| dat := Some b; rows := nr; cols := nc; asz := n; rs := rs m |})))
  else Ok (h, {| dat := dat m; rows := nr; cols := nc; asz := asz m; rs := rs m |}).

(** ** Programs *)
Record state := { hp : heap; mats : nat -> option mat }.
Definition init : state := {| hp := []; mats := fun _ => None |}.
Definition upd {A} (f : nat -> A) (x : nat) (a : A) (y : nat) : A :=
  if y =? x then a else f y.

(** Operations on the objects named by numbers; [x] is the object constructed or
    assigned, [y] the argument, [r] a memory resource. *)
Inductive op :=
  | New0 (x r : nat)                       (* 36-48 *)
  | New (x r nr nc : nat)                  (* 54-62 *)
  | CopyCtor (x y r : nat)                 (* 74-79 *)
  | MoveCtor (x y : nat)                   (* 81-87 *)
  | MoveExt (x y r : nat)                  (* 90-103 *)
  | CopyAssign (x y : nat)                 (* 115-119 *)
  | MoveAssign (x y : nat)                 (* 123-137 *)
  | Assign (x nr nc : nat) (l : content)   (* 105-110: an expression *)
  | Fill (x : nat) (l : content)           (* writing all coefficients *)
  | Resize (x nr nc : nat)                 (* 146-170 *)
  | ConsResize (x nr nc : nat)             (* 173-196 *)
  | Destroy (x : nat).                     (* 143 *)

Definition live (s : state) (x : nat) : res mat :=
  match mats s x with Some m => Ok m | None => Err Ended end.
Definition fresh (s : state) (x : nat) : res unit :=
  match mats s x with Some _ => Err Ended | None => Ok tt end.
Definition put (s : state) (h : heap) (x : nat) (m : mat) : state :=
  {| hp := h; mats := upd (mats s) x (Some m) |}.

Definition moved_ctor (m : mat) : mat :=
  {| dat := None; rows := rows m; cols := cols m; asz := 0; rs := rs m |}.
Definition moved_assign (m : mat) : mat :=
  {| dat := None; rows := rows m; cols := cols m; asz := asz m; rs := rs m |}.
Definition steal (m : mat) (r : nat) : mat :=
  {| dat := dat m; rows := rows m; cols := cols m; asz := asz m; rs := r |}.

Definition step (s : state) (o : op) : res state :=
  match o with
  | New0 x r => bind (fresh s x) (fun _ => Ok (put s (hp s) x (null_mat r)))
  | New x r nr nc =>
      bind (fresh s x) (fun _ =>
      let (h, m) := new_mat (hp s) r nr nc in Ok (put s h x m))
  | CopyCtor x y r =>
      bind (fresh s x) (fun _ => bind (live s y) (fun my =>
      let (h, m) := new_mat (hp s) r (rows my) (cols my) in
      bind (read h my) (fun l => bind (store h m l) (fun h' => Ok (put s h' x m)))))
  | MoveCtor x y =>
      bind (fresh s x) (fun _ => bind (live s y) (fun my =>
      Ok (put (put s (hp s) x (steal my (rs my))) (hp s) y (moved_ctor my))))
  | MoveExt x y r =>
      bind (fresh s x) (fun _ => bind (live s y) (fun my =>
      if r =? rs my
      then Ok (put (put s (hp s) x (steal my r)) (hp s) y (moved_ctor my))
      else bind (resize (hp s) (null_mat r) (rows my) (cols my)) (fun '(h, m) =>
           bind (read h my) (fun l => bind (store h m l) (fun h' =>
           Ok (put (put s h' x m) h' y (moved_ctor my)))))))
  | CopyAssign x y =>
      bind (live s x) (fun mx => bind (live s y) (fun my =>
      bind (resize (hp s) mx (rows my) (cols my)) (fun '(h, m) =>
      bind (live (put s h x m) y) (fun my' =>
      bind (read h my') (fun l => bind (store h m l) (fun h' => Ok (put s h' x m)))))))
  | MoveAssign x y =>
      bind (live s x) (fun mx => bind (live s y) (fun my =>
      if x =? y then Ok s else
      if rs mx =? rs my
      then bind (deallocate (hp s) mx) (fun h =>
           Ok (put (put s h x (steal my (rs mx))) h y (moved_assign my)))
      else bind (resize (hp s) mx (rows my) (cols my)) (fun '(h, m) =>
           bind (read h my) (fun l => bind (store h m l) (fun h' =>
           Ok (put (put s h' x m) h' y (moved_assign my)))))))
  | Assign x nr nc l =>
      bind (live s x) (fun mx =>
      bind (resize (hp s) mx nr nc) (fun '(h, m) =>
      bind (store h m l) (fun h' => Ok (put s h' x m))))
  | Fill x l =>
      bind (live s x) (fun mx =>
      bind (store (hp s) mx l) (fun h' => Ok (put s h' x mx)))
  | Resize x nr nc =>
      bind (live s x) (fun mx =>
      bind (resize (hp s) mx nr nc) (fun '(h, m) => Ok (put s h x m)))
  | ConsResize x nr nc =>
      bind (live s x) (fun mx =>
      bind (conservativeResize (hp s) mx nr nc) (fun '(h, m) => Ok (put s h x m)))
  | Destroy x =>
      bind (live s x) (fun mx =>
      bind (deallocate (hp s) mx) (fun h =>
      Ok {| hp := h; mats := upd (mats s) x None |}))
  end.

Fixpoint run (s : state) (l : list op) : res state :=
  match l with
  | [] => Ok s
  | o :: t => bind (step s o) (fun s' => run s' t)
  end.
