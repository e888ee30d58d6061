(** Model of PolymorphicWrapper and OwningNonOwningHolder,
    /repo/bindings/python/include/aligator/python/polymorphic.hpp 114-251: C++ classes with
    virtual methods overridden in Python, copied and kept by C++.

    A Python object has attributes (its __dict__), a holder and a reference count.  An
    instance of PyBase has a payload (the members of the C++ class), the pointer m_self of
    boost::python::wrapper, which is not counted, and copied_owner, which is.  Boost.Python
    and copy.deepcopy are modelled by what the comments of the file say of them: deepcopy
    copies the attributes and default-constructs the C++ part; it may raise.

    Left out: dynamic_cast of the holder (236), which finds the holder for all classes
    exposed with it; garbage collection of cycles; the GIL. *)
From Coq Require Import List Arith Bool.
Import ListNotations.

Section Wrap.
(** attributes and payloads *)
Variables A W : Type.
Variable w0 : W.

(** ** Memory *)
(** m_held, 158: a Value or a pointer to one *)
Inductive holder := Own (c : nat) | Ptr (c : nat).
Record pyobj := PyObj { attrs : A; held : holder; refs : nat }.
Record inst := Inst { pay : W; self : option nat; owner : option nat }.
Record st := St { py : nat -> option pyobj; cp : nat -> option inst; np : nat; nc : nat }.
Definition upd {B} (f : nat -> option B) (i : nat) (v : option B) : nat -> option B :=
  fun j => if Nat.eqb j i then v else f j.
Definition set_py (s : st) (p : nat) (o : option pyobj) : st := St (upd (py s) p o) (cp s) (np s) (nc s).
Definition set_cp (s : st) (c : nat) (i : option inst) : st := St (py s) (upd (cp s) c i) (np s) (nc s).
Definition empty : st := St (fun _ => None) (fun _ => None) 0 0.

(** a result, a C++ exception with the state it leaves, or undefined behaviour *)
Inductive res (B : Type) := Ok (s : st) (b : B) | Raise (s : st) | Ub.
Arguments Ok {B}. Arguments Raise {B}. Arguments Ub {B}.

Definition get_ptr (o : pyobj) : nat := match held o with Own c => c | Ptr c => c end.

(** Py_INCREF *)
Definition incref (s : st) (p : nat) : option st :=
  match py s p with
  | Some o => Some (set_py s p (Some (PyObj (attrs o) (held o) (S (refs o)))))
  | None => None
  end.
(** Py_DECREF of an object whose holder does not own *)
Definition decref_ptr (s : st) (p : nat) : option st :=
  match py s p with
  | Some (PyObj a (Ptr c) (S (S n))) => Some (set_py s p (Some (PyObj a (Ptr c) (S n))))
  | Some (PyObj _ (Ptr _) 1) => Some (set_py s p None)
  | _ => None
  end.
Definition decref_opt (s : st) (o : option nat) : option st :=
  match o with Some p => decref_ptr s p | None => Some s end.
(** the destructor of an instance: that of copied_owner *)
Definition destroy (s : st) (c : nat) : option st :=
  match cp s c with
  | Some i => decref_opt (set_cp s c None) (owner i)
  | None => None
  end.
(** Py_DECREF: a holder destroys what it owns *)
Definition decref (s : st) (p : nat) : option st :=
  match py s p with
  | Some (PyObj a h (S (S n))) => Some (set_py s p (Some (PyObj a h (S n))))
  | Some (PyObj _ (Own c) 1) => destroy (set_py s p None) c
  | Some (PyObj _ (Ptr _) 1) => Some (set_py s p None)
  | _ => None
  end.

(** ** Operations *)
(** 132-136: Python makes an object; the instance is built, moved into m_held (m_self and
    copied_owner are still null) and given m_self *)
Definition py_new (a : A) (w : W) (s : st) : st * nat :=
  let p := np s in let c := nc s in
  (St (upd (py s) p (Some (PyObj a (Own c) 1)))
      (upd (cp s) c (Some (Inst w (Some p) None))) (S p) (S c), p).

(** deepcopy_owner, 208-248, of the instance c; [fails]: deepcopy raises *)
Definition deepcopy_owner (fails : bool) (c : nat) (s : st) : res unit :=
  match cp s c with
  | None => Ub
  | Some i =>
    match self i with
    | None => Ok s tt
    | Some p =>
      match py s p with
      | None => Ub
      | Some o =>
        if fails then Raise s else
        (* 223: deepcopy(owner), with a default-constructed C++ part *)
        let '(s, q) := py_new (attrs o) w0 s in
        (* 223: copied_owner = ..., releasing the previous one *)
        match decref_opt (set_cp s c (Some (Inst (pay i) (self i) (Some q)))) (owner i) with
        | None => Ub
        | Some s =>
          match py s q with
          | None => Ub
          | Some o' =>
            (* 244: m_held = this, which destroys the C++ part held before *)
            match destroy (set_py s q (Some (PyObj (attrs o') (Ptr c) (refs o')))) (get_ptr o') with
            | None => Ub
            | Some s =>
              (* 246: initialize_wrapper *)
              match cp s c with
              | None => Ub
              | Some i => Ok (set_cp s c (Some (Inst (pay i) (Some q) (owner i)))) tt
              end
            end
          end
        end
      end
    end
  end.

(** copy constructor, 191-194; when deepcopy raises the members built are destroyed *)
Definition copy (fails : bool) (c : nat) (s : st) : res nat :=
  match cp s c with
  | None => Ub
  | Some i =>
    let d := nc s in
    let s := St (py s) (upd (cp s) d (Some (Inst (pay i) (self i) None))) (np s) (S d) in
    match deepcopy_owner fails d s with
    | Ok s _ => Ok s d
    | Raise s => Raise (set_cp s d None)
    | Ub => Ub
    end
  end.
(** copy assignment, 197-204, after that of the C++ class *)
Definition assign (fails : bool) (t c : nat) (s : st) : res unit :=
  if Nat.eqb t c then Ok s tt else
  match cp s t, cp s c with
  | Some it, Some ic => deepcopy_owner fails t (set_cp s t (Some (Inst (pay ic) (self ic) (owner it))))
  | _, _ => Ub
  end.
(** move constructor, 195: m_self is copied, and copied_owner as well (bp::object has no
    move constructor) *)
Definition move (c : nat) (s : st) : res nat :=
  match cp s c with
  | None => Ub
  | Some i =>
    let d := nc s in
    let s := St (py s) (upd (cp s) d (Some i)) (np s) (S d) in
    match owner i with
    | None => Ok s d
    | Some p => match incref s p with Some s => Ok s d | None => Ub end
    end
  end.
(** a virtual call from C++: the override runs with the Python object m_self; what it sees
    are the attributes and the C++ part of that object *)
Definition call (c : nat) (s : st) : res (option A * W) :=
  match cp s c with
  | None => Ub
  | Some i =>
    match self i with
    | None => Ok s (None, pay i)
    | Some p =>
      match py s p with
      | None => Ub
      | Some o => match cp s (get_ptr o) with None => Ub | Some j => Ok s (Some (attrs o), pay j) end
      end
    end
  end.
(** the override keeps self *)
Definition keep (c : nat) (s : st) : res nat :=
  match cp s c with
  | Some (Inst _ (Some p) _) => match incref s p with Some s => Ok s p | None => Ub end
  | _ => Ub
  end.
(** a use in Python of the attributes and of the C++ part of an object *)
Definition py_use (p : nat) (s : st) : res (A * W) :=
  match py s p with
  | None => Ub
  | Some o => match cp s (get_ptr o) with None => Ub | Some i => Ok s (attrs o, pay i) end
  end.
Definition py_set (p : nat) (a : A) (s : st) : res unit :=
  match py s p with
  | None => Ub
  | Some o => Ok (set_py s p (Some (PyObj a (held o) (refs o)))) tt
  end.
Definition cpp_set (c : nat) (w : W) (s : st) : res unit :=
  match cp s c with
  | None => Ub
  | Some i => Ok (set_cp s c (Some (Inst w (self i) (owner i)))) tt
  end.
(** the C++ part of a Python object, as an argument of a C++ function *)
Definition part (p : nat) (s : st) : option nat := match py s p with Some o => Some (get_ptr o) | None => None end.
Definition lift (o : option st) : res unit := match o with Some s => Ok s tt | None => Ub end.

(** ** Programs *)
(** an object: a Python variable or an instance of C++ *)
Inductive obj := Py (p : nat) | Cpp (c : nat).
Definition addr (o : obj) (s : st) : option nat := match o with Py p => part p s | Cpp c => Some c end.
Inductive op :=
| New (a : A) (w : W) | Copy (fails : bool) (o : obj) | Assign (fails : bool) (t : nat) (o : obj) | Move (c : nat)
| Keep (c : nat) | SetAttrs (p : nat) (a : A) | SetPay (o : obj) (w : W) | Drop (p : nat) | Destroy (c : nat).
Inductive ret := Unit | Obj (o : obj).
Definition bindr {B C} (x : res B) (f : B -> C) : res C :=
  match x with Ok s b => Ok s (f b) | Raise s => Raise s | Ub => Ub end.
Definition step (o : op) (s : st) : res ret :=
  match o with
  | New a w => let '(s, p) := py_new a w s in Ok s (Obj (Py p))
  | Copy fails o => match addr o s with Some c => bindr (copy fails c s) (fun c => Obj (Cpp c)) | None => Ub end
  | Assign fails t o => match addr o s with Some c => bindr (assign fails t c s) (fun _ => Unit) | None => Ub end
  | Move c => bindr (move c s) (fun c => Obj (Cpp c))
  | Keep c => bindr (keep c s) (fun p => Obj (Py p))
  | SetAttrs p a => bindr (py_set p a s) (fun _ => Unit)
  | SetPay o w => match addr o s with Some c => bindr (cpp_set c w s) (fun _ => Unit) | None => Ub end
  | Drop p => bindr (lift (decref s p)) (fun _ => Unit)
  | Destroy c => bindr (lift (destroy s c)) (fun _ => Unit)
  end.
(** what a virtual call on an object sees *)
Definition see (o : obj) (s : st) : res (option A * W) :=
  match o with Py p => bindr (py_use p s) (fun x => (Some (fst x), snd x)) | Cpp c => call c s end.
End Wrap.
Arguments Ok {A W B}. Arguments Raise {A W B}. Arguments Ub {A W B}.
Arguments PyObj {A}. Arguments attrs {A}. Arguments held {A}. Arguments refs {A}.
Arguments Inst {W}. Arguments pay {W}. Arguments self {W}. Arguments owner {W}.
Arguments St {A W}. Arguments py {A W}. Arguments cp {A W}. Arguments np {A W}. Arguments nc {A W}.
Arguments New {A W}. Arguments Copy {A W}. Arguments Assign {A W}. Arguments Move {A W}. Arguments Keep {A W}.
Arguments SetAttrs {A W}. Arguments SetPay {A W}. Arguments Drop {A W}. Arguments Destroy {A W}.
Arguments step {A W}. Arguments see {A W}. Arguments empty {A W}. Arguments set_py {A W}. Arguments set_cp {A W}.
