(** Model of xyz::polymorphic (third-party/polymorphic_cxx14.h), the value wrapper that
    holds the costs, functions, dynamics, spaces and constraint sets of a problem.

    Memory is a list of cells.  A live cell is a control block with the object in it
    (direct_control_block<U>, 117-170): allocator it came from, dynamic type, payload,
    and the members of the object that are themselves polymorphics (a cost stack holds
    components, a finite difference holds a space and a function, ...).  Cell 0 is the
    frame of local variables: its members are the variables.

    Simplified: allocators are numbers, equal numbers are interchangeable allocators; the
    copy constructor of a held type copies payload and members (members by their own copy
    constructor); its move constructor moves members and does not throw; operations take
    references as paths of member indices from a variable. *)
From Coq Require Import List Arith Bool.
Import ListNotations.

Section Poly.
Context {ty pay : Type}.

(** std::allocator_traits<A> (propagate_on_container_{copy_assignment, move_assignment, swap},
    select_on_container_copy_construction), whether a type has a move constructor (otherwise
    [move] copies), the payload after a move, and the failures of the n-th allocation: of the memory, or of
    the constructor after some of the members were constructed. *)
Record traits := { pocca : bool; pocma : bool; pocs : bool; socc : nat -> nat;
                   movable : ty -> bool; moved : pay -> pay;
                   oom : nat -> bool; ctor_fails : nat -> option nat }.
Variable tr : traits.

(** alloc_base and cb_ (107, 172) *)
Record poly := { al : nat; cb : option nat }.
Record block := { b_al : nat; b_ty : ty; b_pay : pay; b_kids : list poly }.
(** Raw: allocated memory with no object, or an object whose destructor runs. *)
Inductive cell := Freed | Raw (a : nat) | Live (b : block).
Definition heap := list cell.
Definition get (h : heap) (n : nat) : cell := nth n h Freed.
Fixpoint setl {X} (l : list X) (n : nat) (x : X) : list X :=
  match l, n with
  | [], _ => []
  | _ :: t, O => x :: t
  | y :: t, S m => y :: setl t m x
  end.
Definition put (h : heap) (n : nat) (c : cell) : heap := setl h n c.

(** Result of an operation: done, exception thrown, or undefined behaviour / std::terminate. *)
Inductive res (X : Type) := Ok (x : X) (h : heap) | Exn (h : heap) | Stuck.
Arguments Ok {X}. Arguments Exn {X}. Arguments Stuck {X}.

(** direct_control_block::destroy, 165-169: the destructor of the object (members in reverse
    order), then the deallocation with the allocator given. *)
Fixpoint dkids (d : nat -> nat -> heap -> option heap) (l : list poly) (h : heap) : option heap :=
  match l with
  | [] => Some h
  | p :: t =>
      match dkids d t h with
      | None => None
      | Some h1 => match cb p with None => Some h1 | Some m => d (al p) m h1 end
      end
  end.
Definition dealloc (a n : nat) (h : heap) : option heap :=
  match get h n with
  | Raw a' => if a =? a' then Some (put h n Freed) else None
  | _ => None
  end.
Fixpoint destroy (f : nat) (a n : nat) (h : heap) : option heap :=
  match f with
  | O => None
  | S f' =>
      match get h n with
      | Live b =>
          match dkids (destroy f') (b_kids b) (put h n (Raw (b_al b))) with
          | Some h1 => dealloc a n h1
          | None => None
          end
      | _ => None
      end
  end.

(** The copy constructor with the allocator (317-324) given [clone]. *)
Definition copy_ctor (cl : nat -> nat -> heap -> res nat) (a : nat) (p : poly) (h : heap) : res poly :=
  match cb p with
  | None => Ok {| al := a; cb := None |} h
  | Some n =>
      match cl a n h with
      | Ok m h' => Ok {| al := a; cb := Some m |} h'
      | Exn h' => Exn h'
      | Stuck => Stuck
      end
  end.
(** ~polymorphic of an object outside of the cells, 357 and 466-471 *)
Definition drop (f : nat) (p : poly) (h : heap) : option heap :=
  match cb p with None => Some h | Some n => destroy f (al p) n h end.
(** Copy constructors (326-330) of the members, in order; when one throws the members
    already constructed are destroyed. *)
Fixpoint copy_kids (cl : nat -> nat -> heap -> res nat) (f : nat) (l : list poly) (h : heap) : res (list poly) :=
  match l with
  | [] => Ok [] h
  | p :: t =>
      match copy_ctor cl (socc tr (al p)) p h with
      | Ok q h1 =>
          match copy_kids cl f t h1 with
          | Ok qs h2 => Ok (q :: qs) h2
          | Exn h2 => match drop f q h2 with Some h3 => Exn h3 | None => Stuck end
          | Stuck => Stuck
          end
      | Exn h1 => Exn h1
      | Stuck => Stuck
      end
  end.
(** create_control_block (177-190) and the body of clone (140-150): allocate, construct
    from the members [l], deallocate and rethrow when the construction throws. *)
Definition build (cl : nat -> nat -> heap -> res nat) (f : nat) (a : nat) (t : ty) (p : pay)
  (l : list poly) (h : heap) : res nat :=
  let m := length h in
  if oom tr m then Exn h else
  let h1 := h ++ [Raw a] in
  let fail h2 := match dealloc a m h2 with Some h3 => Exn h3 | None => Stuck end in
  match ctor_fails tr m with
  | None =>
      match copy_kids cl f l h1 with
      | Ok ks h2 => Ok m (put h2 m (Live {| b_al := a; b_ty := t; b_pay := p; b_kids := ks |}))
      | Exn h2 => fail h2
      | Stuck => Stuck
      end
  | Some k =>
      match copy_kids cl f (firstn k l) h1 with
      | Ok ks h2 => match dkids (destroy f) ks h2 with Some h3 => fail h3 | None => Stuck end
      | Exn h2 => fail h2
      | Stuck => Stuck
      end
  end.
Fixpoint clone (f : nat) (fd : nat) (a n : nat) (h : heap) : res nat :=
  match f with
  | O => Stuck
  | S f' =>
      match get h n with
      | Live b => build (clone f' fd) fd a (b_ty b) (b_pay b) (b_kids b) h
      | _ => Stuck
      end
  end.
(** direct_control_block::move, 152-163 *)
Definition move_block (f fd : nat) (a n : nat) (h : heap) : res nat :=
  match get h n with
  | Live b =>
      if movable tr (b_ty b) then
        let m := length h in
        if oom tr m then Exn h else
        let h1 := h ++ [Live {| b_al := a; b_ty := b_ty b; b_pay := b_pay b; b_kids := b_kids b |}] in
        Ok m (put h1 n (Live {| b_al := b_al b; b_ty := b_ty b; b_pay := moved tr (b_pay b);
                                b_kids := map (fun p => {| al := al p; cb := None |}) (b_kids b) |}))
      else clone f fd a n h
  | _ => Stuck
  end.

(** ** References *)
Definition slot := (nat * nat)%type.
Definition rd (h : heap) (s : slot) : option poly :=
  match get h (fst s) with Live b => nth_error (b_kids b) (snd s) | _ => None end.
Definition with_kids (b : block) (l : list poly) : block :=
  {| b_al := b_al b; b_ty := b_ty b; b_pay := b_pay b; b_kids := l |}.
Definition wr (h : heap) (s : slot) (p : poly) : option heap :=
  match get h (fst s) with
  | Live b => if snd s <? length (b_kids b)
              then Some (put h (fst s) (Live (with_kids b (setl (b_kids b) (snd s) p)))) else None
  | _ => None
  end.
(** The reference reached from the members of cell [n] by operator-> (417-435). *)
Fixpoint find (h : heap) (n : nat) (pi : list nat) : option slot :=
  match pi with
  | [] => None
  | [k] => match rd h (n, k) with Some _ => Some (n, k) | None => None end
  | k :: r => match rd h (n, k) with
              | Some p => match cb p with Some m => find h m r | None => None end
              | None => None
              end
  end.
(** reset, 466-471 *)
Definition reset (f : nat) (s : slot) (h : heap) : option heap :=
  match rd h s with
  | Some p => match cb p with
              | None => Some h
              | Some n => match destroy f (al p) n h with
                          | Some h1 => match rd h1 s with
                                       | Some q => wr h1 s {| al := al q; cb := None |}
                                       | None => None
                                       end
                          | None => None
                          end
              end
  | None => None
  end.
Definition set_cb (s : slot) (c : option nat) (h : heap) : option heap :=
  match rd h s with Some p => wr h s {| al := al p; cb := c |} | None => None end.
Definition set_al (s : slot) (a : nat) (h : heap) : option heap :=
  match rd h s with Some p => wr h s {| al := a; cb := cb p |} | None => None end.
(** A new local variable. *)
Definition push (p : poly) (h : heap) : res unit :=
  match get h 0 with
  | Live b => Ok tt (put h 0 (Live (with_kids b (b_kids b ++ [p]))))
  | _ => Stuck
  end.
Definition lift (o : option heap) : res unit := match o with Some h => Ok tt h | None => Stuck end.
Definition bind {X} (o : option X) (g : X -> option heap) : option heap :=
  match o with Some x => g x | None => None end.
Definition fuel (h : heap) : nat := S (length h).

(** ** Operations *)
Inductive op :=
| New (il : option ty) (a : nat) (t : ty) (p : pay) (args : list (list nat))
    (* in_place_type_t<U> constructors, 215-241; members copied from references.
       il = Some T: with an initializer list, of a polymorphic<T> *)
| CopyCtor (oa : option nat) (s : list nat)      (* 317-330 *)
| MoveCtor (oa : option nat) (s : list nat)      (* 332-355 *)
| CopyAssign (d s : list nat)                    (* 359-382 *)
| MoveAssign (d s : list nat)                    (* 384-415 *)
| Swap (s1 s2 : list nat)                        (* 443-458 *)
| Poke (s : list nat) (p : pay)                  (* write through operator->, 417-420 *)
| Pop.                                           (* end of the life of the last variable, 357 *)

Fixpoint finds (h : heap) (l : list (list nat)) : option (list poly) :=
  match l with
  | [] => Some []
  | pi :: t => match find h 0 pi with
               | Some s => match rd h s, finds h t with Some p, Some ps => Some (p :: ps) | _, _ => None end
               | None => None
               end
  end.
Definition eqs (s1 s2 : slot) : bool := (fst s1 =? fst s2) && (snd s1 =? snd s2).

Definition copy_assign (d s : slot) (h : heap) : res unit :=
  if eqs d s then Ok tt h else
  match rd h d, rd h s with
  | Some pd, Some ps =>
      let finish h1 := if pocca tr
                       then lift (bind (rd h1 s) (fun q => set_al d (al q) h1)) else Ok tt h1 in
      match cb ps with
      | None => match reset (fuel h) d h with Some h1 => finish h1 | None => Stuck end
      | Some n =>
          match clone (fuel h) (fuel h) (if pocca tr then al ps else al pd) n h with
          | Ok tmp h1 =>
              match bind (reset (fuel h) d h1) (set_cb d (Some tmp)) with
              | Some h2 => finish h2
              | None => Stuck
              end
          | Exn h1 => Exn h1
          | Stuck => Stuck
          end
      end
  | _, _ => Stuck
  end.

Definition move_assign (d s : slot) (h : heap) : res unit :=
  if eqs d s then Ok tt h else
  match rd h d, rd h s with
  | Some pd, Some ps =>
      let finish h1 := if pocma tr
                       then lift (bind (rd h1 s) (fun q => set_al d (al q) h1)) else Ok tt h1 in
      match cb ps with
      | None => match reset (fuel h) d h with Some h1 => finish h1 | None => Stuck end
      | Some n =>
          if al pd =? al ps then
            match bind (bind (set_cb d (cb ps) h) (set_cb s (cb pd))) (reset (fuel h) s) with
            | Some h1 => finish h1
            | None => Stuck
            end
          else
            match move_block (fuel h) (fuel h) (if pocma tr then al ps else al pd) n h with
            | Ok tmp h1 =>
                match bind (reset (fuel h) d h1) (set_cb d (Some tmp)) with
                | Some h2 => finish h2
                | None => Stuck
                end
            | Exn h1 => if pocma tr then Stuck else Exn h1   (* noexcept, 384-386 *)
            | Stuck => Stuck
            end
      end
  | _, _ => Stuck
  end.

Definition swap (s1 s2 : slot) (h : heap) : res unit :=
  match rd h s1, rd h s2 with
  | Some p1, Some p2 =>
      if pocs tr then
        lift (bind (bind (bind (set_al s1 (al p2) h) (set_al s2 (al p1)))
                         (set_cb s1 (cb p2))) (set_cb s2 (cb p1)))
      else if al p1 =? al p2 then
        lift (bind (set_cb s1 (cb p2) h) (set_cb s2 (cb p1)))
      else Stuck
  | _, _ => Stuck
  end.

Definition step (o : op) (h : heap) : res unit :=
  match o with
  | New il a t p args =>
      match finds h args with
      | Some l =>
          match build (clone (fuel h) (fuel h)) (fuel h) a (match il with Some T => T | None => t end) p l h with
          | Ok m h1 => push {| al := a; cb := Some m |} h1
          | Exn h1 => Exn h1
          | Stuck => Stuck
          end
      | None => Stuck
      end
  | CopyCtor oa s =>
      match find h 0 s with
      | Some sl =>
          match rd h sl with
          | Some p =>
              match copy_ctor (clone (fuel h) (fuel h))
                      (match oa with Some a => a | None => socc tr (al p) end) p h with
              | Ok q h1 => push q h1
              | Exn h1 => Exn h1
              | Stuck => Stuck
              end
          | None => Stuck
          end
      | None => Stuck
      end
  | MoveCtor oa s =>
      match find h 0 s with
      | Some sl =>
          match rd h sl with
          | Some p =>
              let a := match oa with Some a => a | None => al p end in
              if pocca tr || (a =? al p) then
                match set_cb sl None h with Some h1 => push {| al := a; cb := cb p |} h1 | None => Stuck end
              else
                match cb p with
                | None => push {| al := a; cb := None |} h
                | Some n =>
                    match move_block (fuel h) (fuel h) a n h with
                    | Ok m h1 => push {| al := a; cb := Some m |} h1
                    | Exn h1 => Exn h1
                    | Stuck => Stuck
                    end
                end
          | None => Stuck
          end
      | None => Stuck
      end
  | CopyAssign d s =>
      match find h 0 d, find h 0 s with Some sd, Some ss => copy_assign sd ss h | _, _ => Stuck end
  | MoveAssign d s =>
      match find h 0 d, find h 0 s with Some sd, Some ss => move_assign sd ss h | _, _ => Stuck end
  | Swap d s =>
      match find h 0 d, find h 0 s with Some sd, Some ss => swap sd ss h | _, _ => Stuck end
  | Poke s p =>
      match find h 0 s with
      | Some sl =>
          match rd h sl with
          | Some q =>
              match cb q with
              | Some n => match get h n with
                          | Live b => Ok tt (put h n (Live {| b_al := b_al b; b_ty := b_ty b; b_pay := p; b_kids := b_kids b |}))
                          | _ => Stuck
                          end
              | None => Stuck
              end
          | None => Stuck
          end
      | None => Stuck
      end
  | Pop =>
      match get h 0 with
      | Live b =>
          match b_kids b with
          | [] => Stuck
          | _ :: _ =>
              match reset (fuel h) (0, pred (length (b_kids b))) h with
              | Some h1 =>
                  match get h1 0 with
                  | Live b1 => Ok tt (put h1 0 (Live (with_kids b1 (firstn (pred (length (b_kids b1))) (b_kids b1)))))
                  | _ => Stuck
                  end
              | None => Stuck
              end
          end
      | _ => Stuck
      end
  end.

(** A program goes on after an exception (the caller catches it). *)
Fixpoint run (l : list op) (h : heap) : option heap :=
  match l with
  | [] => Some h
  | o :: t => match step o h with Ok _ h1 | Exn h1 => run t h1 | Stuck => None end
  end.
End Poly.
Arguments Ok {ty pay X}. Arguments Exn {ty pay X}. Arguments Stuck {ty pay X}.
