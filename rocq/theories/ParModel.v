(** Model of the parallel Riccati solver,
    /repo/include/aligator/gar/parallel-solver.hxx and .hpp, over an arbitrary
    field and for any number of legs.

    Simplifications: as in RiccatiModel and BtModel.  The problem has no
    parameter of its own ([p = 0] before the constructor).  The legs are those
    given by [get_work]; an empty leg and an exception in a parallel region
    have no result.  Blocks of the condensed system have the sizes of the data
    assigned to them; [rhsDims] below are the sizes the code computes, which
    are the same only under the condition proved in P_par (C24_dims).  The
    per-leg sweeps are run here one after the other; that every schedule of
    the threads gives the same result is the subject of C26. *)
From Coq Require Import NArith.
From mathcomp Require Import all_ssreflect all_algebra.
From Verif Require Import RiccatiModel BtModel WorkModel.
Set Implicit Arguments.
Unset Strict Implicit.
Import GRing.Theory.
Local Open Scope ring_scope.

Section Par.
Variable F : fieldType.

(** a leg: the knots of one thread, all but the last thread *)
Inductive leg : nat -> nat -> Type :=
| LOne n nu nc m (k : knot F 0 n nu nc m) : leg n m
| LCons n nu nc m m' (k : knot F 0 n nu nc m) (l : leg m m') : leg n m'.
(** the legs of all threads *)
Inductive plegs : nat -> Type :=
| PLast n (c : knots F 0 n) : plegs n
| PCons n m (l : leg n m) (ps : plegs m) : plegs n.

(** number of knots *)
Fixpoint size_knots p n (c : knots F p n) : nat :=
  match c with
  | @Term _ _ n nu nc m k => 1
  | @Cons _ _ n nu nc m k c' => (size_knots c').+1
  end.
(** [make_span_from_indices] for one leg of [len + 1] knots, and the rest *)
Fixpoint cut n (c : knots F 0 n) : nat -> option {m : nat & (leg n m * knots F 0 m)%type} :=
  match c in knots _ _ n return nat -> option {m : nat & (leg n m * knots F 0 m)%type} with
  | @Term _ _ n nu nc m k => fun _ => None
  | @Cons _ _ n nu nc m k c' => fun len =>
      match len with
      | O => Some (existT _ m (LOne k, c'))
      | S len' =>
          match cut c' len' with
          | None => None
          | Some (existT m' (l, r)) => Some (existT _ m' (LCons k l, r))
          end
      end
  end.
Fixpoint split (lens : seq nat) : forall n, knots F 0 n -> option (plegs n) :=
  match lens with
  | [::] => fun n c => Some (PLast c)
  | O :: _ => fun n c => None
  | S len :: lens' => fun n c =>
      match cut c len with
      | None => None
      | Some (existT m (l, r)) =>
          match split lens' r with None => None | Some ps => Some (PCons l ps) end
      end
  end.
(** the lengths of all legs but the last, from get_work *)
Definition leg_len (N nt i : nat) : nat :=
  let w := get_work (N.of_nat N) (N.of_nat i) (N.of_nat nt) in N.to_nat (w.2 - w.1).
Definition leg_lens (N nt : nat) : seq nat := [seq leg_len N nt i | i <- iota 0 nt.-1].
Definition legs_of (nt n : nat) (c : knots F 0 n) : option (plegs n) :=
  split (leg_lens (size_knots c).-1 nt) c.

(** the knots after allocate_leg (52-60, addParameterization of lqr-problem.hxx
    232-240) and, for the last knot of a leg, configure_knot (136-141) *)
Definition add_param p n nu nc m (k : knot F 0 n nu nc m) : knot F p n nu nc m :=
  Knot (Qm k) (Sm k) (Rm k) (qv k) (rv k) (Am k) (Bm k) (fv k) (Cm k) (Dm k) (dv k)
    (0 : 'M[F]_p) 0 0 0 0.
Definition configure_knot n nu nc m (k : knot F 0 n nu nc m) : knot F m n nu nc m :=
  Knot (Qm k) (Sm k) (Rm k) (qv k) (rv k) (Am k) (Bm k) (fv k) (Cm k) (Dm k) (dv k)
    (0 : 'M[F]_m) (Am k)^T (Bm k)^T 0 (fv k).
Fixpoint paramleg n m (l : leg n m) : knots F m n :=
  match l in leg n m return knots F m n with
  | LOne n nu nc m k => Term (configure_knot k)
  | LCons n nu nc m m' k l' => Cons (add_param m' k) (paramleg l')
  end.

(** [datas], leg by leg *)
Fixpoint pfactors n (ps : plegs n) : Type :=
  match ps with
  | PLast n c => factors c
  | PCons n m l ps' => (factors (paramleg l) * pfactors ps')%type
  end.
Fixpoint sweeps (mu : F) n (ps : plegs n) : option (pfactors ps) :=
  match ps return option (pfactors ps) with
  | PLast n c => backwardImpl mu c
  | PCons n m l ps' =>
      match backwardImpl mu (paramleg l), sweeps mu ps' with
      | Some d, Some ds => Some (d, ds)
      | _, _ => None
      end
  end.

(** assembleCondensedSystem(0.0), 83-128: blocks from the one of [xs[i0]] on *)
Fixpoint cbt n (ps : plegs n) : pfactors ps -> bt F n :=
  match ps in plegs n return pfactors ps -> bt F n with
  | PLast n c => fun d => BOne (Vxx (head_vm d))
  | PCons n m l ps' => fun d =>
      let V := head_vm d.1 in
      BCons (Vxx V) (Vxt V) (Vxt V)^T (BCons (Vtt V) (- 1%:M) (- 1%:M)^T (cbt d.2))
  end.
Fixpoint crhs n (ps : plegs n) : forall d : pfactors ps, bvec (cbt d) :=
  match ps in plegs n return forall d : pfactors ps, bvec (cbt d) with
  | PLast n c => fun d => - vx (head_vm d)
  | PCons n m l ps' => fun d => let V := head_vm d.1 in (- vx V, (- vt V, crhs d.2))
  end.
Definition condensed n nc0 (ps : plegs n) (d : pfactors ps) (G0 : 'M[F]_(nc0, n)) : bt F nc0 :=
  BCons 0 G0 G0^T (cbt d).
Definition condensed_rhs n nc0 (ps : plegs n) (d : pfactors ps) (G0 : 'M[F]_(nc0, n))
  (g0 : 'cV[F]_nc0) : bvec (condensed d G0) := (- g0, crhs d).

(** backward, 130-206.  [err] is condensedErr before the call. *)
Definition pbackward (mu : F) n nc0 (ps : plegs n) (G0 : 'M[F]_(nc0, n)) (g0 : 'cV[F]_nc0)
  (small : forall k (t : bt F k), bvec t -> bool) (maxRef : nat)
  (err : forall k (t : bt F k), bvec t) :
  option {d : pfactors ps & bvec (condensed d G0)} :=
  match sweeps mu ps with
  | None => None
  | Some d =>
      match condensed_solve (condensed_rhs d G0 g0) (err _ _) (@small _ _) maxRef with
      | Ok (s, _) => Some (existT _ d s)
      | _ => None
      end
  end.

(** the solution of the flattened problem from the pieces: the last knot of a
    leg is followed by the next leg, and [lbdas[end]] is the parameter *)
Fixpoint lapp n m (l : leg n m) : knots F 0 m -> knots F 0 n :=
  match l in leg n m return knots F 0 m -> knots F 0 n with
  | LOne n nu nc m k => fun c => Cons k c
  | LCons n nu nc m m' k l' => fun c => Cons k (lapp l' c)
  end.
Fixpoint flatten n (ps : plegs n) : knots F 0 n :=
  match ps with
  | PLast n c => c
  | PCons n m l ps' => lapp l (flatten ps')
  end.
Fixpoint stitch n m (l : leg n m) : sol (paramleg l) -> 'cV[F]_m ->
  forall c : knots F 0 m, sol c -> sol (lapp l c) :=
  match l in leg n m return sol (paramleg l) -> 'cV[F]_m -> forall c : knots F 0 m, sol c -> sol (lapp l c) with
  | LOne n nu nc m k => fun s th c s' => (s.1.1, s.1.2, s.2, th, s')
  | LCons n nu nc m m' k l' => fun s th c s' => (s.1, stitch s.2 th s')
  end.
(** forward, 208-246: [b] holds the blocks [xs[i0], lbdas[i1], xs[i1], ...] *)
Fixpoint pforward_from n (ps : plegs n) : forall d : pfactors ps, bvec (cbt d) -> sol (flatten ps) :=
  match ps in plegs n return forall d : pfactors ps, bvec (cbt d) -> sol (flatten ps) with
  | PLast n c => fun d x => forwardImpl None d x
  | PCons n m l ps' => fun d b =>
      let th := b.2.1 in
      stitch (forwardImpl (Some th) d.1 b.1) th (pforward_from b.2.2)
  end.
Definition pforward n nc0 (ps : plegs n) (G0 : 'M[F]_(nc0, n))
  (r : {d : pfactors ps & bvec (condensed d G0)}) : 'cV[F]_nc0 * sol (flatten ps) :=
  let s := projT2 r in (s.1, pforward_from s.2).

(** gains of the first stage of a leg (datas[0].fb.blockRow(0),
    datas[0].fth.blockRow(0)), and the same gain of the serial solver *)
Definition leg_nu n m (l : leg n m) : nat :=
  match l with LOne n nu nc m k => nu | LCons n nu nc m m' k l' => nu end.
Definition leg_K n m (l : leg n m) : factors (paramleg l) -> 'M[F]_(leg_nu l, n) :=
  match l in leg n m return factors (paramleg l) -> 'M[F]_(leg_nu l, n) with
  | LOne n nu nc m k => fun d => Kfb d
  | LCons n nu nc m m' k l' => fun d => Kfb d.1
  end.
Definition leg_Kth n m (l : leg n m) : factors (paramleg l) -> 'M[F]_(leg_nu l, m) :=
  match l in leg n m return factors (paramleg l) -> 'M[F]_(leg_nu l, m) with
  | LOne n nu nc m k => fun d => Kth d
  | LCons n nu nc m m' k l' => fun d => Kth d.1
  end.
Definition serial_K n m (l : leg n m) (c : knots F 0 m) : factors (lapp l c) -> 'M[F]_(leg_nu l, n) :=
  match l in leg n m return forall c : knots F 0 m, factors (lapp l c) -> 'M[F]_(leg_nu l, n) with
  | LOne n nu nc m k => fun c d => Kfb d.1
  | LCons n nu nc m m' k l' => fun c d => Kfb d.1
  end c.
(** collapseFeedback, parallel-solver.hpp 41-51: the new control gain of stage
    0.  [subdiagonal[1]] is, after the swap at parallel-solver.hxx 180, the block
    Vxt^T assembled at 115-117 and not the U factor, which is [upFacs[1]]. *)
Definition collapseFeedback n m (l : leg n m) (d : factors (paramleg l)) : 'M[F]_(leg_nu l, n) :=
  leg_K d - leg_Kth d *m (Vxt (head_vm d))^T.
(** [upFacs[1]], the U factor of the block of [xs[0]] *)
Definition upFac1 n m (l : leg n m) (ps : plegs m) (d : pfactors (PCons l ps)) :
  bvec (BCons (Vtt (head_vm d.1)) (- 1%:M) (- 1%:M)^T (cbt d.2)) -> option 'M[F]_(m, n) :=
  fun b => match sweep b with
  | Some (D2, _, _, _) => Some (chol_solve D2 (Vxt (head_vm d.1))^T)
  | None => None
  end.

(** rhsDims_, 66-72, and the sizes of the blocks assigned by
    assembleCondensedSystem, 83-107 *)
Fixpoint leg_last_nx n m (l : leg n m) : nat :=
  match l with LOne n nu nc m k => n | LCons n nu nc m m' k l' => leg_last_nx l' end.
Fixpoint rhsDims_from n (ps : plegs n) : seq nat :=
  match ps with
  | PLast n c => [::]
  | PCons n m l ps' => n :: leg_last_nx l :: rhsDims_from ps'
  end.
Definition rhsDims n nc0 (ps : plegs n) : seq nat := nc0 :: n :: rhsDims_from ps.
Fixpoint block_dims n (t : bt F n) : seq nat :=
  match t with BOne n D => [:: n] | BCons n m D B C t' => n :: block_dims t' end.
End Par.
