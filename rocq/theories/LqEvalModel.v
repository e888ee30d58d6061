(** Model of LqrProblemTpl::evaluate, /repo/include/aligator/gar/lqr-problem.hxx
    281-319.  The trajectory has the right number of vectors (the code returns 0
    otherwise) and the problem at least one stage. *)
From mathcomp Require Import all_ssreflect all_algebra.
From Verif Require Import MxRing RiccatiModel.
Set Implicit Arguments.
Unset Strict Implicit.
Import GRing.Theory.
Local Open Scope ring_scope.

Section Eval.
Variable R : realFieldType.
Variable p : nat.
Notation half := ((1 + 1)^-1 : R).
(** the loop 294-302, from some stage on *)
Fixpoint eval_loop n (c : knots R p n) : sol c -> R -> R :=
  match c in knots _ _ n return sol c -> R -> R with
  | @Term _ _ n nu nc m k => fun s ret =>
      let: (x, u, v) := s in
      ret + (half * dot x (Qm k *m x) + dot x (qv k))
  | @Cons _ _ n nu nc m k c' => fun s ret =>
      let: (x, u, v, l', s') := s in
      let ret := ret + (half * dot x (Qm k *m x) + dot x (qv k)) in
      let ret := ret + (half * dot u (Rm k *m u) + dot u (rv k)) in
      let ret := ret + dot x (Sm k *m u) in
      eval_loop s' ret
  end.
(** the loop 306-314 *)
Fixpoint par_loop (th : 'cV[R]_p) n (c : knots R p n) : sol c -> R -> R :=
  match c in knots _ _ n return sol c -> R -> R with
  | @Term _ _ n nu nc m k => fun s ret =>
      let: (x, u, v) := s in
      let ret := ret + half * dot th (Gth k *m th) in
      let ret := ret + dot th ((Gx k)^T *m x) in
      ret + dot th (gam k)
  | @Cons _ _ n nu nc m k c' => fun s ret =>
      let: (x, u, v, l', s') := s in
      let ret := ret + half * dot th (Gth k *m th) in
      let ret := ret + dot th ((Gx k)^T *m x) in
      let ret := ret + dot th (gam k) in
      let ret := ret + dot th ((Gu k)^T *m u) in
      par_loop th s' ret
  end.
Definition evaluate n (c : knots R p n) (s : sol c) (th : option 'cV[R]_p) : R :=
  let ret := eval_loop s 0 in
  if (0 < p)%N then (if th is Some t then par_loop t s ret else ret) else ret.
End Eval.
