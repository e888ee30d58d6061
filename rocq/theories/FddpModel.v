(** Model of the main loop of SolverFDDP,
    /repo/include/aligator/solvers/fddp/solver-fddp.hxx 283-399 and
    /repo/include/aligator/solvers/fddp/solver-fddp.hpp 55-62, 141-149, 186-190.

    Scalars are rationals, [None] stands for NaN.  Numerical routines are
    arbitrary functions of the state, which has a clock incremented at each
    call. *)
From Coq Require Import QArith Qminmax List Bool Arith.
Import ListNotations.
Local Open Scope Q_scope.

Section Fddp.
  Variables X C : Type.      (* trajectories (xs, us); callbacks *)

  (** hpp 48-74 *)
  Record opts := Opts {
    target_tol : Q; reg_init : Q; reg_min : Q; reg_max : Q;
    reg_dec : Q; reg_inc : Q; th_grad : Q; th_step_dec : Q; th_step_inc : Q;
    max_iters : nat }.

  (** [prim], [dual] are the reported residuals *)
  Record st := St {
    it : X; prim : Q; dual : Q; d1 : Q; cost : option Q; preg : Q; num_iters : nat;
    conv : bool; log : list (C * (nat * X)); clock : nat }.

  (** computeInfeasibility 168-188 (the dynamics data holds the evaluation at
      the current iterate) and computeCriterion 191-201 after backwardPass with
      the current regularisation *)
  Variable infeas : X -> option Q.
  Variable crit : X -> Q -> option Q.
  Variable ok : st -> bool.       (* false: model evaluation raises *)
  Variable cost0 : X -> option Q. (* problem.evaluate *)
  (** Goldstein search: step, value, [d1_phi] afterwards, trial trajectory;
      [None] in the first two: NaN *)
  Variable ls : st -> option Q * option Q * Q * X.
  Variable o : opts.
  Variable callbacks : list C.

  Definition qabs (x : Q) : Q := if Qle_bool 0 x then x else - x.
  Definition qlt (x y : Q) : bool := negb (Qle_bool y x).

  (** hpp 141-149 *)
  Definition increase (p : Q) : Q := Qmin (p * reg_inc o) (reg_max o).
  Definition decrease (p : Q) : Q := Qmax (p * reg_dec o) (reg_min o).

  Inductive outcome := Done (s : st) | Threw (s : st).

  Definition measured (s : st) (p d : Q) : st :=
    St (it s) p d (d1 s) (cost s) (preg s) (num_iters s) (conv s) (log s) (S (clock s)).
  Definition with_prim (s : st) (p : Q) : st :=
    St (it s) p (dual s) (d1 s) (cost s) (preg s) (num_iters s) (conv s) (log s) (clock s).
  Definition with_conv (s : st) (b : bool) : st :=
    St (it s) (prim s) (dual s) (d1 s) (cost s) (preg s) (num_iters s) b (log s) (clock s).
  (** 350-364 *)
  Definition moved (s : st) (phi d : Q) (x : X) : st :=
    St x (prim s) (dual s) d (Some phi) (preg s) (num_iters s) (conv s) (log s) (S (clock s)).
  Definition with_preg (s : st) (p : Q) : st :=
    St (it s) (prim s) (dual s) (d1 s) (cost s) p (num_iters s) (conv s) (log s) (clock s).
  (** 389 and the increment of the loop *)
  Definition counted (s : st) : st :=
    St (it s) (prim s) (dual s) (d1 s) (cost s) (preg s) (S (num_iters s)) (conv s)
       (log s ++ map (fun c => (c, (num_iters s, it s))) callbacks) (S (clock s)).

  (** 376-387: new regularisation, whether the loop breaks *)
  Definition update_preg (s : st) (alpha : Q) : st * bool :=
    let s1 := if qlt (th_step_dec o) alpha then with_preg s (decrease (preg s)) else s in
    if Qle_bool alpha (th_step_inc o) then
      let s2 := with_preg s1 (increase (preg s1)) in
      (s2, Qeq_bool (preg s2) (reg_max o))
    else (s1, false).

  (** 329-391; [n] iterations remain *)
  Fixpoint loop (n : nat) (s : st) : outcome :=
    match n with
    | O => Done s
    | S k =>
        if negb (ok s) then Threw s else
        match infeas (it s) with
        | None => Threw s                                       (* 334 *)
        | Some p =>
            match crit (it s) (preg s) with
            | None => Threw (with_prim s p)                     (* 338 *)
            | Some d =>
                let s1 := measured s p d in
                if qlt (Qmax p d) (target_tol o) then Done (with_conv s1 true)  (* 340-345 *)
                else
                match cost s1 with None => Threw s1 | Some _ =>                 (* 350 *)
                if negb (ok s1) then Threw s1 else
                match ls s1 with
                | (Some alpha, Some phi, d', x) =>
                    let s2 := moved s1 phi d' x in
                    if qlt (qabs d') (th_grad o) then Done (with_conv s2 true)  (* 372-375 *)
                    else
                      let '(s3, stop) := update_preg s2 alpha in
                      if stop then Done (with_conv s3 false)                    (* 383-386 *)
                      else loop k (counted s3)
                | (_, _, d', x) =>                              (* 357-358 *)
                    Threw (St (it s1) p d d' (cost s1) (preg s1) (num_iters s1) (conv s1) (log s1) (S (clock s1)))
                end
                end
            end
        end
    end.

  (** 286-327: the warm start is in [it] *)
  Definition start (s : st) : st :=
    St (it s) (prim s) (dual s) (d1 s) (cost0 (it s)) (reg_init o) 0 false (log s) (S (clock s)).
  Definition run (s : st) : outcome :=
    if negb (ok s) then Threw s else loop (max_iters o) (start s).
End Fddp.
Arguments St {X C}. Arguments it {X C}. Arguments prim {X C}. Arguments dual {X C}.
Arguments d1 {X C}. Arguments cost {X C}. Arguments preg {X C}. Arguments num_iters {X C}.
Arguments conv {X C}. Arguments log {X C}. Arguments clock {X C}.
Arguments Done {X C}. Arguments Threw {X C}.
