(** Model of [get_work], /repo/include/aligator/gar/parallel-solver.hxx 21-28.
    [uint] is a 32-bit unsigned integer: products and sums wrap. *)
From Coq Require Import NArith.
Local Open Scope N_scope.

Definition wrap32 (x : N) : N := x mod 2 ^ 32.
Definition mul32 (a b : N) : N := wrap32 (a * b).
Definition add32 (a b : N) : N := wrap32 (a + b).

(** 23-28; the assert at 26 is not part of release builds. *)
Definition get_work (horz tid nt : N) : N * N :=
  (mul32 tid (add32 horz 1) / nt, mul32 (add32 tid 1) (add32 horz 1) / nt).
