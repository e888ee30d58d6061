(** Models of the nonmonotone line search
    (/repo/include/aligator/core/linesearch-nonmonotone.hpp), of the FDDP
    Goldstein search (/repo/include/aligator/solvers/fddp/linesearch.hpp) and of
    the Newton-Raphson helper (/repo/include/aligator/utils/newton-raphson.hpp,
    used by /repo/include/aligator/utils/forward-dyn.hpp).

    Scalars are rationals; rounding is not modelled. *)
From Coq Require Import QArith Qminmax List Bool.
Import ListNotations.
Local Open Scope Q_scope.

Inductive outcome (S : Type) :=
| Returned (v a : Q) (s : S)
| Raised (s : S)
| NoFuel.
Arguments Returned {S}. Arguments Raised {S}. Arguments NoFuel {S}.

(** ** Nonmonotone search *)
(** Private members, 54-55. *)
Record nmls := Nmls { mov_avg : Q; avg_weight : Q }.
(** Constructor 18-21 and [reset] 45-48. *)
Definition nm_init : nmls := Nmls 0 0.

Section Nonmonotone.
  (** [avg_eta], [beta_dec] 51-52; [armijo_c1], [alpha_min] of the options. *)
  Variables avg_eta beta_dec c1 alpha_min : Q.
  (** merit function; [None]: raises std::runtime_error *)
  Variable f : Q -> option Q.

  (** 25-27 *)
  Definition nm_update (s : nmls) (phi0 : Q) : nmls :=
    let m := avg_eta * avg_weight s * mov_avg s + phi0 in
    let w := avg_eta * avg_weight s + 1 in
    Nmls (m / w) w.

  (** 29-42 *)
  Fixpoint nm_loop (fuel : nat) (s : nmls) (dphi0 a : Q) : outcome nmls :=
    match fuel with
    | O => NoFuel
    | S k =>
        if negb (Qle_bool a alpha_min) then
          match f a with
          | Some phia =>
              if Qle_bool phia (mov_avg s + c1 * a * dphi0) then Returned phia a s
              else nm_loop k s dphi0 (a * beta_dec)
          | None => nm_loop k s dphi0 (a * beta_dec)
          end
        else
          let a' := Qmax a alpha_min in
          match f a' with Some v => Returned v a' s | None => Raised s end
    end.

  (** [run], 23-43 *)
  Definition nm_run (fuel : nat) (s : nmls) (phi0 dphi0 a : Q) : outcome nmls :=
    nm_loop fuel (nm_update s phi0) dphi0 a.
End Nonmonotone.

(** ** FDDP Goldstein search, linesearch.hpp 17-55 *)
Section Goldstein.
  Variables beta alpha_min eps th_grad th_accept th_neg : Q.
  (** [phi a = None]: raises.  The evaluation has a side effect on the trial
      trajectory: the model records the step of the last call and whether that
      call completed. *)
  Variable phi : Q -> option Q.
  Variable model : Q -> Q.
  Variables phi0 d1 : Q.

  (** acceptance test, 41-50 *)
  Definition gs_accept (phitry a : Q) : bool :=
    let dVreal := phitry - phi0 in
    let dVmodel := model a - phi0 in
    if negb (Qle_bool 0 dVmodel)
    then negb (Qle_bool th_grad (if Qle_bool 0 d1 then d1 else - d1))
         || Qle_bool dVreal (th_accept * dVmodel)
    else Qle_bool dVreal (th_neg * dVmodel).

  (** state: (step, completed) of the last evaluation *)
  Definition trial := option (Q * bool).

  Fixpoint gs_loop (fuel : nat) (a phitry : Q) (t : trial) : outcome trial :=
    match fuel with
    | O => NoFuel
    | S k =>
        if negb (Qle_bool (alpha_min + eps) a) then Returned phitry a t   (* 29-31 *)
        else
          match phi a with
          | None => gs_loop k (a * beta) phitry (Some (a, false))         (* 34-37 *)
          | Some v =>
              if gs_accept v a then Returned v a (Some (a, true))
              else gs_loop k (Qmax (a * beta) alpha_min) v (Some (a, true)) (* 51-52 *)
          end
    end.

  Definition goldstein (fuel : nat) : outcome trial := gs_loop fuel 1 phi0 None.
End Goldstein.

(** ** Newton-Raphson, newton-raphson.hpp 22-64 *)
Section Newton.
  Variables X V D : Type.
  (** residual, its norm ([None]: NaN or infinite), direction
      [J(x).lu().solve(-f0)], and [space.integrate(x, alpha * dx)] *)
  Variable func : X -> V.
  Variable nrm : V -> option Q.
  Variable dir : X -> V -> D.
  Variable move : X -> Q -> D -> X.
  Variables eps alpha_min ls_beta c1 : Q.

  (** IEEE [<=] against a possibly non finite left-hand side *)
  Definition le_nan (a b : option Q) : bool :=
    match a, b with Some x, Some y => Qle_bool x y | _, _ => false end.

  (** contents of [xout], [f0], and the scalar [err] *)
  Record nr := Nr { xout : X; f0 : V; err : option Q }.

  (** line search, 48-60 *)
  Fixpoint nr_search (fuel : nat) (s : nr) (dx : D) (alpha : Q) : option nr :=
    match fuel with
    | O => None
    | S k =>
        if negb (Qle_bool alpha alpha_min) then
          let xcand := move (xout s) alpha dx in
          let fc := func xcand in
          let ce := nrm fc in
          if le_nan ce (option_map (fun e => (1 - c1) * e) (err s))
          then Some (Nr xcand fc ce)
          else nr_search k (Nr (xout s) fc (err s)) dx (alpha * ls_beta)
        else Some s
    end.

  (** main loop, 37-63; [n] is the number of iterations left.  The result also
      carries the iterates in order. *)
  Fixpoint nr_loop (fuel : nat) (n : nat) (s : nr) : option (bool * nr * list nr) :=
    if le_nan (err s) (Some eps) then Some (true, s, [s])
    else
      match n with
      | O => Some (false, s, [s])
      | S k =>
          match nr_search fuel s (dir (xout s) (f0 s)) 1 with
          | None => None
          | Some s' =>
              option_map (fun '(b, r, tr) => (b, r, s :: tr)) (nr_loop fuel k s')
          end
      end.

  (** [run], 22-36 *)
  Definition nr_run (fuel max_iters : nat) (xinit : X) : option (bool * nr * list nr) :=
    let v := func xinit in nr_loop fuel max_iters (Nr xinit v (nrm v)).
End Newton.
Arguments Nr {X V}. Arguments xout {X V}. Arguments f0 {X V}. Arguments err {X V}.
