(** Model of the Armijo line search,
    /repo/include/aligator/core/linesearch-armijo.hpp 16-222 and
    /repo/include/aligator/core/linesearch-base.hpp 10-71.

    Finite scalars are real numbers (rounding is not modelled); infinities and
    NaN are explicit in the values computed by the interpolation. *)
From Coq Require Import Reals List Bool Arith Lra.
Import ListNotations.
Local Open Scope R_scope.

(** linesearch-base.hpp 11. *)
Inductive interpolation := BISECTION | QUADRATIC | CUBIC.

(** linesearch-base.hpp 13-30 (fields read by the Armijo search). *)
Record options := Options {
  armijo_c1 : R; dphi_thresh : R; alpha_min : R; max_num_steps : nat;
  interp_type : interpolation; contraction_min : R; contraction_max : R }.

(** linesearch-base.hpp 53-71. *)
Record sample := Sample { s_alpha : R; s_phi : R; s_dphi : R; s_valid : bool }.
Definition default_sample := Sample 0 0 0 false.
Definition mk_sample (a v : R) := Sample a v 0 true.

(** PolynomialTpl, linesearch-armijo.hpp 16-41: coefficients in decreasing
    order of degree, Horner evaluation (24-30). *)
Definition poly_eval (c : list R) (a : R) : R :=
  fold_left (fun r ci => r * a + ci) c 0.
(** [derivative], 31-40; [coeffs.size()-1-i] is the power of coefficient i. *)
Fixpoint scale_powers (c : list R) : list R :=
  match c with
  | [] => []
  | [_] => []
  | x :: c' => x * INR (length c') :: scale_powers c'
  end.
Definition poly_derivative (c : list R) : list R :=
  match c with
  | [_] => [0]
  | _ => scale_powers c
  end.

(** A scalar that may be non finite. *)
Inductive ext := Fin (x : R) | Inf | NaN.

(** Division of finite numbers in IEEE arithmetic (sign of infinities dropped:
    every use below treats both infinities alike). *)
Definition ediv (n d : R) : ext :=
  if Req_EM_T d 0 then (if Req_EM_T n 0 then NaN else Inf) else Fin (n / d).

Section Interpolant.
  (** Result of [HouseholderQR::solve] on a singular 2x2 system: unspecified.
      The oracle gives the resulting step and edge preference. *)
  Variable qr_singular : R -> R -> ext * bool.

  (** [minimize_interpolant], 150-222, quadratic case (165-175).  Returns the
      unclamped proposal and whether the left edge evaluates strictly below the
      right edge (212-214). *)
  Definition quadratic_proposal (phi0 dphi0 : R) (c0 : sample) (lo hi : R)
    : ext * bool :=
    let num := s_phi c0 - phi0 - s_alpha c0 * dphi0 in
    match ediv num (s_alpha c0 * s_alpha c0) with
    | Fin a =>
        let coeffs := [a; dphi0; phi0] in
        (ediv (- dphi0) (2 * a),
         if Rlt_dec (poly_eval coeffs lo) (poly_eval coeffs hi) then true else false)
    | Inf => (Fin 0, false)        (* -dphi0/inf = 0; inf < inf is false *)
    | NaN => (NaN, false)
    end.

  (** Cubic case (176-205).  Note the order of the right-hand side at 190-191:
      row 0 of the matrix is built from [cand0] but its right-hand side is that
      of [cand1], and conversely. *)
  Definition cubic_det (a0 a1 : R) : R :=
    a0 * a0 * a0 * (a1 * a1) - a0 * a0 * (a1 * a1 * a1).
  Definition cubic_coeffs (phi0 dphi0 : R) (c0 c1 : sample) : R * R :=
    let a0 := s_alpha c0 in
    let a1 := s_alpha c1 in
    let m00 := a0 * a0 * a0 in let m01 := a0 * a0 in
    let m10 := a1 * a1 * a1 in let m11 := a1 * a1 in
    let r0 := s_phi c1 - phi0 - dphi0 * a1 in
    let r1 := s_phi c0 - phi0 - dphi0 * a0 in
    let det := m00 * m11 - m01 * m10 in
    ((r0 * m11 - m01 * r1) / det, (m00 * r1 - r0 * m10) / det).
  Definition cubic_proposal (phi0 dphi0 : R) (c0 c1 : sample) (lo hi : R)
    : ext * bool :=
    if Req_EM_T (cubic_det (s_alpha c0) (s_alpha c1)) 0
    then qr_singular (s_alpha c0) (s_alpha c1)
    else
      let '(c3, c2) := cubic_coeffs phi0 dphi0 c0 c1 in
      let coeffs := [c3; c2; dphi0; phi0] in
      let disc := c2 * c2 - 3 * c3 * dphi0 in
      (if Rlt_dec disc 0 then NaN else ediv (- c2 + sqrt disc) (3 * c3),
       if Rlt_dec (poly_eval coeffs lo) (poly_eval coeffs hi) then true else false).

  (** 210-219: fall back to the better edge outside [lo, hi]. *)
  Definition safeguard (p : ext * bool) (lo hi : R) : ext :=
    let edge := Fin (if snd p then lo else hi) in
    match fst p with
    | Fin x => if Rlt_dec hi x then edge
               else if Rlt_dec x lo then edge else Fin x
    | Inf => edge
    | NaN => NaN
    end.

  Definition minimize_interpolant (strat : interpolation) (phi0 dphi0 : R)
    (latest : sample) (previous : option sample) (lo hi : R) : ext :=
    match strat, previous with
    | CUBIC, Some prev =>
        safeguard (cubic_proposal phi0 dphi0 latest prev lo hi) lo hi
    | _, _ => safeguard (quadratic_proposal phi0 dphi0 latest lo hi) lo hi
    end.
End Interpolant.

Section Run.
  Variable qr_singular : R -> R -> ext * bool.
  Variable opts : options.
  Variable phi : R -> option R.       (* [None]: raises std::runtime_error *)

  (** 67-80.  The result carries the step and [latest], which keeps its default
      value when the loop leaves through line 77. *)
  Fixpoint first_loop (fuel : nat) (alpha : R) : option (R * sample) :=
    match fuel with
    | O => None
    | S k =>
        match phi alpha with
        | Some v => Some (alpha, mk_sample alpha v)
        | None =>
            let alpha' := alpha * / 2 in
            if Rle_dec alpha' (alpha_min opts) then Some (alpha_min opts, default_sample)
            else first_loop k alpha'
        end
    end.

  (** 94-132: the next step size. *)
  Definition next_alpha (phi0 dphi0 alpha : R) (latest previous : sample) : R :=
    let e :=
      match interp_type opts with
      | BISECTION => Fin (alpha * / 2)
      | strat =>
          minimize_interpolant qr_singular strat phi0 dphi0 latest
            (if s_valid previous then Some previous else None)
            (contraction_min opts * alpha) (contraction_max opts * alpha)
      end in
    match e with
    | Fin x => Rmax x (alpha_min opts)
    | Inf => Rmax (contraction_max opts * alpha) (alpha_min opts) (* unreachable *)
    | NaN => contraction_min opts * s_alpha previous
    end.

  (** 86-144. *)
  Fixpoint main_loop (n : nat) (phi0 dphi0 alpha : R) (latest previous : sample)
    : R * sample :=
    match n with
    | O => (alpha, latest)
    | S k =>
        if Rle_dec (s_phi latest - phi0) (armijo_c1 opts * alpha * dphi0)
        then (alpha, latest)
        else
          let alpha' := next_alpha phi0 dphi0 alpha latest previous in
          match phi alpha' with
          | None => main_loop k phi0 dphi0 alpha' latest latest   (* 135, 138 *)
          | Some v =>
              if Rle_dec alpha' (alpha_min opts) then (alpha', mk_sample alpha' v)
              else main_loop k phi0 dphi0 alpha' (mk_sample alpha' v) latest
          end
    end.

  (** [run], 59-147: returned value and final step. *)
  Definition run (fuel : nat) (phi0 dphi0 : R) : option (R * R) :=
    match first_loop fuel 1 with
    | None => None
    | Some (alpha, latest) =>
        if Rlt_dec (Rabs dphi0) (dphi_thresh opts) then Some (s_phi latest, alpha)
        else
          let '(alpha', latest') :=
            main_loop (max_num_steps opts) phi0 dphi0 alpha latest default_sample in
          Some (s_phi latest', Rmax alpha' (alpha_min opts))
    end.
End Run.
