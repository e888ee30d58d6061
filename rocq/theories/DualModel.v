(** Model of the multiplier updates of SolverProxDDP::run
    (solvers/proxddp/solver-proxddp.hxx 464, 478-519): what one pass of the outer
    loop does to prev_vs, vs_plus and vs_pdal.  The inner loop is represented by
    the point, the multipliers and the penalty at which it ends; its last
    computeMultipliers (219-318) is the one of MultModel.

    Not modelled here: how the inner loop finds the point, the choice of the
    penalty and of the tolerances (AlmModel), cycling (which copies trial_vs to
    vs_pdal, workspace.hxx 119). *)
From Coq Require Import Reals List Bool Arith.
From Verif Require Import CSetModel MultModel.
Import ListNotations.
Local Open Scope R_scope.

(** core/enums.hpp 23 *)
Inductive mode := NEWTON | PRIMAL | PRIMAL_DUAL.

(** prev_vs, vs_plus, vs_pdal (workspace.hpp 62-66 and 95) *)
Record duals := { d_prev : list (list R); d_vplus : list (list R); d_pdal : list (list R) }.

(** Workspace constructor (workspace.hxx 26-34: all multipliers are zero) followed by
    [prev_vs = results.vs], solver-proxddp.hxx 464.  [ns]: numbers of constraints. *)
Definition zeros (ns : list nat) : list (list R) := map (fun n => repeat 0 n) ns.
Definition start (ns : list nat) (vs : list (list R)) : duals :=
  {| d_prev := vs; d_vplus := zeros ns; d_pdal := zeros ns |}.

(** Where the inner loop ends: penalty, primal tolerance, initial condition and
    dynamics errors with their multipliers, and the constraint stacks (their
    [i_v] are results.vs; their [i_vprev] are filled in from prev_vs). *)
Record inner := { n_mu : R; n_tol : R; n_lam0 : list R; n_gap0 : list R;
                  n_lams : list (list R); n_gaps : list (list R); n_stages : list stage_in }.
Definition with_prev (s : stage_in) (v : list R) : stage_in :=
  {| i_set := i_set s; i_values := i_values s; i_vprev := v; i_v := i_v s;
     i_vbuf := i_vbuf s; i_abuf := i_abuf s |}.

(** 494-504 *)
Definition update (md : mode) (vs : list (list R)) (d : duals) : list (list R) :=
  match md with
  | NEWTON => vs
  | PRIMAL => d_vplus d
  | PRIMAL_DUAL => d_pdal d
  end.

(** One pass, 479-516. *)
Definition pass (md : mode) (d : duals) (n : inner) : option (duals * mult_out) :=
  match computeMultipliers (n_mu n) (n_lam0 n) (n_gap0 n) (n_lams n) (n_gaps n)
          (zip_with with_prev (n_stages n) (d_prev d)) with
  | None => None
  | Some out =>
      let d1 := {| d_prev := d_prev d; d_vplus := map o_vplus (m_stages out); d_pdal := d_pdal d |} in
      Some (if leb (m_prim_infeas out) (n_tol n)
            then {| d_prev := update md (map i_v (n_stages n)) d1; d_vplus := d_vplus d1; d_pdal := d_pdal d1 |}
            else d1, out)
  end.
