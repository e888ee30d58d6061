(** Model of SolverProxDDP::computeMultipliers
    (solvers/proxddp/solver-proxddp.hxx 219-318), over the constraint sets of
    CSetModel.  Real scalars: the NaN guards never fire. *)
From Coq Require Import Reals List Bool Arith.
From Verif Require Import CSetModel.
Import ListNotations.
Local Open Scope R_scope.

Definition vscale (a : R) (v : list R) : list R := map (Rmult a) v.
Definition vplus' (x y : list R) : list R := zip_with Rplus x y.
Definition vminus (x y : list R) : list R := zip_with Rminus x y.

(** math.hpp: infty_norm of a vector (0 if empty) and of a vector of vectors. *)
Definition infty_norm (v : list R) : R := fold_left Rmax (map Rabs v) 0.
Definition infty_norms (vs : list (list R)) : R := fold_left Rmax (map infty_norm vs) 0.

(** What the routine fills in for one stage (or for the terminal constraints). *)
Record stage_out := { o_shifted : list R; o_vplus : list R; o_active : list bool;
                      o_Lv : list R; o_infeas : list R }.

(** Data of one constraint stack: product set, constraint values, previous and
    current multipliers, old contents of the vs_plus and active-set buffers. *)
Record stage_in := { i_set : cset; i_values : list (list R); i_vprev : list R;
                     i_v : list R; i_vbuf : list R; i_abuf : list bool }.

(** solver-proxddp.hxx 266-286 and 290-309. *)
Definition stage_mult (mu : R) (s : stage_in) : option stage_out :=
  let c := concat (i_values s) in
  if negb (same_len c (i_vprev s) && same_len c (i_v s)) then None else
  let shifted := vplus' c (vscale mu (i_vprev s)) in
  match normal_cone_projection (i_set s) shifted (i_vbuf s),
        active_set (i_set s) shifted (i_abuf s) with
  | Some w, Some act =>
      let vp := vscale (1 / mu) w in
      Some {| o_shifted := shifted; o_vplus := vp; o_active := act;
              o_Lv := vminus w (vscale mu (i_v s));
              o_infeas := vscale mu (vminus vp (i_vprev s)) |}
  | _, _ => None
  end.

Fixpoint stages_mult (mu : R) (l : list stage_in) : option (list stage_out) :=
  match l with
  | [] => Some []
  | s :: t =>
      match stage_mult mu s, stages_mult mu t with
      | Some o, Some os => Some (o :: os)
      | _, _ => None
      end
  end.

(** solver-proxddp.hpp 313. *)
Definition mu_dyn (mu : R) : R := 1 / 10 * mu.

(** Dynamics errors [fs] (the initial condition first) and new co-states,
    243-263. *)
Definition lams_plus (md : R) (lams fs : list (list R)) : list (list R) :=
  zip_with (fun l f => vplus' l (map (fun x => x / md) f)) lams fs.

Record mult_out := { m_lams : list (list R); m_stages : list stage_out;
                     m_prim_infeas : R }.

(** The whole routine.  [gap0] is the value of the initial condition, [gaps]
    the dynamics errors of the stages; [stages] holds the constraint stacks of
    the stages followed by that of the terminal constraints, which has no row
    if there are none (288). *)
Definition computeMultipliers (mu : R) (lam0 gap0 : list R) (lams gaps : list (list R))
  (stages : list stage_in) : option mult_out :=
  match stages_mult mu stages with
  | None => None
  | Some os =>
      Some {| m_lams := vplus' lam0 (map (fun x => x / mu) gap0) ::
                        lams_plus (mu_dyn mu) lams gaps;
              m_stages := os;
              m_prim_infeas := Rmax (infty_norms (map o_infeas os))
                                    (infty_norms (gap0 :: gaps)) |}
  end.
