(** C52: the history callback. *)
From Coq Require Import List Bool Lia.
Import ListNotations.

Section History.

(** Scalars and vectors are only copied. *)
Variables (scalar vec : Type).

(** solvers/results-base.hpp, proxddp/results.hpp: the fields read by the
    callback; [al] is [Some al_iter] when the dynamic cast to [ResultsTpl]
    succeeds. *)
Record results := {
  xs_ : list vec; us_ : list vec; lams_ : list vec; cost_ : scalar;
  merit_ : scalar; prim_ : scalar; dual_ : scalar; al_ : option nat }.

(** The solver whose address the callback holds (history-callback.hpp 18-23);
    [None] when [m_rtti] is not [SolverProxDDPTpl]; the tolerances are those at
    the time of the call. *)
Definition solver_state := option (scalar * scalar).

(** history-callback.hpp 27-42. *)
Record history := {
  h_xs : list (list vec); h_us : list (list vec); h_lams : list (list vec);
  h_values : list scalar; h_merit : list scalar; h_prim : list scalar;
  h_dual : list scalar; h_crits : list scalar; h_al : list nat;
  h_ptol : list scalar; h_dtol : list scalar;
  store_pd : bool; store_val : bool }.

Definition h_new (pd val : bool) : history :=
  {| h_xs := []; h_us := []; h_lams := []; h_values := []; h_merit := [];
     h_prim := []; h_dual := []; h_crits := []; h_al := []; h_ptol := [];
     h_dtol := []; store_pd := pd; store_val := val |}.

(** history-callback.hxx 7-33 ([call]): lines 13 and 21-23 (multipliers, inner
    criterion) are commented out in the code, hence absent here. *)
Definition call (h : history) (r : results) (s : solver_state) : history :=
  {| h_xs := if store_pd h then h_xs h ++ [xs_ r] else h_xs h;
     h_us := if store_pd h then h_us h ++ [us_ r] else h_us h;
     h_lams := h_lams h;
     h_values := if store_val h then h_values h ++ [cost_ r] else h_values h;
     h_merit := if store_val h then h_merit h ++ [merit_ r] else h_merit h;
     h_prim := h_prim h ++ [prim_ r];
     h_dual := h_dual h ++ [dual_ r];
     h_crits := h_crits h;
     h_al := match al_ r with Some n => h_al h ++ [n] | None => h_al h end;
     h_ptol := match s with Some (p, _) => h_ptol h ++ [p] | None => h_ptol h end;
     h_dtol := match s with Some (_, d) => h_dtol h ++ [d] | None => h_dtol h end;
     store_pd := store_pd h; store_val := store_val h |}.

(** A run: the callback is called on a sequence of results. *)
Definition calls (h : history) (rs : list (results * solver_state)) : history :=
  fold_left (fun h rs => call h (fst rs) (snd rs)) rs h.

Definition somes {A B} (f : A -> option B) (l : list A) : list B :=
  flat_map (fun a => match f a with Some b => [b] | None => [] end) l.

Lemma calls_snoc h l r : calls h (l ++ [r]) = call (calls h l) (fst r) (snd r).
Proof. unfold calls. now rewrite fold_left_app. Qed.

Lemma somes_snoc {A B} (f : A -> option B) l a :
  somes f (l ++ [a]) = somes f l ++ match f a with Some b => [b] | None => [] end.
Proof. unfold somes. rewrite flat_map_app. simpl. now rewrite app_nil_r. Qed.

(** C52: for a run of any length every stored field is, in order, the value of
    each invocation: the values which the flags switch on, and the AL index
    and tolerances whenever the solver is a [SolverProxDDP]. *)
Theorem C52_history_partial : forall pd val rs,
  let h := calls (h_new pd val) rs in
  h_prim h = map (fun r => prim_ (fst r)) rs /\
  h_dual h = map (fun r => dual_ (fst r)) rs /\
  h_values h = (if val then map (fun r => cost_ (fst r)) rs else []) /\
  h_merit h = (if val then map (fun r => merit_ (fst r)) rs else []) /\
  h_xs h = (if pd then map (fun r => xs_ (fst r)) rs else []) /\
  h_us h = (if pd then map (fun r => us_ (fst r)) rs else []) /\
  h_al h = somes (fun r => al_ (fst r)) rs /\
  h_ptol h = somes (fun r => option_map fst (snd r)) rs /\
  h_dtol h = somes (fun r => option_map snd (snd r)) rs.
Proof.
  intros pd val rs.
  induction rs as [|r rs IH] using rev_ind; [cbn; destruct pd, val; repeat split|].
  assert (F : store_pd (calls (h_new pd val) rs) = pd /\
              store_val (calls (h_new pd val) rs) = val).
  { clear IH. induction rs as [|r' rs IH] using rev_ind; [now split|].
    rewrite calls_snoc. exact IH. }
  destruct F as [Fp Fv]. cbv zeta in *.
  destruct IH as (A & B & C & D & G & H & I & J & K).
  rewrite !calls_snoc. unfold call; cbn [h_prim h_dual h_values h_merit h_xs
    h_us h_al h_ptol h_dtol]. rewrite !map_app, !somes_snoc, Fp, Fv.
  rewrite A, B, C, D, G, H, I, J, K.
  destruct r as [r s]; simpl.
  destruct pd, val; destruct (al_ r); destruct s as [[p d]|]; simpl;
    rewrite ?app_nil_r; repeat split; reflexivity.
Qed.

(** Refuted part: the callback declares [lams] and [inner_crits] but never
    fills them, even when asked to store the primal-dual variables. *)
Theorem C52_lams_refuted : forall pd val rs,
  h_lams (calls (h_new pd val) rs) = [] /\ h_crits (calls (h_new pd val) rs) = [].
Proof.
  intros pd val rs. induction rs as [|r rs [A B]] using rev_ind; [now split|].
  rewrite calls_snoc. unfold call; cbn. now rewrite A, B.
Qed.

End History.

Example C52_example :
  let r n : results nat nat := {| xs_ := [n]; us_ := []; lams_ := [n; n];
    cost_ := n; merit_ := n + 1; prim_ := n + 2; dual_ := n + 3;
    al_ := Some n |} in
  let h := calls nat nat (h_new nat nat true true)
             [(r 1, Some (7, 8)); (r 2, Some (5, 6)); (r 4, Some (3, 4))] in
  h_prim _ _ h = [3; 4; 6] /\ h_xs _ _ h = [[1]; [2]; [4]] /\
  h_dtol _ _ h = [8; 6; 4] /\ h_lams _ _ h = [].
Proof. repeat split. Qed.

Print Assumptions C52_history_partial.
Print Assumptions C52_lams_refuted.
