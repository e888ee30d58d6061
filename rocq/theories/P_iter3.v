(** C66: counterexamples and examples over the rational numbers. *)
From mathcomp Require Import all_ssreflect all_algebra.
From Verif Require Import MxRing RiccatiModel RiccatiProofs RiccatiValue P_riccati LagrModel P_lagr IterModel P_iter P_iter2.
Set Implicit Arguments.
Unset Strict Implicit.
Import Order.Theory GRing.Theory Num.Theory.
Local Open Scope ring_scope.

Notation Rq := rat_realFieldType.
(** the number q as a 1 x 1 matrix *)
Definition num (q : rat) : 'M[rat]_1 := const_mx q.
Lemma numM a b : num a *m num b = num (a * b).
Proof. by apply/matrixP => i j; rewrite !mxE big_ord1 !mxE. Qed.
Lemma numD a b : num a + num b = num (a + b).
Proof. by apply/matrixP => i j; rewrite !mxE. Qed.
Lemma numN a : - num a = num (- a).
Proof. by apply/matrixP => i j; rewrite !mxE. Qed.
Lemma numZ a b : a *: num b = num (a * b).
Proof. by apply/matrixP => i j; rewrite !mxE. Qed.
Lemma numT a : (num a)^T = num a.
Proof. by apply/matrixP => i j; rewrite !mxE. Qed.
Lemma num0 : num 0 = 0.
Proof. by apply/matrixP => i j; rewrite !mxE. Qed.
Lemma num1 : num 1 = 1%:M.
Proof. by apply/matrixP => i j; rewrite !ord1 !mxE. Qed.
Lemma num_inj a b : num a = num b -> a = b.
Proof. by move=> /matrixP /(_ 0 0); rewrite !mxE. Qed.
Lemma num_of (z : 'M[rat]_1) : z = num (z 0 0).
Proof. by apply/matrixP => i j; rewrite !ord1 mxE. Qed.
Definition numE := (numM, numD, numN, numZ, numT).
Lemma norm_num a : norm (num a : 'cV[Rq]_1) = `|a|.
Proof. by rewrite /norm big_ord_recl big_ord0 mxE; apply: max_l; exact: normr_ge0. Qed.
Lemma psd_num a : 0 <= a -> psd (num a : 'M[Rq]_1).
Proof.
by move=> a0 x; rewrite /qform (num_of x) numM /dot numT numM mxE mulrCA mulr_ge0 // -expr2 sqr_ge0.
Qed.
Lemma pd_num a : 0 < a -> pd (num a : 'M[Rq]_1).
Proof.
move=> a0 x; rewrite /qform (num_of x) numM /dot numT numM mxE mulrCA => h.
rewrite mulr_gt0 // -expr2 exprn_even_gt0 //=; apply: contraNneq h => ->.
by rewrite num0.
Qed.
Lemma psd_diag a b : 0 <= a -> 0 <= b -> psd (block_mx (num a) 0 (0 : 'M_1)^T (num b) : 'M[Rq]_(1 + 1)).
Proof.
move=> a0 b0 x; rewrite -[x]vsubmxK qform_block !trmx0 !mul0mx addr0 add0r addr_ge0 //.
  exact: psd_num.
exact: psd_num.
Qed.
Lemma unit_num1 : (num 1 : 'M[Rq]_1) \in unitmx.
Proof. by rewrite num1 unitmx1. Qed.

(** minimise 1/2 u^2 + 1/2 x1^2 with x1 = x0 + u, x0 = 1, and the terminal constraint
    that x1 belongs to [k], if there is one *)
Definition st0 : pstage Rq 1 1 0 1 :=
  @PStage Rq 1 1 0 1 (num 0) 0 (num 1) (num 0) (num 0) (num 1) (num 1) (num 0) 0 0 0 (fun _ => Req Rq).
Definition free : prob Rq 1 := PCons st0 (@PTerm Rq 1 0 (@PEnd Rq 1 0 (num 1) (num 0) 0 0 (fun _ => Req Rq))).
Definition ended (k : row Rq) : prob Rq 1 :=
  PCons st0 (@PTerm Rq 1 1 (@PEnd Rq 1 1 (num 1) (num 0) (num 1) (num 0) (fun _ => k))).
Lemma free_convex : convex_costs free.
Proof.
split; last by split; [exact: numT|exact: psd_num].
split; [exact: numT|exact: numT|exact: (psd_diag (lexx _) ler01)|exact: (pd_num ltr01)].
Qed.
Lemma ended_convex k : convex_costs (ended k).
Proof.
split; last by split; [exact: numT|exact: psd_num].
split; [exact: numT|exact: numT|exact: (psd_diag (lexx _) ler01)|exact: (pd_num ltr01)].
Qed.

(** The error of the last dynamics is not part of the criterion: it vanishes at a
    trajectory which is not one of the system.  This trajectory is the default initial
    guess. *)
Theorem C66_last_gap_refuted : forall (mu : rat), exists (c : prob Rq 1) (s : state 1 c),
  convex_costs c /\
  forall (force : bool) (w : vecs c),
  [/\ inner_criterion (init_gap (num 1) (num (-1)) s) (all_residuals (num 1) mu force w s) = 0,
      dual_infeas (all_residuals (num 1) mu force w s) = 0,
      prim_infeas mu (init_gap (num 1) (num (-1)) s) s.2 w = 1 & ~ feasible s.2].
Proof.
move=> mu; exists free, (num 0, ((num 1, num 0, 0, num 0, (num 0, 0)) : iter free)).
split; first exact: free_convex.
have n0 : norm (0 : 'cV[Rq]_0) = 0 by rewrite /norm big_ord0.
have N0 (z : 'cV[Rq]_0) : norm z = 0 by rewrite /norm big_ord0.
move=> force w; split.
- rewrite /inner_criterion /all_residuals /grads /compute /=; case: force => /=;
    by rewrite /init_gap /gap /= !trmx0 !mul0mx !addr0 ?mulmx0 ?addr0 -?num0 !numE ?num0 !N0 ?norm_num;
       vm_compute.
- rewrite /all_residuals /grads /compute /=; case: force => /=;
    by rewrite !trmx0 !mul0mx !addr0 ?mulmx0 ?addr0 -?num0 !numE ?num0 ?norm_num; vm_compute.
- by rewrite /prim_infeas /init_gap /= !N0 /gap /= !numE !norm_num; vm_compute.
- by move=> /= -[E _ _]; move: E; rewrite !numE => /num_inj.
Qed.

(** Forcing the initial condition zeroes the first step after the subproblem was solved
    with the step towards the initial state.  From a warm start which obeys the
    dynamics, but does not start there, a full step violates the dynamics. *)
Theorem C66_force_refuted : exists (c : prob Rq 1) (s s' : state 1 c) (w : vecs c),
  [/\ convex_costs c, rows (@is_eq Rq) c, iterate (num 1) (num (-1)) 1 0 false true 1 w s = Some s',
      feasible s.2 & ~ feasible s'.2].
Proof.
exists free, (num 0, ((num 0, num 0, 0, num 0, (num 0, 0)) : iter free)).
have [s' E] := @C66_defined Rq 1 free (num 1) (num (-1)) 1 0 false true 1 (0, 0)
  (num 0, ((num 0, num 0, 0, num 0, (num 0, 0)) : iter free)) ltr01 (lexx _) free_convex unit_num1.
exists s', (0, 0); split=> [||//||].
- exact: free_convex.
- by split=> -[].
- by split=> /= [|[]//|[]//]; rewrite !numE.
move: E; rewrite /iterate; case D : (direction _ _ _ _ _ _ _ _) => [d|//] E.
have [l [r [hk h0 Ed]]] := direction_kkt (oner_neq0 _) (convex_sym free_convex) unit_num1 D.
move: E; rewrite {D}Ed => /Some_inj <- /=.
case: r hk h0 => [[[[dx du] dv] dl] r] /= [_ _ _ hd _] h0.
have {}h0 : dx = num 1.
  move: h0; rewrite (num_of dx) !numE => /eqP.
  by rewrite -num0 => /eqP /num_inj; rewrite mul1r mulr0 add0r => /eqP; rewrite subr_eq0 => /eqP ->.
rewrite h0 (num_of du) /gap /= !numE in hd.
move=> [] /=; rewrite hd (num_of du) !numE => /num_inj + _ _.
move: (du 0 0) => z.
rewrite !mul1r !add0r !addr0 => /eqP; rewrite -subr_eq0.
by rewrite mxE addrK oner_eq0.
Qed.

(** A row which leaves its piece keeps a residual after a full step. *)
Theorem C66_piece_refuted : exists (c : prob Rq 1) (s s' : state 1 c) (w : vecs c),
  [/\ convex_costs c, rows (@row_wf Rq) c, iterate (num 1) (num (-1)) 1 0 false false 1 w s = Some s' &
      inner_criterion (init_gap (num 1) (num (-1)) s') (all_residuals (num 1) 1 false w s') != 0].
Proof.
set c := @PTerm Rq 1 1 (@PEnd Rq 1 1 (num 1) (num 0) (num 1) (num 0) (fun _ => Rneg Rq)).
have Cc : convex_costs c by split; [exact: numT|exact: psd_num].
exists c, (num 0, ((num (-1), num 0) : iter c)).
have [s' E] := @C66_defined Rq 1 c (num 1) (num (-1)) 1 0 false false 1 (num 0)
  (num 0, ((num (-1), num 0) : iter c)) ltr01 (lexx _) Cc unit_num1.
exists s', (num 0); split=> //.
move: E; rewrite /iterate; case D : (direction _ _ _ _ _ _ _ _) => [d|//] E.
have [l [r [hk h0 Ed]]] := direction_kkt (oner_neq0 _) (convex_sym Cc) unit_num1 D.
move: E; rewrite {D}Ed => /Some_inj <- /=.
case: r hk h0 => [[dx du] dv] /= [_ _ hv] h0.
have {}h0 : dx = num (1 + 1).
  move: h0; rewrite (num_of dx) !numE => /eqP.
  by rewrite -num0 => /eqP /num_inj; rewrite mul1r => /eqP; rewrite addr_eq0 => /eqP ->.
have := kept_term 0 hv; rewrite /act_of /Lv_of /shifted /tval /= !mxE !big_ord1 !mxE /=.
have -> : Num.max (1 * -1 + 0 + 1 * 0) 0 - 1 * 0 = 0 :> rat by vm_compute.
rewrite mul1r => Ev.
rewrite /inner_criterion /= gt_eqF // lt_maxr; apply/orP; right.
have [h1 h2] := norm_sq (Lv_of 1 (fun _ : 'I_1 => Rneg Rq) (shifted 1 (num 1 *m (num (-1) + 1 *: dx) + num 0) (num 0)) (num 0 + 1 *: dv)).
rewrite lt_neqAle h1 andbT eq_sym; apply/eqP => /norm_eq0 /colP /(_ 0).
rewrite !mxE big_ord1 !mxE -Ev h0 mxE => /eqP.
by vm_compute.
Qed.

(** ** Examples *)
Ltac fin := match goal with
  | |- @eq (matrix _ 0 1) _ _ => rewrite [LHS]flatmx0 ?[RHS]flatmx0; reflexivity
  | |- @eq (matrix _ _ _) _ _ => apply/colP => i; rewrite !ord1 !mxE big_ord1 !mxE; apply/eqP; vm_compute; reflexivity
  | |- _ => apply/eqP; vm_compute; reflexivity
  end.
Definition w1 : vecs (ended (Req Rq)) := (0, num 0).

(** C66_one_step: a full step from a trajectory with every residual non-zero *)
Example C66_one_step_example :
  let s : state 1 (ended (Req Rq)) := (num 3, (num 2, num 5, 0, num 7, (num 11, num 13))) in
  [/\ (0 : rat) < 1, convex_costs (ended (Req Rq)), rows (@is_eq Rq) (ended (Req Rq)),
      all_residuals (num 1) 1 false w1 s = (num 10, num 12, 0, num (-4), (num 17, num (-2))) &
      exists s', iterate (num 1) (num (-1)) 1 0 false false 1 w1 s = Some s' /\
        inner_criterion (init_gap (num 1) (num (-1)) s') (all_residuals (num 1) 1 false w1 s') = 0].
Proof.
move=> s; have E1 : rows (@is_eq Rq) (ended (Req Rq)) by split=> // -[].
split=> //; first exact: ended_convex.
  rewrite /all_residuals /grads /compute /= /gap /= !trmx0 !mul0mx ?mulmx0 !addr0 !numE.
  by congr (num _, num _, _, num _, (num _, _)); fin.
have [s' E] := @C66_defined Rq 1 (ended (Req Rq)) (num 1) (num (-1)) 1 0 false false 1 w1 s
  ltr01 (lexx _) (ended_convex _) unit_num1.
exists s'; split=> //.
by have [|_ _ ->] := C66_one_step (oner_neq0 _) (convex_sym (ended_convex _)) E1 unit_num1 _ E.
Qed.

(** C66_residuals_partial, C66_criterion_partial: half a step with an active inequality *)
Definition neg1 : prob Rq 1 := @PTerm Rq 1 1 (@PEnd Rq 1 1 (num 1) (num 0) (num 1) (num 0) (fun _ => Rneg Rq)).
Definition wn : vecs neg1 := num 0.
Example C66_criterion_example :
  let s : state 1 neg1 := (num 0, (num 2, num 0)) in
  exists s', [/\ iterate (num 1) (num (-1)) 1 0 false false (1 / (1 + 1)) wn s = Some s',
    rows (@row_wf Rq) neg1, same_pieces 1 s.2 s'.2 wn,
    inner_criterion (init_gap (num 1) (num (-1)) s) (all_residuals (num 1) 1 false wn s) = 1 + 1 &
    inner_criterion (init_gap (num 1) (num (-1)) s') (all_residuals (num 1) 1 false wn s') = 1].
Proof.
move=> s; have Cc : convex_costs neg1 by split; [exact: numT|exact: psd_num].
have [s' E] := @C66_defined Rq 1 neg1 (num 1) (num (-1)) 1 0 false false (1 / (1 + 1)) wn s
  ltr01 (lexx _) Cc unit_num1.
have wf : rows (@row_wf Rq) neg1 by [].
have B : same_pieces 1 s.2 s'.2 wn.
  move: E; rewrite /iterate; case D : (direction _ _ _ _ _ _ _ _) => [d|//] E.
  have [l [r [hk h0 Ed]]] := direction_kkt (oner_neq0 _) (convex_sym Cc) unit_num1 D.
  move: E; rewrite {D}Ed => /Some_inj <- /= k; rewrite !ord1.
  have -> : r.1.1 = num (- 1).
    move: h0; rewrite /= (num_of r.1.1) !numE => /eqP.
    by rewrite -num0 => /eqP /num_inj; rewrite mul1r => /eqP; rewrite addr_eq0 => /eqP ->.
  by rewrite !numE !mxE; vm_compute.
have C : inner_criterion (init_gap (num 1) (num (-1)) s) (all_residuals (num 1) 1 false wn s) = 1 + 1.
  rewrite /inner_criterion /all_residuals /grads /compute /= !numE norm_num.
  have -> : Lv_of 1 (fun _ : 'I_1 => Rneg Rq) (shifted 1 (tval (@PEnd Rq 1 1 (num 1) (num 0) (num 1) (num 0) (fun _ => Rneg Rq)) (num 2)) (num 0)) (num 0) = num (1 + 1).
    by apply/colP => i; rewrite !ord1 !mxE big_ord1 !mxE; apply/eqP; vm_compute.
  by rewrite norm_num; apply/eqP; vm_compute.
exists s'; split=> //.
have hf : false -> num 1 *m first_x s.2 + num (-1) = 0 by [].
have [-> _] := C66_criterion_partial (oner_neq0 _) (convex_sym Cc) wf unit_num1 hf E B.
by rewrite C; apply/eqP; vm_compute.
Qed.

(** C66_outer, C66_passes, C66_solution: the terminal constraint x1 = 0 *)
Definition star1 : iter (ended (Req Rq)) := (num 1, num (-1), 0, num 1, (num 0, num 1)).
Definition pass1 : state 1 (ended (Req Rq)) :=
  (num (- (2%:R / 3%:R)), (num 1, num (- (2%:R / 3%:R)), 0, num (2%:R / 3%:R), (num (1 / 3%:R), num (1 / 3%:R)))).
Lemma star1_kkt : kkt_point ((num 1)^T *m num (-1)) star1.
Proof.
have K (z v : rat) : z = 0 -> in_set (Req Rq) z /\ normal (Req Rq) z v.
  by move=> -> /=; split=> // y /= ->; rewrite subrr mulr0.
rewrite /= !trmx0 !mul0mx !addr0 !numE -num0.
split=> [|||[]//|]; try by congr num; apply/eqP; vm_compute.
split; first by congr num; apply/eqP; vm_compute.
by move=> k; apply: K; rewrite ?numE mxE; apply/eqP; vm_compute.
Qed.
Example C66_outer_example :
  [/\ all_residuals (num 1) 1 false w1 pass1 = zeros _,
      vdist2 w1 (vs_of star1) = 1,
      prim_infeas 1 (init_gap (num 1) (num (-1)) pass1) pass1.2 w1 = 1 / 3%:R &
      vdist2 (vs_of pass1.2) (vs_of star1) + vdist2 (vs_of pass1.2) w1 = 5%:R / 9%:R].
Proof.
have n0 (z : 'cV[Rq]_0) : norm z = 0 by rewrite /norm big_ord0.
have d0 (z y : 'cV[Rq]_0) : dot z y = 0 by rewrite dot_sum big_ord0.
have d1 (a b : rat) : dot (num a : 'cV[Rq]_1) (num b) = a * b by rewrite /dot numT numM mxE.
split.
- rewrite /all_residuals /grads /compute /= /gap /= !trmx0 !mul0mx ?mulmx0 !addr0 !numE -num0.
  by congr (num _, num _, _, num _, (num _, _)); fin.
- by rewrite /= d0 !numE d1; apply/eqP; vm_compute.
- rewrite /prim_infeas /init_gap /= !n0 /gap /= !numE !norm_num.
  have -> : infeas_of 1 (fun _ : 'I_1 => Req Rq) (shifted 1 (tval (@PEnd Rq 1 1 (num 1) (num 0) (num 1) (num 0) (fun _ => Req Rq)) (num (1 / 3%:R))) (num 0)) (num 0) = num (1 / 3%:R).
    by apply/colP => i; rewrite !ord1 !mxE big_ord1 !mxE; apply/eqP; vm_compute.
  by rewrite norm_num; apply/eqP; vm_compute.
- by rewrite /= !d0 !numE !d1; apply/eqP; vm_compute.
Qed.
(** one accepted pass with eps = 1/3 and M = 1: 1/9 <= 1 *)
Example C66_passes_example :
  (\sum_(k < 1) true)%:R * (1 / 3%:R) ^+ 2 <= 1 ^+ 2 * vdist2 w1 (vs_of star1) :> rat.
Proof.
have wf : rows (@row_wf Rq) (ended (Req Rq)) by [].
have [Z _ P _] := C66_outer_example.
apply: (@C66_passes Rq 1 (ended (Req Rq)) (num 1) (num (-1)) false 1 (1 / 3%:R) 1 (fun _ => 1)
  (fun k => if k == 0%N then w1 else vs_of pass1.2) (fun _ => pass1) (fun _ => true) (num (-1)) star1) => //.
- exact: ended_convex.
- exact: unit_num1.
- by rewrite /= !numE -num0; congr num; apply/eqP; vm_compute.
- exact: star1_kkt.
move=> [|k] // _; split=> //.
- by rewrite /= !numE -num0; congr num; apply/eqP; vm_compute.
- by rewrite /= P.
Qed.
Example C66_solution_example :
  [/\ all_residuals (num 1) 1 false (vs_of star1) (num (-1), star1) = zeros _,
      prim_infeas 1 (init_gap (num 1) (num (-1)) (num (-1), star1)) star1 (vs_of star1) = 0 &
      forall j : iter (ended (Req Rq)), num 1 *m first_x j + num (-1) = 0 -> feasible j -> cost (c := ended (Req Rq)) star1 <= cost j].
Proof.
have n0 (z : 'cV[Rq]_0) : norm z = 0 by rewrite /norm big_ord0.
have Z : all_residuals (num 1) 1 false (vs_of star1) (num (-1), star1) = zeros _.
  rewrite /all_residuals /grads /compute /= /gap /= !trmx0 !mul0mx ?mulmx0 !addr0 !numE -num0.
  by congr (num _, num _, _, num _, (num _, _)); fin.
have P : prim_infeas 1 (init_gap (num 1) (num (-1)) (num (-1), star1)) star1 (vs_of star1) = 0.
  rewrite /prim_infeas /init_gap /= !n0 /gap /= !numE !norm_num.
  have -> : infeas_of 1 (fun _ : 'I_1 => Req Rq) (shifted 1 (tval (@PEnd Rq 1 1 (num 1) (num 0) (num 1) (num 0) (fun _ => Req Rq)) (num 0)) (num 1)) (num 1) = num 0.
    by apply/colP => i; rewrite !ord1 !mxE big_ord1 !mxE; apply/eqP; vm_compute.
  by rewrite norm_num; apply/eqP; vm_compute.
split=> //.
by have [_ _] := C66_solution ltr01 (ended_convex (Req Rq)) (conj (fun _ => I) (fun _ => I)) unit_num1 Z P.
Qed.
