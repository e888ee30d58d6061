(** Property C72 (buffers of the parallel Riccati solver after construction and cycling). *)
From Coq Require Import List Arith Bool NArith Lia ZifyN.
From Verif Require Import WorkModel P_work KnotModel DenseShapeModel ParShapeModel.
Import ListNotations.
Open Scope nat_scope.

(** ** What the buffers should be *)
(** the first stage of leg [i] *)
Definition cut (N nt i : nat) : nat := i * (N + 1) / nt.
(** the knots of leg [i], with the number of parameters: the dimension of the state in which the
    leg ends, except for the last leg, which is left as it is *)
Definition leg_knots (ks : list dims) (nt i : nat) : list dims :=
  let N := length ks - 1 in
  let l := firstn (cut N nt (i + 1) - cut N nt i) (skipn (cut N nt i) ks) in
  if i =? nt - 1 then l else map (add_par (nx2 (List.nth (cut N nt (i + 1) - 1) ks (Dims 0 0 0 0 0)))) l.
Definition all_knots (ks : list dims) (nt : nat) : list dims := concat (map (leg_knots ks nt) (seq 0 nt)).
(** the sizes of the blocks of the condensed system, from the first and the last stage of each
    leg; that these are the sizes of the blocks written only if the last stage of a leg keeps
    the dimension of the state is in P_par *)
Definition blocks (nc0 : nat) (ks : list dims) (nt : nat) : list nat :=
  let N := length ks - 1 in
  let n t := nx (List.nth t ks (Dims 0 0 0 0 0)) in
  nc0 :: n 0 :: concat (map (fun i => [n (cut N nt i); n (cut N nt (i + 1) - 1)]) (seq 0 (nt - 1))).
Definition squares (l : list nat) : list sz := map (fun n => (n, n)) l.
Definition right_sizes (p : lqp) (nt : nat) : lqp * par :=
  let r := blocks (fst (g0 p)) (stages p) nt in
  (Lqp (all_knots (stages p) nt) (G0 p) (g0 p),
   Par (all_knots (stages p) nt) (combine (tl r) r) (squares r) (combine r (tl r))
       (squares r) (squares r) r r (list_sum r)).
Definition fits_nat (N nt : nat) : Prop := fits (N.of_nat N) (N.of_nat nt).

(** ** The cuts *)
Lemma work_cuts N nt i : fits_nat N nt -> i < nt -> work_beg N nt i = cut N nt i /\ work_end N nt i = cut N nt (i + 1).
Proof.
  intros F H. unfold work_beg, work_end, cut. rewrite get_work_exact by (auto; lia). cbn [fst snd].
  rewrite !N2Nat.inj_div, !N2Nat.inj_mul, !N2Nat.inj_add, !Nat2N.id. split; reflexivity.
Qed.
Lemma cut_0 N nt : cut N nt 0 = 0.
Proof. unfold cut. destruct nt; [reflexivity | apply Nat.div_0_l; lia]. Qed.
Lemma cut_all N nt : 0 < nt -> cut N nt nt = N + 1.
Proof. intros H. unfold cut. rewrite Nat.mul_comm. apply Nat.div_mul. lia. Qed.
Lemma cut_mono N nt i j : 0 < nt -> i <= j -> cut N nt i <= cut N nt j.
Proof. intros H L. unfold cut. apply Nat.div_le_mono; [lia | nia]. Qed.
Lemma cut_pos N nt i : nt <= N + 1 -> 0 < nt -> 0 < i -> 0 < cut N nt i.
Proof. intros H L I. unfold cut. apply Nat.div_str_pos. nia. Qed.
Lemma cut_lt N nt i : 0 < nt -> i < nt -> cut N nt i < N + 1.
Proof. intros H L. unfold cut. apply Nat.div_lt_upper_bound; nia. Qed.

(** ** One leg *)
Lemma set_nth_app {A} (l r : list A) a b : set_nth (l ++ a :: r) (length l) b = l ++ b :: r.
Proof. induction l; cbn; [reflexivity | now rewrite IHl]. Qed.
Lemma nth_error_mid {A} (l r : list A) a : nth_error (l ++ a :: r) (length l) = Some a.
Proof. induction l; cbn; auto. Qed.
Definition upd (last : bool) (k : nat) (d : dims) : dims := if last then d else add_par k d.
Lemma visits last k n : forall ds rest, n <= length rest ->
  foldo (visit last k) (seq (length ds) n) (ds ++ rest, ds) =
  Some ((ds ++ map (upd last k) (firstn n rest)) ++ skipn n rest, ds ++ map (upd last k) (firstn n rest)).
Proof.
  induction n; intros ds rest H.
  - cbn. now rewrite app_nil_r.
  - destruct rest as [|a rest]; [cbn in H; lia|].
    cbn [seq foldo]. unfold visit at 1. cbn [fst snd]. rewrite nth_error_mid, set_nth_app.
    fold (upd last k a).
    replace (ds ++ upd last k a :: rest) with ((ds ++ [upd last k a]) ++ rest) by (rewrite <- app_assoc; reflexivity).
    replace (S (length ds)) with (length (ds ++ [upd last k a])) by (rewrite app_length; cbn; lia).
    rewrite IHn by (cbn in H; lia). cbn [firstn skipn map]. now rewrite <- !app_assoc.
Qed.

Section Init.
Variables (p : lqp) (nt : nat).
Let ks := stages p.
Let N := length ks - 1.
Hypothesis H1 : 0 < length ks.
Hypothesis H2 : 2 <= nt <= length ks.
Hypothesis HF : fits_nat N nt.
Let HN : N + 1 = length ks. Proof. unfold N. lia. Qed.

Definition done (i : nat) : list dims := concat (map (leg_knots ks nt) (seq 0 i)).
Lemma leg_length i : i < nt -> length (leg_knots ks nt i) = cut N nt (i + 1) - cut N nt i.
Proof.
  intros I. unfold leg_knots. fold N.
  assert (L : cut N nt (i + 1) <= N + 1) by (rewrite <- (cut_all N nt) by lia; apply cut_mono; lia).
  destruct (i =? nt - 1); rewrite ?map_length, firstn_length, skipn_length; lia.
Qed.
Lemma done_S i : done (S i) = done i ++ leg_knots ks nt i.
Proof. unfold done. rewrite seq_S, map_app, concat_app. cbn. now rewrite app_nil_r. Qed.
Lemma done_length i : i <= nt -> length (done i) = cut N nt i.
Proof.
  induction i; intros I.
  - now rewrite cut_0.
  - rewrite done_S, app_length, IHi, leg_length by lia.
    pose proof (cut_mono N nt i (i + 1)). replace (S i) with (i + 1) by lia. lia.
Qed.
Lemma skipn_skipn' {A} a b (l : list A) : skipn a (skipn b l) = skipn (b + a) l.
Proof. revert l; induction b; intros [|x l]; cbn; rewrite ?skipn_nil; auto. Qed.
Lemma nth_error_rest i t : i <= nt -> cut N nt i <= t -> nth_error (done i ++ skipn (cut N nt i) ks) t = nth_error ks t.
Proof.
  intros I T. rewrite nth_error_app2 by (rewrite done_length; lia). rewrite done_length by lia.
  rewrite <- (firstn_skipn (cut N nt i) ks) at 2.
  assert (L : cut N nt i <= N + 1) by (rewrite <- (cut_all N nt) by lia; apply cut_mono; lia).
  rewrite nth_error_app2; rewrite firstn_length_le; try lia. reflexivity.
Qed.
Lemma leg_step i : i < nt ->
  allocate_leg (work_beg N nt i) (work_end N nt i) (i =? nt - 1) (done i ++ skipn (cut N nt i) ks, done i)
  = Some (done (S i) ++ skipn (cut N nt (S i)) ks, done (S i)).
Proof.
  intros I. destruct (work_cuts N nt i HF I) as [-> ->].
  assert (L : cut N nt (i + 1) <= N + 1) by (rewrite <- (cut_all N nt) by lia; apply cut_mono; lia).
  assert (G : cut N nt i < cut N nt (i + 1)).
  { unfold cut. replace ((i + 1) * (N + 1)) with (i * (N + 1) + (N + 1)) by lia.
    apply Nat.lt_le_trans with ((i * (N + 1) + 1 * nt) / nt).
    - rewrite Nat.div_add by lia. lia.
    - apply Nat.div_le_mono; lia. }
  unfold allocate_leg. destruct (Nat.eqb_spec (cut N nt (i + 1)) 0); [lia|].
  cbn [fst]. rewrite nth_error_rest by lia.
  rewrite (nth_error_nth' ks (Dims 0 0 0 0 0)) by lia.
  rewrite <- (done_length i) at 1 by lia.
  rewrite visits by (rewrite skipn_length; lia).
  rewrite skipn_skipn'. replace (cut N nt i + (cut N nt (i + 1) - cut N nt i)) with (cut N nt (S i))
    by (replace (S i) with (i + 1) by lia; lia).
  rewrite done_S. unfold leg_knots. fold N.
  destruct (i =? nt - 1); [|reflexivity].
  rewrite (map_ext (upd true _) (fun d => d)) by reflexivity. now rewrite map_id.
Qed.
Lemma legs_from n : forall i, i + n = nt ->
  foldo (fun st i => allocate_leg (work_beg N nt i) (work_end N nt i) (i =? nt - 1) st) (seq i n)
    (done i ++ skipn (cut N nt i) ks, done i) = Some (all_knots ks nt, all_knots ks nt).
Proof.
  induction n; intros i E.
  - cbn. assert (i = nt) by lia. subst i. rewrite cut_all by lia.
    rewrite skipn_all2 by lia. now rewrite app_nil_r.
  - cbn [seq foldo]. rewrite leg_step by lia. apply IHn. lia.
Qed.

(** the state dimensions are not touched *)
Lemma concat_legs {B} (f : dims -> B) : (forall k d, f (add_par k d) = f d) -> map f (all_knots ks nt) = map f ks.
Proof.
  intros Hf.
  assert (G : forall i, i <= nt -> map f (done i) = map f (firstn (cut N nt i) ks)).
  { induction i; intros I.
    - now rewrite cut_0.
    - rewrite done_S, map_app, IHi by lia.
      assert (E : map f (leg_knots ks nt i) = map f (firstn (cut N nt (i + 1) - cut N nt i) (skipn (cut N nt i) ks))).
      { unfold leg_knots. fold N. destruct (i =? nt - 1); [reflexivity|].
        rewrite map_map. apply map_ext. intros; apply Hf. }
      rewrite E, <- map_app. f_equal.
      assert (M : cut N nt i <= cut N nt (i + 1)) by (apply cut_mono; lia).
      replace (S i) with (i + 1) by lia. revert M.
      generalize (cut N nt i) (cut N nt (i + 1)). generalize ks. clear.
      intros l a. revert l. induction a; intros l b M; cbn.
      + now rewrite Nat.sub_0_r.
      + destruct l; cbn; [now rewrite !firstn_nil|]. destruct b; [lia|]. cbn. f_equal. apply IHa. lia. }
  unfold all_knots. fold (done nt). rewrite G by lia. rewrite cut_all by lia. now rewrite firstn_all2 by lia.
Qed.
Lemma all_length : length (all_knots ks nt) = length ks.
Proof. rewrite <- (map_length (fun _ => 0)), (concat_legs (fun _ => 0)) by reflexivity. apply map_length. Qed.
Lemma read_nx t : t < length ks -> exists d, nth_error (all_knots ks nt) t = Some d /\ nx d = nx (List.nth t ks (Dims 0 0 0 0 0)).
Proof.
  intros T. exists (List.nth t (all_knots ks nt) (Dims 0 0 0 0 0)). split.
  - apply nth_error_nth'. now rewrite all_length.
  - rewrite <- !(map_nth nx). f_equal. apply concat_legs. reflexivity.
Qed.
Lemma rhs_right : rhs_dims (fst (g0 p)) (all_knots ks nt) N nt = Some (blocks (fst (g0 p)) ks nt).
Proof.
  unfold rhs_dims. destruct (read_nx 0 H1) as (d & -> & ->).
  unfold blocks. fold N.
  set (n := fun t => nx (List.nth t ks (Dims 0 0 0 0 0))).
  assert (G : forall k i l, i + k < nt ->
    foldo (fun l i => if work_end N nt i =? 0 then None else
      match nth_error (all_knots ks nt) (work_beg N nt i), nth_error (all_knots ks nt) (work_end N nt i - 1) with
      | Some a, Some b => Some (l ++ [nx a; nx b]) | _, _ => None end) (seq i k) l
    = Some (l ++ concat (map (fun i => [n (cut N nt i); n (cut N nt (i + 1) - 1)]) (seq i k)))).
  { induction k; intros i l E.
    - cbn. now rewrite app_nil_r.
    - cbn [seq foldo map concat].
      destruct (work_cuts N nt i HF) as [-> ->]; [lia|].
      assert (P : 0 < cut N nt (i + 1)) by (apply cut_pos; lia).
      assert (Q : cut N nt i < N + 1) by (apply cut_lt; lia).
      assert (R : cut N nt (i + 1) < N + 1) by (apply cut_lt; lia).
      destruct (Nat.eqb_spec (cut N nt (i + 1)) 0); [lia|].
      destruct (read_nx (cut N nt i)) as (a & -> & ->); [lia|].
      destruct (read_nx (cut N nt (i + 1) - 1)) as (b & -> & ->); [lia|].
      rewrite IHk by lia. now rewrite <- app_assoc. }
  rewrite G by lia. reflexivity.
Qed.
End Init.

Lemma tridiag_from_eq l : forall n s, tridiag_from n l s =
  Par (datas s) (subd s ++ combine l (n :: l)) (diag s ++ squares l) (supd s ++ combine (n :: l) l)
      (dfac s ++ squares l) (ufac s ++ squares l) (ldl s ++ l) (rhs s) (total s).
Proof.
  induction l as [|m l IH]; intros n s.
  - destruct s; cbn. now rewrite !app_nil_r.
  - cbn [tridiag_from]. rewrite IH. cbn. now rewrite <- !app_assoc.
Qed.

(** initialize on emptied vectors, whatever rhsDims_ and the right-hand sides were before *)
Lemma initialize_right p nt r0 t0 : 2 <= nt <= length (stages p) -> fits_nat (horizon p) nt ->
  initialize p nt (Par [] [] [] [] [] [] [] r0 t0) = Some (right_sizes p nt).
Proof.
  intros H F. unfold initialize, horizon in *. cbn [datas subd diag supd dfac ufac ldl].
  assert (H1 : 0 < length (stages p)) by lia.
  pose proof (legs_from p nt H1 H F nt 0 eq_refl) as L.
  rewrite cut_0 in L. cbn [done seq map concat app skipn] in L.
  unfold done in L. cbn [seq map concat app] in L. rewrite L.
  rewrite rhs_right by auto.
  unfold tridiag, right_sizes. cbn [rhs].
  unfold blocks at 1. cbv iota. rewrite tridiag_from_eq. reflexivity.
Qed.

(** clearing the parameters *)
Definition same_but_nth (a b : dims) : Prop := add_par 0 a = add_par 0 b.
Lemma clear_right p nt : 2 <= nt <= length (stages p) ->
  add_par_all 0 (fst (right_sizes p nt)) = add_par_all 0 p.
Proof.
  intros H. unfold add_par_all, right_sizes. cbn [fst stages G0 g0]. f_equal.
  apply concat_legs; [lia | lia | reflexivity].
Qed.
Lemma clear_cycled p d : add_par_all 0 (cycled p d) = cycled (add_par_all 0 p) (add_par 0 d).
Proof.
  destruct p as [[|a t] G g]; [reflexivity|]. unfold add_par_all, cycled. cbn. f_equal.
  rewrite map_app. cbn. f_equal.
  - induction t as [|b t IH]; [reflexivity|]. destruct t; [reflexivity|]. cbn in *. now rewrite IH.
  - f_equal. f_equal. clear. revert a. induction t as [|b t IH]; intros a; [reflexivity|].
    destruct t; [reflexivity|]. cbn in *. apply (IH a).
Qed.
Lemma cycled_length p d : 2 <= length (stages p) -> length (stages (cycled p d)) = length (stages p).
Proof.
  destruct p as [[|a t] G g]; cbn; [lia|]. intros H. rewrite app_length. cbn.
  destruct t as [|b t]; [cbn in H; lia|]. rewrite removelast_firstn_len, firstn_length. cbn. lia.
Qed.
Lemma clear_length p : length (stages (add_par_all 0 p)) = length (stages p).
Proof. apply map_length. Qed.

(** ** C72 *)
(** The constructor: every stage gets exactly one factor, of the size of its parameterised knot,
    and the buffers of the condensed system have the sizes [blocks]. *)
Theorem C72_construct_partial p nt : nt <= length (stages p) -> fits_nat (horizon p) nt ->
  construct p nt = if nt <? 2 then None else Some (right_sizes p nt).
Proof.
  intros H F. unfold construct. destruct (Nat.ltb_spec nt 2); [reflexivity|].
  apply initialize_right; auto.
Qed.
(** what the knots are afterwards: those of the problem, but for the number of parameters *)
Theorem C72_knots p nt : 2 <= nt <= length (stages p) ->
  Forall2 same_but_nth (stages (fst (right_sizes p nt))) (stages p) /\
  datas (snd (right_sizes p nt)) = stages (fst (right_sizes p nt)).
Proof.
  intros H. split; [|reflexivity].
  pose proof (f_equal stages (clear_right p nt H)) as E. cbn [add_par_all stages] in E.
  revert E. generalize (stages (fst (right_sizes p nt))) (stages p). clear.
  induction l as [|a l IH]; intros [|b l'] E; try discriminate; constructor.
  - exact (f_equal (hd (add_par 0 a)) E).
  - apply IH. exact (f_equal (@tl _) E).
Qed.
(** After any number of cycles, with any knots, from any state of the solver and with any
    parameters left in the knots, problem and solver are those of a new solver on the same
    problem without parameters. *)
Theorem C72_cycles p nt s d ds : 2 <= nt <= length (stages p) -> fits_nat (horizon p) nt ->
  cycles nt (d :: ds) p s = construct (fold_left cycled (map (add_par 0) (d :: ds)) (add_par_all 0 p)) nt.
Proof.
  intros H F. cbn [map fold_left]. revert p s d H F.
  induction ds as [|e ds IH]; intros p s d H F; cbn [cycles].
  - unfold cycle_append. rewrite clear_cycled.
    assert (L : length (stages (cycled (add_par_all 0 p) (add_par 0 d))) = length (stages p))
      by (rewrite cycled_length; rewrite clear_length; lia).
    unfold horizon in F.
    rewrite initialize_right by (unfold horizon; rewrite L; auto).
    cbn [map fold_left]. rewrite C72_construct_partial by (unfold horizon; rewrite L; auto; lia).
    destruct (Nat.ltb_spec nt 2); [lia|]. now destruct (right_sizes _ _).
  - unfold cycle_append at 1. rewrite clear_cycled.
    set (q := cycled (add_par_all 0 p) (add_par 0 d)).
    assert (L : length (stages q) = length (stages p))
      by (unfold q; rewrite cycled_length; rewrite clear_length; lia).
    unfold horizon in F.
    rewrite initialize_right by (unfold horizon; rewrite L; auto).
    pose proof (clear_right q nt) as C. rewrite L in C. specialize (C H).
    destruct (right_sizes q nt) as [p' s'] eqn:E. cbn [fst] in C.
    assert (L' : length (stages p') = length (stages p))
      by (rewrite <- (clear_length p'), C, clear_length; exact L).
    specialize (IH p' s' e). cbn [cycles] in IH.
    rewrite IH by (unfold horizon; rewrite L'; auto).
    cbn [map fold_left]. rewrite C.
    replace (add_par_all 0 q) with q; [reflexivity|].
    unfold q. rewrite <- clear_cycled. unfold add_par_all. cbn [stages G0 g0]. now rewrite map_map.
Qed.

(** More threads than stages: the constructor reads stages[4294967295]. *)
Theorem C72_threads_refuted p nt : length (stages p) < nt -> fits_nat (horizon p) nt -> construct p nt = None.
Proof.
  intros H F. unfold construct. destruct (nt <? 2); [reflexivity|].
  unfold initialize. destruct nt as [|nt]; [lia|]. cbn [seq foldo].
  destruct (work_cuts (horizon p) (S nt) 0 F) as [_ ->]; [lia|].
  destruct (stages p) as [|a l] eqn:S.
  - unfold allocate_leg. rewrite ?S. cbn [fst].
    destruct (_ =? 0); [reflexivity|]. now destruct (_ - 1).
  - assert (E : cut (horizon p) (Datatypes.S nt) (0 + 1) = 0).
    { unfold cut. apply Nat.div_small. unfold horizon. rewrite S. cbn [length] in *. lia. }
    rewrite E. reflexivity.
Qed.
(** A problem which already has been given to a solver with at most as many threads, in
    particular to the same solver, is as good as new. *)
Lemma cut_last N nt nt' : 0 < nt -> nt <= nt' -> cut N nt (nt - 1) <= cut N nt' (nt' - 1).
Proof.
  intros H L. unfold cut. apply Nat.div_le_lower_bound; [lia|].
  pose proof (Nat.mul_div_le ((nt - 1) * (N + 1)) nt ltac:(lia)) as E.
  set (q := (nt - 1) * (N + 1) / nt) in *. set (M := N + 1) in *.
  rewrite Nat.mul_sub_distr_r in E |- *. rewrite Nat.mul_1_l in E |- *.
  assert (q <= M) by nia. nia.
Qed.
Lemma knots_again p nt nt' : 2 <= nt <= nt' -> nt' <= length (stages p) ->
  all_knots (all_knots (stages p) nt) nt' = all_knots (stages p) nt'.
Proof.
  intros H L. unfold all_knots at 1 3. f_equal. apply map_ext_in. intros i I. apply in_seq in I.
  assert (A : length (all_knots (stages p) nt) = length (stages p)) by (apply all_length; lia).
  unfold leg_knots. rewrite A. set (N := length (stages p) - 1).
  destruct (Nat.eqb_spec i (nt' - 1)) as [E|E].
  - assert (C : cut N nt (nt - 1) <= cut N nt' i) by (subst i; apply cut_last; lia).
    f_equal.
    assert (D : all_knots (stages p) nt = done p nt (nt - 1) ++ skipn (cut N nt (nt - 1)) (stages p)).
    { unfold all_knots. replace nt with (S (nt - 1)) at 2 by lia. fold (done p nt (S (nt - 1))).
      rewrite done_S. f_equal. unfold leg_knots. fold N. rewrite Nat.eqb_refl.
      replace (nt - 1 + 1) with nt by lia. apply firstn_all2. rewrite skipn_length, cut_all by lia. lia. }
    rewrite D, skipn_app, done_length by lia. fold N.
    rewrite skipn_all2 by (rewrite done_length by lia; exact C).
    rewrite skipn_skipn'. cbn [app]. f_equal. lia.
  - set (d0 := Dims 0 0 0 0 0).
    assert (X : nx2 (List.nth (cut N nt' (i + 1) - 1) (all_knots (stages p) nt) d0)
                = nx2 (List.nth (cut N nt' (i + 1) - 1) (stages p) d0)).
    { rewrite <- !(map_nth nx2). f_equal. apply concat_legs; [lia | lia | reflexivity]. }
    rewrite X. generalize (nx2 (List.nth (cut N nt' (i + 1) - 1) (stages p) d0)). intros k.
    rewrite <- !firstn_map, <- !skipn_map. f_equal. f_equal.
    apply concat_legs; [lia | lia | reflexivity].
Qed.
Theorem C72_again p nt nt' : 2 <= nt <= nt' -> nt' <= length (stages p) -> fits_nat (horizon p) nt' ->
  construct (fst (right_sizes p nt)) nt' = construct p nt'.
Proof.
  intros H L F.
  assert (A : length (stages (fst (right_sizes p nt))) = length (stages p)) by (apply all_length; lia).
  rewrite !C72_construct_partial by (unfold horizon in *; rewrite ?A; auto).
  destruct (nt' <? 2); [reflexivity|]. f_equal.
  assert (B : blocks (fst (g0 p)) (all_knots (stages p) nt) nt' = blocks (fst (g0 p)) (stages p) nt').
  { unfold blocks. cbn [right_sizes fst stages] in A. rewrite A.
    assert (X : forall t, nx (List.nth t (all_knots (stages p) nt) (Dims 0 0 0 0 0)) = nx (List.nth t (stages p) (Dims 0 0 0 0 0))).
    { intros t. rewrite <- !(map_nth nx). f_equal. apply concat_legs; [lia | lia | reflexivity]. }
    rewrite X. f_equal. f_equal. f_equal. apply map_ext. intros i. now rewrite !X. }
  unfold right_sizes. cbn [fst stages g0 G0]. now rewrite B, knots_again by lia.
Qed.
(** A second solver, with fewer threads, on a problem which already has been given to a
    solver: knots of the last leg keep the parameters of the first. *)
Definition knot (n : nat) : dims := Dims n 1 0 n 0.
Definition prob4 : lqp := Lqp [knot 2; knot 2; knot 2; knot 2] (2, 2) (2, 1).
Theorem C72_reuse_refuted :
  (exists p1 s1, construct prob4 4 = Some (p1, s1) /\
   match construct p1 2, construct prob4 2 with
   | Some (_, s), Some (_, s') => map nth (datas s) = [2; 2; 2; 0] /\ map nth (datas s') = [2; 2; 0; 0]
   | _, _ => False
   end).
Proof. eexists _, _. split; [vm_compute; reflexivity|]. vm_compute. split; reflexivity. Qed.
(** Example: five stages of two sizes, two legs, and one cycle *)
Definition prob5 : lqp :=
  Lqp [Dims 2 1 0 2 0; Dims 2 1 1 3 0; Dims 3 2 0 3 0; Dims 3 1 0 3 0; Dims 3 0 2 3 0] (2, 2) (2, 1).
Example C72_example :
  match construct prob5 2 with
  | Some (p, s) => map nth (datas s) = [3; 3; 0; 0; 0] /\ rhs s = [2; 2; 2; 2] /\
      match cycles 2 [Dims 3 4 0 3 7] p s with
      | Some (_, s') => map nth (datas s') = [3; 3; 0; 0; 0] /\ map nu (datas s') = [1; 2; 1; 4; 0] /\
                        rhs s' = [2; 2; 2; 3] /\ supd s' = [(2, 2); (2, 2); (2, 3)] /\ length (diag s') = 4
      | None => False
      end
  | None => False
  end.
Proof. vm_compute. repeat split. Qed.
