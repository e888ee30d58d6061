From Coq Require Import QArith List Bool Arith Lia Lqa.
From Verif Require Import FilterModel.
Import ListNotations.
Local Open Scope Q_scope.

(** ** Specification *)
(** [a] is at least as good as [b] in both coordinates. *)
Definition dominates (a b : pair_t) : Prop := fst a <= fst b /\ snd a <= snd b.
(** No stored pair (at another position) dominates another one. *)
Definition antichain (l : list pair_t) : Prop :=
  forall i j a b, nth_error l i = Some a -> nth_error l j = Some b -> i <> j ->
    ~ dominates a b.
Definition no_margin (o : op) : Prop :=
  match o with Submit _ => True | Reset b _ _ => b == 0 end.
(** History of acceptances since the last reset. *)
Fixpoint accepted (F : filter) (ops : list op) (acc : list pair_t) : list pair_t :=
  match ops with
  | [] => acc
  | Reset b am n :: r => accepted (step F (Reset b am n)) r []
  | Submit f :: r =>
      accepted (step F (Submit f)) r
        (if fst (accept_pair F f) then acc ++ [f] else acc)
  end.

(** ** Basic facts *)
Lemma rejects_spec b el f : rejects b el f = true <->
  fst el + b * snd el <= fst f /\ snd el + b * snd el <= snd f.
Proof. unfold rejects. rewrite andb_true_iff, !Qle_bool_iff. tauto. Qed.
Lemma erased_spec f el : erased_by f el = true <-> dominates f el.
Proof. unfold erased_by, dominates. rewrite andb_true_iff, !Qle_bool_iff. tauto. Qed.

Lemma dominates_refl a : dominates a a.
Proof. split; apply Qle_refl. Qed.
Lemma dominates_trans a b c : dominates a b -> dominates b c -> dominates a c.
Proof. intros [A B] [C D]; split; eapply Qle_trans; eauto. Qed.

Lemma accept_cases F f :
  (accept_pair F f = (false, F) /\
     exists el, In el (filter_pairs F) /\
       fst el + beta F * snd el <= fst f /\ snd el + beta F * snd el <= snd f) \/
  (accept_pair F f =
     (true, Filter (List.filter (fun el => negb (erased_by f el)) (filter_pairs F) ++ [f])
                (beta F) (alpha_min F) (max_num_steps F)) /\
     forall el, In el (filter_pairs F) ->
       ~ (fst el + beta F * snd el <= fst f /\ snd el + beta F * snd el <= snd f)).
Proof.
  unfold accept_pair. destruct (existsb _ _) eqn:E.
  - left. split; auto. apply existsb_exists in E. destruct E as (el & Hin & H).
    exists el. split; auto. now apply rejects_spec.
  - right. split; auto. intros el Hin H. apply rejects_spec in H.
    assert (existsb (fun el => rejects (beta F) el f) (filter_pairs F) = true)
      by (apply existsb_exists; eauto).
    congruence.
Qed.

(** antichain as ForallOrdPairs-like inductive *)
Lemma antichain_filter p l : antichain l -> antichain (List.filter p l).
Proof.
  unfold antichain. induction l as [|x l IH]; intros H; simpl; auto.
  assert (HI : antichain (List.filter p l)).
  { refine (IH _). intros i j a b Hi Hj Hij.
    refine (H (S i) (S j) a b Hi Hj _). congruence. }
  destruct (p x); auto.
  intros [|i] [|j] a b Hi Hj Hij; simpl in *; try congruence.
  - inversion Hi; subst. apply nth_error_In, filter_In in Hj. destruct Hj as [Hj _].
    apply In_nth_error in Hj. destruct Hj as [k Hk].
    apply (H 0%nat (S k)); simpl; auto.
  - inversion Hj; subst. apply nth_error_In, filter_In in Hi. destruct Hi as [Hi _].
    apply In_nth_error in Hi. destruct Hi as [k Hk].
    apply (H (S k) 0%nat); simpl; auto.
  - eapply HI; eauto.
Qed.

Lemma antichain_snoc l f : antichain l ->
  (forall a, In a l -> ~ dominates a f /\ ~ dominates f a) -> antichain (l ++ [f]).
Proof.
  intros H Hf i j a b Hi Hj Hij.
  assert (Hlen : forall k x, nth_error (l ++ [f]) k = Some x ->
            (nth_error l k = Some x /\ (k < length l)%nat) \/ (k = length l /\ x = f)).
  { intros k x Hk. destruct (Nat.lt_ge_cases k (length l)) as [L|L].
    - left. split; auto. now rewrite nth_error_app1 in Hk.
    - right. rewrite nth_error_app2 in Hk by auto.
      destruct (k - length l)%nat as [|m] eqn:E.
      + simpl in Hk. inversion Hk. split; [lia|auto].
      + simpl in Hk. destruct m; discriminate. }
  destruct (Hlen i a Hi) as [[Ha _]|[Ha1 ->]];
    destruct (Hlen j b Hj) as [[Hb _]|[Hb1 ->]].
  - eapply H; eauto.
  - apply nth_error_In in Ha. apply (Hf _ Ha).
  - apply nth_error_In in Hb. apply (Hf _ Hb).
  - congruence.
Qed.

Lemma accept_antichain F f : beta F == 0 -> antichain (filter_pairs F) ->
  antichain (filter_pairs (snd (accept_pair F f))).
Proof.
  intros Hb H. destruct (accept_cases F f) as [[E _]|[E Hno]]; rewrite E; simpl; auto.
  apply antichain_snoc; [now apply antichain_filter|].
  intros a Ha. apply filter_In in Ha. destruct Ha as [Ha He].
  split.
  - intros [D1 D2]. apply (Hno a Ha). rewrite Hb. split; lra.
  - intros D. apply erased_spec in D. rewrite D in He. discriminate.
Qed.

Lemma accept_keeps_beta F f : beta (snd (accept_pair F f)) = beta F.
Proof. destruct (accept_cases F f) as [[E _]|[E _]]; rewrite E; auto. Qed.

Lemma exec_antichain ops : forall F, beta F == 0 -> antichain (filter_pairs F) ->
  Forall no_margin ops -> antichain (filter_pairs (exec F ops)).
Proof.
  induction ops as [|o ops IH]; intros F Hb Ha Ho; simpl; auto.
  inversion Ho; subst. unfold exec in *. simpl.
  destruct o as [f|b am n]; apply IH; auto; simpl.
  - now rewrite accept_keeps_beta.
  - now apply accept_antichain.
  - intros [|i] j a b' Hi; discriminate.
Qed.

(** coverage of the accepted history *)
Lemma accept_covers F f g :
  (exists h, In h (filter_pairs F) /\ dominates h g) ->
  exists h, In h (filter_pairs (snd (accept_pair F f))) /\ dominates h g.
Proof.
  intros (h & Hin & Hd). destruct (accept_cases F f) as [[E _]|[E _]]; rewrite E; simpl.
  - exists h; auto.
  - destruct (erased_by f h) eqn:Ee.
    + exists f. split; [apply in_or_app; right; simpl; auto|].
      apply erased_spec in Ee. eapply dominates_trans; eauto.
    + exists h. split; auto. apply in_or_app; left. apply filter_In. now rewrite Ee.
Qed.

Lemma exec_covers ops : forall F acc,
  (forall g, In g acc -> exists h, In h (filter_pairs F) /\ dominates h g) ->
  forall g, In g (accepted F ops acc) ->
    exists h, In h (filter_pairs (exec F ops)) /\ dominates h g.
Proof.
  induction ops as [|[f|b am n] ops IH]; intros F acc Hacc g Hg; simpl in *; auto.
  - apply (IH (snd (accept_pair F f))
             (if fst (accept_pair F f) then acc ++ [f] else acc)); auto.
    clear Hg g. intros g Hg.
    destruct (fst (accept_pair F f)) eqn:E.
    + apply in_app_or in Hg. destruct Hg as [Hg|[->|[]]].
      * apply accept_covers; auto.
      * exists g. split; [|apply dominates_refl].
        destruct (accept_cases F g) as [[E' _]|[E' _]]; rewrite E' in *; simpl in *;
          [discriminate|]. apply in_or_app; right; simpl; auto.
    + apply accept_covers; auto.
  - apply (IH _ []); auto. intros ? [].
Qed.

(** ** Line search *)
Definition halved (k : nat) : Q := Nat.iter k (fun a => a * (1 # 2)) 1.

Lemma iter_succ_r {A} n (f : A -> A) x : Nat.iter (S n) f x = Nat.iter n f (f x).
Proof. induction n as [|n IH]; [reflexivity|]. simpl in *. now rewrite IH. Qed.
Lemma iter_add' {A} n m (f : A -> A) x :
  Nat.iter n f (Nat.iter m f x) = Nat.iter (n + m) f x.
Proof. induction n as [|n IH]; [reflexivity|]. simpl. now rewrite IH. Qed.

Lemma halved_pos k : 0 < halved k.
Proof. induction k; simpl; [reflexivity|]. change (0 < halved k * (1#2)). lra. Qed.
Lemma halved_le k : halved k <= 1.
Proof.
  induction k; simpl; [lra|]. pose proof (halved_pos k).
  change (halved k * (1#2) <= 1). lra.
Qed.

Section RunProofs.
  Variable phi : Q -> option pair_t.

  Lemma first_loop_spec fuel am : forall k a fp,
    first_loop phi fuel am (halved k) = Some (a, fp) -> am < halved k ->
    (exists j, (k <= j)%nat /\ a = halved j /\ am < a /\ phi a = Some fp /\
        forall i, (k <= i < j)%nat -> phi (halved i) = None) \/
    (a = am /\ fp = (0, 0) /\
       forall i, (k <= i)%nat -> am < halved i -> phi (halved i) = None).
  Proof.
    induction fuel as [|n IH]; intros k a fp H Hk; simpl in H; [discriminate|].
    destruct (phi (halved k)) as [p|] eqn:E.
    - inversion H; subst. left. exists k. repeat split; auto. intros; lia.
    - destruct (Qle_bool (halved k * (1#2)) am) eqn:L.
      + inversion H; subst. right. repeat split; auto.
        intros i Hi Hlt. destruct (Nat.eq_dec i k) as [->|]; auto.
        exfalso. apply Qle_bool_iff in L.
        assert (M : forall j, (S k <= j)%nat -> halved j <= halved (S k)).
        { intros j Hj. induction Hj as [|j Hj IHj]; [apply Qle_refl|].
          pose proof (halved_pos j). change (halved j * (1#2) <= halved (S k)). lra. }
        specialize (M i ltac:(lia)). change (halved (S k)) with (halved k * (1#2)) in M. lra.
      + assert (am < halved (S k)).
        { change (halved (S k)) with (halved k * (1#2)). apply Qnot_le_lt. intro C.
          apply Qle_bool_iff in C. congruence. }
        destruct (IH (S k) a fp H H0) as [(j & Hj & Ha & Hlt & Hp & Hno)|(Ha & Hf & Hno)].
        * left. exists j. repeat split; auto; try lia. intros i Hi.
          destruct (Nat.eq_dec i k) as [->|]; auto. apply Hno; lia.
        * right. repeat split; auto. intros i Hi Hlt.
          destruct (Nat.eq_dec i k) as [->|]; auto. apply Hno; auto; lia.
  Qed.

  (** Rejected pairs leave the filter unchanged, so the filter returned is the
      initial one unless the last pair was accepted. *)
  Lemma second_loop_spec F0 n : forall j v a F' fp,
    0 < alpha_min F0 ->
    (alpha_min F0 < j \/ j = alpha_min F0) -> j <= 1 ->
    second_loop phi n F0 j fp = Returned v a F' ->
    exists fp', v = fst fp' /\
      (a = alpha_min F0 \/ alpha_min F0 < a) /\ a <= j /\
      ((fp' = fp /\ a = j) \/ phi a = Some fp') /\
      ((accept_pair F0 fp' = (true, F')) \/
       (F' = F0 /\ (a = alpha_min F0 \/
          (* budget exhausted *)
          a = Nat.iter n (fun x => x * (1#2)) j))).
  Proof.
    induction n as [|n IH]; intros j v a F' fp Hpos Hj Hj1 H; cbn [second_loop] in H.
    - inversion H; subst. exists fp. repeat split; auto.
      + destruct Hj; auto.
      + apply Qle_refl.
    - destruct (accept_pair F0 fp) as [ok F1] eqn:E.
      destruct ok.
      + inversion H; subst. exists fp. repeat split; auto.
        * destruct Hj; auto.
        * apply Qle_refl.
      + assert (F1 = F0) as ->.
        { destruct (accept_cases F0 fp) as [[E' _]|[E' _]]; rewrite E' in E; congruence. }
        destruct (Qle_bool (j * (1#2)) (alpha_min F0)) eqn:L.
        * destruct (phi (alpha_min F0)) as [fp'|] eqn:P; [|discriminate].
          inversion H; subst. exists fp'. repeat split; auto.
          destruct Hj as [Hj|Hj]; [lra|rewrite Hj; apply Qle_refl].
        * assert (alpha_min F0 < j * (1#2)).
          { apply Qnot_le_lt. intro C. apply Qle_bool_iff in C. congruence. }
          destruct (phi (j * (1#2))) as [fp'|] eqn:P; [|discriminate].
          destruct (IH (j * (1#2)) v a F' fp') as (fq & Hv & Ha & Hle & Hm & Hacc); auto.
          { lra. }
          exists fq. repeat split; auto.
          -- lra.
          -- destruct Hm as [[-> ->]|Hm]; auto.
          -- destruct Hacc as [Hacc|[-> [Hacc|Hacc]]]; auto.
             right. split; auto. right. rewrite Hacc.
             symmetry; exact (iter_succ_r n (fun x => x * (1 # 2)) j).
  Qed.

  (** raising pattern for which no step was ever evaluated *)
  Definition never_evaluated (am : Q) : Prop :=
    forall i, am < halved i -> phi (halved i) = None.

  Lemma run_spec fuel F v a F' :
    0 < alpha_min F -> alpha_min F < 1 ->
    run phi fuel F = Returned v a F' ->
    (alpha_min F <= a /\ a <= 1) /\
    ((exists fp, phi a = Some fp /\ v = fst fp /\
        (accept_pair F fp = (true, F') \/
         (F' = F /\ (a = alpha_min F \/
            exists i, a = halved i /\ (max_num_steps F <= i)%nat)))) \/
     never_evaluated (alpha_min F)).
  Proof.
    intros Hpos Hlt H. unfold run in H.
    destruct (first_loop phi fuel (alpha_min F) 1) as [[j fp]|] eqn:E1; [|discriminate].
    change 1 with (halved 0) in E1.
    destruct (first_loop_spec fuel _ _ _ _ E1 Hlt)
      as [(i & _ & Hj & Hjlt & Hp & _)|(Hj & Hf & Hno)].
    - assert (Hj1 : j <= 1) by (subst; apply halved_le).
      destruct (second_loop_spec F _ j v a F' fp Hpos (or_introl Hjlt) Hj1 H)
        as (fp' & Hv & Ha & Hle & Hm & Hacc).
      split; [split; [destruct Ha as [->|]; [apply Qle_refl|lra]|lra]|].
      left. exists fp'. split; [|split; auto].
      + destruct Hm as [[-> ->]|Hm]; auto.
      + destruct Hacc as [|[-> [|]]]; auto. right. split; auto. right.
        exists (max_num_steps F + i)%nat. split; [|lia].
        rewrite H0, Hj. unfold halved. exact (iter_add' _ _ _ _).
    - assert (Hj1 : j <= 1) by (subst; lra).
      destruct (second_loop_spec F _ j v a F' fp Hpos (or_intror Hj) Hj1 H)
        as (fp' & Hv & Ha & Hle & Hm & Hacc).
      split; [split; [destruct Ha as [->|]; [apply Qle_refl|lra]|lra]|].
      right. intros i Hi. apply Hno; auto. lia.
  Qed.

  (** termination: some fuel suffices *)
  Lemma halved_small am : 0 < am -> exists k, halved k <= am.
  Proof.
    intros H.
    assert (B : forall k, halved k * inject_Z (Z.of_nat (S k)) <= 1).
    { induction k as [|k IHk]; [vm_compute; discriminate|].
      change (halved (S k)) with (halved k * (1#2)).
      pose proof (halved_pos k).
      rewrite (Nat2Z.inj_succ (S k)). unfold Z.succ. rewrite inject_Z_plus.
      assert (1 <= inject_Z (Z.of_nat (S k))).
      { change 1 with (inject_Z 1). rewrite <- Zle_Qle. lia. }
      change (inject_Z 1) with 1. set (x := inject_Z (Z.of_nat (S k))) in *.
      clearbody x. nra. }
    destruct am as [n d]. exists (Pos.to_nat d).
    specialize (B (Pos.to_nat d)). pose proof (halved_pos (Pos.to_nat d)).
    assert (E : (n # d) == inject_Z n / inject_Z (Zpos d)).
    { apply Qmake_Qdiv. }
    assert (1 <= inject_Z n).
    { change 1 with (inject_Z 1). rewrite <- Zle_Qle.
      unfold Qlt in H. simpl in H. lia. }
    rewrite E.
    assert (D : 0 < inject_Z (Zpos d)).
    { change 0 with (inject_Z 0). rewrite <- Zlt_Qlt. lia. }
    apply Qle_shift_div_l; auto.
    rewrite Nat2Z.inj_succ, positive_nat_Z in B. unfold Z.succ in B.
    rewrite inject_Z_plus in B. change (inject_Z 1) with 1 in B.
    set (x := inject_Z (Zpos d)) in *. clearbody x.
    set (h := halved (Pos.to_nat d)) in *. clearbody h.
    set (y := inject_Z n) in *. clearbody y. nra.
  Qed.

  Lemma first_loop_total am : 0 < am ->
    exists N, forall fuel, (N <= fuel)%nat -> first_loop phi fuel am 1 <> None.
  Proof.
    intros H. destruct (halved_small am H) as [N HN].
    exists (S N).
    assert (G : forall m fuel k, (m + k = N)%nat -> (S m <= fuel)%nat ->
              first_loop phi fuel am (halved k) <> None).
    { induction m as [|m IH]; intros [|fuel] k Hk Hf; try lia; cbn [first_loop].
      - destruct (phi (halved k)); [discriminate|].
        replace (Qle_bool (halved k * (1#2)) am) with true; [discriminate|].
        symmetry. apply Qle_bool_iff. pose proof (halved_pos k).
        simpl in Hk. subst k. lra.
      - destruct (phi (halved k)); [discriminate|].
        destruct (Qle_bool _ _); [discriminate|].
        apply (IH fuel (S k)); lia. }
    intros fuel Hf. apply (G N fuel 0%nat); lia.
  Qed.

  Lemma second_loop_fuel n : forall G a fp, second_loop phi n G a fp <> NoFuel.
  Proof.
    induction n as [|n IH]; intros G a fp; cbn [second_loop]; [discriminate|].
    destruct (accept_pair G fp) as [[] G']; [discriminate|].
    destruct (Qle_bool _ _).
    - destruct (phi _); discriminate.
    - destruct (phi _); [apply IH|discriminate].
  Qed.

  Lemma run_terminates F : 0 < alpha_min F ->
    exists N, forall fuel, (N <= fuel)%nat -> run phi fuel F <> NoFuel.
  Proof.
    intros H. destruct (first_loop_total _ H) as [N HN]. exists N. intros fuel Hf.
    unfold run. specialize (HN fuel Hf).
    destruct (first_loop phi fuel (alpha_min F) 1) as [[a fp]|]; [|congruence].
    apply second_loop_fuel.
  Qed.
End RunProofs.

(** Finding: if every trial step raises, the search returns the value 0 that
    was never evaluated, and stores the fictitious pair (0,0) in the filter. *)
Lemma run_unevaluated :
  exists F v a F', 0 < alpha_min F /\
    run (fun _ => None) 100 F = Returned v a F' /\
    In (0, 0) (filter_pairs F') /\ v = 0 /\ filter_pairs F = [].
Proof.
  exists (new_filter 0 (1 # 1024) 20). eexists. eexists. eexists.
  split; [reflexivity|]. split; [vm_compute; reflexivity|].
  split; [simpl; auto|]. auto.
Qed.

(** Finding: with a positive margin the filter is not an antichain. *)
Lemma margin_breaks_antichain :
  exists ops F, F = exec (new_filter 1 (1#100) 20) ops /\
    ~ antichain (filter_pairs F).
Proof.
  exists [Submit (1, 1); Submit ((3#2), (3#2))]. eexists. split; [reflexivity|].
  intros H. apply (H 0%nat 1%nat (1,1) ((3#2),(3#2))); try reflexivity; [discriminate|].
  split; simpl; lra.
Qed.
