(** C62, receding horizon: cycleProblem keeps the sizes of the buffers. *)
From Coq Require Import List Arith Bool Lia.
From Verif Require Import ShapeModel P_shape.
Import ListNotations.

(** ** Programs whose statements each touch one vector *)
Definition value := (nat * (nat -> nat * nat))%type.
Definition on (b : buf) (o : op) : bool :=
  match tgt o with Some b' => buf_beq b' b | None => false end.
Definition local (o : op) : Prop :=
  match o with
  | Put _ _ (Lit _ _) | Rot _ _ _ | Resize _ _ => True
  | Put b _ (Buf b' _) => b = b'
  | Chk c => c = true
  | _ => False
  end.
Definition step1 (v : value) (o : op) : option value :=
  match o with
  | Put _ i (Lit r c) =>
      if i <? fst v then Some (fst v, fun j => if i =? j then (r, c) else snd v j) else None
  | Put _ i (Buf _ k) =>
      if k <? fst v then
        if i <? fst v then Some (fst v, fun j => if i =? j then snd v k else snd v j) else None
      else None
  | Resize _ k => Some (k, fun j => if j <? fst v then snd v j else (0, 1))
  | Rot _ h t =>
      if h + 1 + t <=? fst v
      then Some (fst v, fun i =>
             if (i <? h) || (fst v - t <=? i) then snd v i
             else if S i =? fst v - t then snd v h else snd v (S i))
      else None
  | _ => None
  end.
Fixpoint run1 (l : list op) (v : value) : option value :=
  match l with
  | [] => Some v
  | o :: l => match step1 v o with Some v' => run1 l v' | None => None end
  end.

Lemma local_step m o b : local o -> tgt o = Some b ->
  step m o = match step1 (m b) o with Some v => Some (put m b v) | None => None end.
Proof.
  destruct o; simpl; try discriminate; try tauto; intros L [= ->]; auto.
  - destruct e; try tauto; simpl.
    + subst b0. unfold len, at_. destruct (i0 <? fst (m b)); auto. now destruct (i <? fst (m b)).
    + unfold len. now destruct (i <? fst (m b)).
  - unfold len. now destruct (h + 1 + t <=? fst (m b)).
Qed.

Lemma local_exec l : Forall local l -> forall m, (forall b, exists v, run1 (filter (on b) l) (m b) = Some v) ->
  exists m', exec l m = Some m' /\ forall b, run1 (filter (on b) l) (m b) = Some (m' b).
Proof.
  induction 1 as [|o l Lo Ll IH]; intros m H; simpl.
  - exists m. auto.
  - destruct (tgt o) as [b|] eqn:T.
    + assert (O : forall b', on b' o = buf_beq b b') by (intros b'; unfold on; now rewrite T).
      rewrite (local_step m o b Lo T).
      destruct (step1 (m b) o) as [v|] eqn:S1.
      * destruct (IH (put m b v)) as (m' & E1 & F1).
        { intros b'. destruct (H b') as (w & Hw). simpl in Hw. rewrite O in Hw. unfold put.
          destruct (buf_beq b b') eqn:Eb; [|eauto]. apply buf_beq_eq in Eb. subst b'. simpl in Hw.
          rewrite S1 in Hw. eauto. }
        exists m'. split; auto. intros b'. rewrite O. specialize (F1 b'). unfold put in F1.
        destruct (buf_beq b b') eqn:Eb; auto. apply buf_beq_eq in Eb. subst b'. simpl. now rewrite S1.
      * destruct (H b) as (w & Hw). simpl in Hw. rewrite O, buf_beq_refl in Hw. simpl in Hw. rewrite S1 in Hw.
        discriminate.
    + assert (O : forall b', on b' o = false) by (intros b'; unfold on; now rewrite T).
      assert (S1 : step m o = Some m).
      { destruct o; simpl in *; try discriminate; try tauto. now rewrite Lo. }
      rewrite S1. destruct (IH m) as (m' & E1 & F1).
      { intros b'. destruct (H b') as (w & Hw). simpl in Hw. rewrite O in Hw. eauto. }
      exists m'. split; auto. intros b'. rewrite O. auto.
Qed.

Lemma seg_loc l m (P : buf -> value -> Prop) : Forall local l ->
  (forall b, exists v, run1 (filter (on b) l) (m b) = Some v /\ P b v) ->
  exists m', exec l m = Some m' /\ forall b, P b (m' b).
Proof.
  intros L H. destruct (local_exec l L m) as (m' & E1 & F1).
  { intros b. destruct (H b) as (v & Hv & _). eauto. }
  exists m'. split; auto. intros b. destruct (H b) as (v & Hv & Pv). rewrite F1 in Hv. injection Hv as <-. auto.
Qed.

(** one vector at a time *)
Definition val (L : nat) (F : nat -> nat * nat) (v : value) : Prop :=
  fst v = L /\ forall i, i < L -> snd v i = F i.
Definition updF (F : nat -> nat * nat) (i : nat) (x : nat * nat) : nat -> nat * nat :=
  fun j => if i =? j then x else F j.
Definition rotF (L h t : nat) (F : nat -> nat * nat) : nat -> nat * nat :=
  fun i => if (i <? h) || (L - t <=? i) then F i else if S i =? L - t then F h else F (S i).

Lemma rl_nil L F v (Q : value -> Prop) : val L F v -> (val L F v -> Q v) -> exists w, run1 [] v = Some w /\ Q w.
Proof. intros H K. exists v. split; auto. Qed.
Lemma rl_put L F v b i r c l (Q : value -> Prop) : val L F v -> i < L ->
  (forall v', val L (updF F i (r, c)) v' -> exists w, run1 l v' = Some w /\ Q w) ->
  exists w, run1 (Put b i (Lit r c) :: l) v = Some w /\ Q w.
Proof.
  intros [H1 H2] I K. simpl. rewrite H1. replace (i <? L) with true by (symmetry; now apply Nat.ltb_lt).
  apply K. split; auto. intros j J. unfold updF. simpl. destruct (i =? j); auto.
Qed.
Lemma rl_putb L F v b b' i k l (Q : value -> Prop) : val L F v -> i < L -> k < L ->
  (forall v', val L (updF F i (F k)) v' -> exists w, run1 l v' = Some w /\ Q w) ->
  exists w, run1 (Put b i (Buf b' k) :: l) v = Some w /\ Q w.
Proof.
  intros [H1 H2] I J K. simpl. rewrite H1. replace (k <? L) with true by (symmetry; now apply Nat.ltb_lt).
  replace (i <? L) with true by (symmetry; now apply Nat.ltb_lt).
  apply K. split; auto. intros j Hj. unfold updF. simpl. destruct (i =? j); auto.
Qed.
Lemma rl_rot L F v b h t l (Q : value -> Prop) : val L F v -> h + 1 + t <= L ->
  (forall v', val L (rotF L h t F) v' -> exists w, run1 l v' = Some w /\ Q w) ->
  exists w, run1 (Rot b h t :: l) v = Some w /\ Q w.
Proof.
  intros [H1 H2] I K. cbn [run1 step1]. rewrite H1. replace (h + 1 + t <=? L) with true by (symmetry; now apply Nat.leb_le).
  apply K. split; auto. intros j J. unfold rotF. cbn [snd].
  destruct ((j <? h) || (L - t <=? j)) eqn:B; auto.
  apply orb_false_iff in B as [B1 B2]. apply Nat.ltb_ge in B1. apply Nat.leb_gt in B2.
  destruct (S j =? L - t) eqn:Ej; [apply H2; lia|]. apply Nat.eqb_neq in Ej. apply H2. lia.
Qed.
Lemma rl_res L F v b k l (Q : value -> Prop) : val L F v -> 
  (forall v', val k (fun j => if j <? L then F j else (0, 1)) v' -> exists w, run1 l v' = Some w /\ Q w) ->
  exists w, run1 (Resize b k :: l) v = Some w /\ Q w.
Proof.
  intros [H1 H2] K. cbn [run1 step1]. apply K. split; auto. intros j J. cbn [snd]. rewrite H1.
  destruct (j <? L) eqn:B; auto. apply Nat.ltb_lt in B. auto.
Qed.

(** rotation of the data of the constraints *)
Lemma for_S k f : for_ (S k) f = for_ k f ++ f k.
Proof. unfold for_. rewrite seq_S, flat_map_app. simpl. now rewrite app_nil_r. Qed.
Lemma shift_ok k m : exists m',
  exec (for_ k (fun i => [Copy (CV i) (CV (S i)); Copy (CJx i) (CJx (S i)); Copy (CJu i) (CJu (S i))])) m = Some m' /\
  (forall i, m' (CV i) = if i <? k then m (CV (S i)) else m (CV i)) /\
  (forall i, m' (CJx i) = if i <? k then m (CJx (S i)) else m (CJx i)) /\
  (forall i, m' (CJu i) = if i <? k then m (CJu (S i)) else m (CJu i)) /\
  (forall b, match b with CV _ | CJx _ | CJu _ => True | _ => m' b = m b end).
Proof.
  induction k as [|k (m1 & E1 & A1 & A2 & A3 & A4)].
  - exists m. repeat split; auto. destruct b; auto.
  - rewrite for_S, exec_app, E1. cbn [exec step]. eexists. split; [reflexivity|].
    assert (T : forall i k, S k <> k /\ (i <? S k) = if i =? k then true else i <? k).
    { intros i k'. split; [lia|]. destruct (i =? k') eqn:E; [apply Nat.eqb_eq in E; apply Nat.ltb_lt; lia|].
      apply Nat.eqb_neq in E. destruct (i <? k') eqn:F; [apply Nat.ltb_lt in F; apply Nat.ltb_lt; lia|].
      apply Nat.ltb_ge in F. apply Nat.ltb_ge. lia. }
    assert (B : forall i k', buf_beq (CV k') (CV i) = (i =? k') /\ buf_beq (CJx k') (CJx i) = (i =? k') /\
                buf_beq (CJu k') (CJu i) = (i =? k')).
    { intros i k'. destruct (i =? k') eqn:E.
      - apply Nat.eqb_eq in E. subst. now rewrite !buf_beq_refl.
      - apply Nat.eqb_neq in E.
        repeat split; match goal with |- ?x = false => destruct x eqn:F; auto; apply buf_beq_eq in F; congruence end. }
    split; [|split; [|split]].
    + intros i. rewrite 2!(put_other _ _ _ (CV i)) by congruence. unfold put at 1.
      rewrite (proj1 (B i k)), (proj2 (T i k)). destruct (i =? k) eqn:E; [|apply A1].
      apply Nat.eqb_eq in E. subst. rewrite A1. now replace (S k <? k) with false by (symmetry; apply Nat.ltb_ge; lia).
    + intros i. rewrite (put_other _ _ _ (CJx i)) by congruence. unfold put at 1.
      rewrite (proj1 (proj2 (B i k))), (proj2 (T i k)). destruct (i =? k) eqn:E.
      * apply Nat.eqb_eq in E. subst. rewrite put_other by congruence. rewrite A2.
        now replace (S k <? k) with false by (symmetry; apply Nat.ltb_ge; lia).
      * rewrite put_other by congruence. apply A2.
    + intros i. unfold put at 1.
      rewrite (proj2 (proj2 (B i k))), (proj2 (T i k)). destruct (i =? k) eqn:E.
      * apply Nat.eqb_eq in E. subst. rewrite 2!put_other by congruence. rewrite A3.
        now replace (S k <? k) with false by (symmetry; apply Nat.ltb_ge; lia).
      * rewrite 2!put_other by congruence. apply A3.
    + intros b. specialize (A4 b). destruct b; auto; now rewrite !put_other by congruence.
Qed.

(** ** One cycle *)
Section Cycle.
Variable p : prob.
Variable s : stage.
Variable ch : choice.
Notation p' := (cycled p s).
Hypothesis W : wf p.
Hypothesis W' : wf p'.
Hypothesis H2 : 2 <= N p.
Hypothesis Hx : i_x0 p <> None.
Hypothesis Hu : forall i, i < N p -> nu (st p i) = nu s.

Lemma N' : N p' = N p.
Proof.
  unfold N, cycled; simpl. rewrite app_length. unfold N in H2. destruct (stages p); simpl in *; lia.
Qed.
Lemma st_shift i : S i < N p -> st p' i = st p (S i).
Proof.
  unfold N, st, cycled; simpl. destruct (stages p) as [|x l]; simpl; [lia|].
  intros I. apply app_nth1. lia.
Qed.
Lemma st_last : st p' (N p - 1) = s.
Proof.
  unfold N, st, cycled; simpl. unfold N in H2. destruct (stages p) as [|x l]; simpl in *; [lia|].
  rewrite app_nth2 by lia. now replace (length l - 0 - length l) with 0 by lia.
Qed.
Lemma nu_new i : i < N p -> nu (st p' i) = nu s.
Proof.
  intros I. destruct (Nat.eq_dec i (N p - 1)) as [->|]; [now rewrite st_last|]. rewrite st_shift by lia. apply Hu. lia.
Qed.
Lemma U_new i : k_nu_ p' i = if i <? N p then nu s else 0.
Proof. unfold k_nu_. rewrite N'. destruct (i <? N p) eqn:B; auto. apply Nat.ltb_lt in B. now apply nu_new. Qed.
Lemma U_old i : k_nu_ p i = if i <? N p then nu s else 0.
Proof. unfold k_nu_. destruct (i <? N p) eqn:B; auto. apply Nat.ltb_lt in B. now apply Hu. Qed.
Lemma n_new : n p' = n p.
Proof. unfold n. rewrite st_shift by lia. apply ndx1_st; auto; lia. Qed.
Lemma X_new : X p' = X p.
Proof. unfold X. rewrite st_shift by lia. apply nx1_st; auto; lia. Qed.
Lemma n2_new i : n2 p' i = if i <? N p then n p else 0.
Proof. unfold n2. now rewrite N', n_new. Qed.
Lemma n2_old i : n2 p i = if i <? N p then n p else 0.
Proof. reflexivity. Qed.
Lemma L0_new i : L0 p' i = L0 p i.
Proof. unfold L0. now rewrite n_new. Qed.
Lemma L0_pos i : i <> 0 -> L0 p i = n p.
Proof. destruct i; [lia|reflexivity]. Qed.
Lemma ctr_shift i : S i < N p -> ctr p' i = ctr p (S i).
Proof.
  intros I. unfold ctr. rewrite N'. replace (i <? N p) with true by (symmetry; apply Nat.ltb_lt; lia).
  replace (S i <? N p) with true by (symmetry; apply Nat.ltb_lt; lia). now rewrite st_shift.
Qed.
Lemma ctr_end i : N p <= i -> ctr p' i = ctr p i.
Proof. intros I. unfold ctr. rewrite N'. replace (i <? N p) with false by (symmetry; apply Nat.ltb_ge; lia). reflexivity. Qed.
Lemma C_shift i : S i < N p -> ncs p (S i) = ncs p' i.
Proof. intros I. unfold ncs. now rewrite ctr_shift. Qed.
Lemma C_end : ncs p (N p) = ncs p' (N p).
Proof. unfold ncs. now rewrite ctr_end. Qed.
Lemma k_nx2_new i : k_nx2 p' i = if i <? N p then n p else 0.
Proof. rewrite knx2 by exact W'. apply n2_new. Qed.
Lemma k_nx2_old i : k_nx2 p i = if i <? N p then n p else 0.
Proof. rewrite knx2 by exact W. apply n2_old. Qed.
Lemma gr_shift i : S i < N p -> gain_rows p ch (S i) = gain_rows p' ch i.
Proof.
  intros I. unfold gain_rows. rewrite !U_new, !U_old, !k_nx2_new, !k_nx2_old, C_shift by auto.
  replace (S i <? N p) with true by (symmetry; apply Nat.ltb_lt; lia).
  replace (i <? N p) with true by (symmetry; apply Nat.ltb_lt; lia). reflexivity.
Qed.
Lemma gr_end : gain_rows p ch (N p) = gain_rows p' ch (N p).
Proof.
  unfold gain_rows. rewrite !U_new, !U_old, !k_nx2_new, !k_nx2_old, C_end. reflexivity.
Qed.

Variable g : nat.
Notation fo := (full (elen p) (esz p ch g)).
Notation fn := (full (elen p') (esz p' ch g)).

Lemma full_val el es m b : full el es m b <-> val (el b) (es b) (m b).
Proof. reflexivity. Qed.

(** when each vector gets its new sizes *)
Definition ordc (b : buf) : nat :=
  match b with
  | Rxs | Rus | Rvs | Rlams | Rgain => 1
  | CV i | CJx i | CJu i => if i =? N p - 1 then 3 else 2
  | Txs | Tus | Tvs | Tlams | Pxs | Pus | Pvs => 4
  | VsPdal | VsPlus | LamsPlus | Slack | Infeas | Shift => 5
  | KQ | KS | KR | Kq | Kr | KA | KB | Kf | KC | KD | Kd | ProjJ | Active => 6
  | Dxs | Dus | Dvs | Dlams => 7
  | Lx | Lu | Lv | CorrX | CorrU => 8
  | Qhat | Rhat | Shat | qhat | rhat | AtV | BtV | Fff | Ffb | Fkkt | Vxx | vx => 9
  | _ => 0
  end.
Definition upto (k : nat) (m : mem) : Prop := forall b, if ordc b <=? k then fn m b else fo m b.

(** vectors whose sizes do not depend on the constraints of the stages *)
Lemma same_tables b : match b with
  | Rvs | Tvs | Pvs | VsPlus | VsPdal | Infeas | Shift | Lv | Dvs | Active | Kd | Rgain | ProjJ | KC | KD
  | Fff | Ffb | Fkkt | CV _ | CJx _ | CJu _ => True
  | _ => elen p' b = elen p b /\ forall i, i < elen p b -> esz p' ch g b i = esz p ch g b i
  end.
Proof.
  destruct b; auto; (split; [cbn [elen]; now rewrite ?N'|]); intros i I; cbn [esz];
    rewrite ?X_new, ?n_new, ?U_new, ?U_old, ?n2_new, ?n2_old, ?L0_new, ?N'; try reflexivity.
Qed.

Lemma upto0 m : agree (elen p) (esz p ch g) m -> upto 0 m.
Proof.
  intros A b. destruct (ordc b <=? 0) eqn:B; [|apply A].
  pose proof (same_tables b) as S. pose proof (A b) as [A1 A2].
  destruct b; try discriminate B; try (cbn [ordc] in B; destruct (i =? _); discriminate);
    destruct S as [S1 S2]; (split; [congruence|]); intros i I; rewrite S2 by congruence; apply A2; congruence.
Qed.

Definition goodv (k : nat) (b : buf) (v : value) : Prop :=
  if ordc b <=? k then val (elen p' b) (esz p' ch g b) v else val (elen p b) (esz p ch g b) v.

Ltac bb :=
  repeat match goal with
  | H : (_ || _) = true |- _ => apply orb_true_iff in H as [H|H]
  | H : (_ || _) = false |- _ => apply orb_false_iff in H as [? ?]
  | H : (_ <? _) = true |- _ => apply Nat.ltb_lt in H
  | H : (_ <? _) = false |- _ => apply Nat.ltb_ge in H
  | H : (_ <=? _) = true |- _ => apply Nat.leb_le in H
  | H : (_ <=? _) = false |- _ => apply Nat.leb_gt in H
  | H : (_ =? _) = true |- _ => apply Nat.eqb_eq in H
  | H : (_ =? _) = false |- _ => apply Nat.eqb_neq in H
  end.
(* one vector: follow its statements *)
Ltac ln := cbn [elen]; rewrite ?N'; lia.
Ltac follow :=
  repeat match goal with
  | V : val _ _ _ |- exists w, run1 (Put _ _ (Lit _ _) :: _) _ = Some w /\ _ =>
      eapply (rl_put _ _ _ _ _ _ _ _ _ V); [ln|]; clear V; intros ? V
  | V : val _ _ _ |- exists w, run1 (Put _ _ (Buf _ _) :: _) _ = Some w /\ _ =>
      eapply (rl_putb _ _ _ _ _ _ _ _ _ V); [ln|ln|]; clear V; intros ? V
  | V : val _ _ _ |- exists w, run1 (Rot _ _ _ :: _) _ = Some w /\ _ =>
      eapply (rl_rot _ _ _ _ _ _ _ _ V); [ln|]; clear V; intros ? V
  | V : val _ _ _ |- exists w, run1 [] _ = Some w /\ _ =>
      eapply (rl_nil _ _ _ _ V); clear V; intros V
  end.
Ltac st_facts :=
  pose proof N' as EN;
  pose proof (ndx1_st p' W' (N p - 1) ltac:(rewrite N'; lia)) as Fn1;
  pose proof (ndx2_st p' W' (N p - 1) ltac:(rewrite N'; lia)) as Fn2;
  pose proof (nx1_st p' W' (N p - 1) ltac:(rewrite N'; lia)) as Fx1;
  pose proof (nx2_st p' W' (N p - 1) ltac:(rewrite N'; lia)) as Fx2;
  pose proof (kndx_st p' W' (N p - 1) ltac:(rewrite N'; lia)) as Fk1;
  pose proof (knu_st p' W' (N p - 1) ltac:(rewrite N'; lia)) as Fk2;
  pose proof (U_st p' (N p - 1) ltac:(rewrite N'; lia)) as Fu;
  pose proof (C_st p' (N p - 1) ltac:(rewrite N'; lia)) as Fc;
  pose proof (cs_st p' (N p - 1) ltac:(rewrite N'; lia)) as Fcs;
  rewrite st_last in Fn1, Fn2, Fx1, Fx2, Fk1, Fk2, Fu, Fc, Fcs.
Ltac fin :=
  split; [match goal with V : val _ _ _ |- _ => rewrite (proj1 V) end; cbn [elen]; now rewrite ?N'|];
  let j := fresh "j" in let J := fresh "J" in
  intros j J; cbn [elen] in J; rewrite ?N' in J;
  match goal with V : val _ _ _ |- _ => rewrite (proj2 V j) by ln end.

Ltac leaf :=
  unfold updF, rotF; cbn [elen];
  repeat match goal with
  | |- context [if ?c then _ else _] => let B := fresh "B" in destruct c eqn:B
  end; bb; try lia; cbn [esz].
Ltac norm1 :=
  rewrite ?X_new, ?n_new, ?N', ?U_new, ?U_old, ?n2_new, ?n2_old, ?L0_new.
Ltac decb :=
  repeat match goal with
  | |- context [Nat.ltb ?a ?b] =>
      first [replace (a <? b) with true by (symmetry; apply Nat.ltb_lt; lia)
            |replace (a <? b) with false by (symmetry; apply Nat.ltb_ge; lia)]
  end.
Ltac same_node j :=
  first [replace j with 0 in * by lia | replace j with (N p) in * by lia | replace j with (N p - 1) in * by lia | idtac].
Ltac close :=
  match goal with J : ?j < _ |- _ => same_node j end;
  rewrite ?C_shift, ?gr_shift by lia; rewrite ?C_end, ?gr_end;
  repeat match goal with F : ?a s = _ |- context [?a s] => lazymatch a with nu => fail | _ => rewrite F end end;
  rewrite ?C_T, ?(tndx p' W'); norm1; rewrite ?L0_pos by lia; decb; rewrite ?N'; try reflexivity; try congruence; try (apply f_equal2; lia).
Lemma segA m : upto 0 m -> exists m', exec (cycle_results p' ++ cycle_data1) m = Some m' /\ upto 1 m'.
Proof.
  intros A. destruct (i_x0 p) as [k|] eqn:Ek; [|tauto].
  assert (Kx : k = X p) by (apply (x0_X p W); auto).
  unfold cycle_results. change (i_x0 p') with (i_x0 p). rewrite Ek. rewrite N'.
  apply (seg_loc _ m (goodv 1)).
  { destruct (tcs p'); repeat constructor. }
  intros b. assert (V : goodv 0 b (m b)) by apply A. rewrite st_last. cbv zeta. 
  destruct b; unfold goodv in V |- *; cbn [ordc] in V |- *; 
    try (destruct (i =? N p - 1)); cbn [Nat.leb] in V |- *.
  all: destruct (tcs p') eqn:T; cbn [filter on app tgt buf_beq map cycle_data1 dyn_bufs cost_bufs]; follow; try exact V.
  all: st_facts; fin; leaf; close.
Qed.

Lemma ifN i : (i <=? N p - 1) = (i <? N p).
Proof. destruct (i <? N p) eqn:B; bb; [apply Nat.leb_le|apply Nat.leb_gt]; lia. Qed.
Ltac ordl := unfold upto, goodv in *; cbn [ordc Nat.leb] in *.

Lemma new_C i : i <> N p - 1 ->
  (elen p' (CV i) = if i <? N p - 1 then elen p (CV (S i)) else elen p (CV i)).
Proof.
  intros I. cbn [elen]. rewrite N'. destruct (i <? N p - 1) eqn:B; bb.
  - rewrite ctr_shift by lia. do 2 replace (_ <=? N p) with true by (symmetry; apply Nat.leb_le; lia). reflexivity.
  - now rewrite ctr_end by lia.
Qed.

Lemma segB m : upto 1 m -> exists m', exec (cycle_data2 p') m = Some m' /\ upto 2 m'.
Proof.
  intros A. unfold cycle_data2. rewrite N'.
  destruct (shift_ok (N p - 1) m) as (m' & E1 & A1 & A2 & A3 & A4).
  exists m'. split; auto. intros b. pose proof (A b) as V. specialize (A4 b).
  destruct b; try (unfold full, len, at_ in *; rewrite A4; exact V).
  all: cbn [ordc] in *; destruct (i =? N p - 1) eqn:Ei; cbn [Nat.leb] in *; bb.
  1,3,5: unfold full, len, at_ in *; rewrite ?A1, ?A2, ?A3;
    replace (i <? N p - 1) with false by (symmetry; apply Nat.ltb_ge; lia); exact V.
  all: pose proof (new_C i Ei) as NC; cbn [elen] in NC.
  all: unfold full, len, at_ in *; rewrite ?A1, ?A2, ?A3; cbn [elen]; rewrite NC.
  1: pose proof (A (CV (S i))) as V1. 2: pose proof (A (CJx (S i))) as V1. 3: pose proof (A (CJu (S i))) as V1.
  all: cbn [ordc] in V1; replace ((if S i =? N p - 1 then 3 else 2) <=? 1) with false in V1 by (destruct (S i =? N p - 1); reflexivity).
  all: destruct (i <? N p - 1) eqn:B; bb; (split; [first [apply V1|apply V]|]); intros j J; cbn [esz].
  all: rewrite ?ctr_shift, ?n_new by lia; rewrite ?ctr_end by lia; first [apply (proj2 V1 j J) | apply (proj2 V j J)].
Qed.

Lemma segC m : upto 2 m -> exists m', exec (cycle_data3 p') m = Some m' /\ upto 3 m'.
Proof.
  intros A. unfold cycle_data3. rewrite N', st_last. cbv zeta. rewrite exec_app.
  match goal with |- context [exec ?l m] => destruct (exec l m) as [m1|] eqn:E1; [|discriminate E1] end.
  assert (F1 : forall b, b <> CV (N p - 1) -> b <> CJx (N p - 1) -> b <> CJu (N p - 1) -> m1 b = m b).
  { intros b B1 B2 B3. eapply exec_frame; [exact E1|]. repeat constructor; cbn [tgt]; congruence. }
  rewrite exec_app.
  destruct (cstr_data_any p' ch W' g (N p - 1) m1) as (m2 & E2 & A2 & F2); [rewrite N'; lia|].
  st_facts. rewrite Fcs. replace (exec (cstr_data (N p - 1) (ctr p' (N p - 1))) m1) with (Some m2).
  assert (U2 : upto 3 m2).
  { intros b. 
    assert (D : (b = CV (N p - 1) \/ b = CJx (N p - 1) \/ b = CJu (N p - 1)) \/
                (b <> CV (N p - 1) /\ b <> CJx (N p - 1) /\ b <> CJu (N p - 1))).
    { destruct (buf_beq b (CV (N p - 1))) eqn:X1; [apply buf_beq_eq in X1; auto|].
      destruct (buf_beq b (CJx (N p - 1))) eqn:X2; [apply buf_beq_eq in X2; auto|].
      destruct (buf_beq b (CJu (N p - 1))) eqn:X3; [apply buf_beq_eq in X3; auto|].
      right. repeat split; intros ->; rewrite buf_beq_refl in *; discriminate. }
    destruct D as [D|(D1 & D2 & D3)].
    - assert (O : ordc b = 3) by (destruct D as [->|[->| ->]]; cbn [ordc]; now rewrite Nat.eqb_refl).
      rewrite O. cbn [Nat.leb]. now apply A2.
    - specialize (A b). unfold full, len, at_ in *. rewrite (F2 b D1 D2 D3), (F1 b D1 D2 D3).
      replace (ordc b <=? 3) with (ordc b <=? 2); auto.
      destruct b; auto; cbn [ordc]; destruct (i =? N p - 1) eqn:Ei; auto; bb; congruence. }
  clear A A2 F2 F1 E1 E2 m m1. rename m2 into m, U2 into A.
  unfold dyn_data, cost_data. rewrite st_last. cbv zeta.
  apply (seg_loc _ m (goodv 3)).
  { repeat constructor. }
  intros b. assert (V : goodv 3 b (m b)) by apply A.
  destruct b; unfold goodv in V |- *; cbn [ordc] in V |- *; 
    try (destruct (i =? N p - 1)); cbn [Nat.leb] in V |- *.
  all: cbn [filter on app tgt buf_beq map]; follow; try exact V.
  all: fin; leaf; close.
Qed.

Lemma segD m : upto 3 m -> exists m', exec (cycle_ws1 p') m = Some m' /\ upto 4 m'.
Proof.
  intros A. unfold cycle_ws1. rewrite N', st_last. cbv zeta.
  apply (seg_loc _ m (goodv 4)).
  { repeat constructor. apply W'. }
  intros b. assert (V : goodv 3 b (m b)) by apply A.
  destruct b; unfold goodv in V |- *; cbn [ordc] in V |- *; 
    try (destruct (i =? N p - 1)); cbn [Nat.leb] in V |- *.
  all: cbn [filter on app tgt buf_beq map]; follow; try exact V.
  all: st_facts; fin; leaf; close.
Qed.

Ltac copies A :=
  eexists; split; [reflexivity|];
  let b := fresh "b" in
  intros b; pose proof (A b) as V;
  destruct b; try exact V; cbn [ordc Nat.leb] in *;
  first [exact (A Tvs) | exact (A Tlams) | exact (A Pvs) | exact (A Dxs) | exact (A Dus) | exact (A Dvs)
        | destruct (_ =? N p - 1); exact V].
Lemma segE m : upto 4 m -> exists m', exec cycle_ws2 m = Some m' /\ upto 5 m'.
Proof. intros A. unfold cycle_ws2. cbn [exec step]. copies A. Qed.

Lemma segF m : upto 5 m -> exists m', exec (cycle_ws3 p') m = Some m' /\ upto 6 m'.
Proof.
  intros A. unfold cycle_ws3, new_knot, knot_bufs. rewrite N', st_last. cbv zeta.
  apply (seg_loc _ m (goodv 6)).
  { repeat constructor. }
  intros b. assert (V : goodv 5 b (m b)) by apply A.
  destruct b; unfold goodv in V |- *; cbn [ordc] in V |- *;
    try (destruct (i =? N p - 1)); cbn [Nat.leb] in V |- *.
  all: cbn [filter on app tgt buf_beq map]; follow; try exact V.
  all: st_facts; fin; leaf; rewrite ?(knx p' W') by lia; rewrite ?(knx2 p' W'); change (total (dims (cs s))) with (nc s); close.
Qed.

Lemma segG m : upto 6 m -> exists m', exec (lqr_init p') m = Some m' /\ upto 7 m'.
Proof.
  intros A. destruct (lqr_any p' ch W' g m (A g0)) as (m' & E1 & A1 & F1).
  exists m'. split; auto. intros b. pose proof (A b) as V.
  destruct b; try (apply A1; tauto); unfold full, len, at_ in *; rewrite F1 by congruence;
    cbn [ordc] in *; try exact V; destruct (i =? N p - 1); exact V.
Qed.

Lemma segH m : upto 7 m -> exists m', exec cycle_ws4 m = Some m' /\ upto 8 m'.
Proof. intros A. unfold cycle_ws4. cbn [exec step]. copies A. Qed.

Lemma segI m : ch <> STAGEDENSE -> upto 8 m -> exists m', exec (cycle_solver p' ch) m = Some m' /\ upto 9 m'.
Proof.
  intros Hc A. unfold cycle_solver, factor, factor_bufs. rewrite N'.
  destruct ch eqn:Ech; [| |tauto].
  - apply (seg_loc _ m (goodv 9)).
    { repeat constructor. }
    intros b. assert (V : goodv 8 b (m b)) by apply A.
    destruct b; unfold goodv in V |- *; cbn [ordc] in V |- *;
      try (destruct (i =? N p - 1)); cbn [Nat.leb] in V |- *.
    all: cbn [filter on app tgt buf_beq map]; follow; try exact V.
    all: st_facts; fin; leaf; rewrite ?(knx p' W') by lia; rewrite ?(knx2 p' W'); close.
  - rewrite exec_app.
    match goal with |- context [exec (map ?f ?l) m] =>
      destruct (exec (map f l) m) as [m1|] eqn:E1; [|discriminate E1] end.
    destruct (solver_any p' ch W' g m1) as (m2 & E2 & A2 & F2). rewrite Ech in E2.
    exists m2. split; auto. intros b. pose proof (A b) as V.
    destruct b; try (apply A2; cbn; tauto).
    all: unfold full, len, at_ in *; rewrite F2 by first [congruence | cbn [In factor_bufs];
      let H := fresh in intros H; repeat (destruct H as [H|H]; [discriminate H|]); exact H].
    all: rewrite (exec_frame _ _ _ _ E1) by (repeat constructor; cbn [tgt]; congruence).
    all: cbn [ordc] in *; try exact V; destruct (i =? N p - 1); exact V.
Qed.

Lemma dense_end m : ch = STAGEDENSE -> upto 8 m -> exists m', exec (cycle_solver p' ch) m = Some m' /\
  at_ m' Fff (N p - 1) = (gain_rows p ch 0, 1) /\ m' Kd = m Kd.
Proof.
  intros Hc A. unfold cycle_solver, factor_bufs. rewrite Hc, N'.
  destruct (seg_loc (map (fun b => Rot b 0 1) [Qhat; Rhat; Shat; qhat; rhat; AtV; BtV; Fff; Ffb; Fkkt; Vxx; vx] ++
     [Put Vxx (N p - 1) (Lit (k_nx p' (N p - 1)) (k_nx p' (N p - 1))); Put vx (N p - 1) (Lit (k_nx p' (N p - 1)) 1)]) m
    (fun b v => match b with Fff => snd v (N p - 1) = (gain_rows p ch 0, 1) | _ => True end)) as (m' & E1 & F1).
  - repeat constructor.
  - intros b. assert (V : goodv 8 b (m b)) by apply A.
    destruct b; unfold goodv in V; cbn [ordc] in V;
      try (destruct (i =? N p - 1)); cbn [Nat.leb] in V.
    all: cbn [filter on app tgt buf_beq map]; follow; auto.
    rewrite (proj2 V) by (cbn [elen]; lia). unfold rotF. cbn [elen esz].
    replace ((N p - 1 <? 0) || (S (N p) - 1 <=? N p - 1)) with false
      by (symmetry; apply orb_false_iff; split; [apply Nat.ltb_ge|apply Nat.leb_gt]; lia).
    now replace (S (N p - 1) =? S (N p) - 1) with true by (symmetry; apply Nat.eqb_eq; lia).
  - exists m'. split; auto. split; [rewrite <- Hc; exact (F1 Fff)|].
    eapply exec_frame; [exact E1|]. repeat constructor; cbn [tgt]; congruence.
Qed.

Lemma upto9 m : upto 9 m -> agree (elen p') (esz p' ch g) m.
Proof.
  intros A b. pose proof (A b) as V. destruct b; try exact V; cbn [ordc] in V; destruct (i =? N p - 1); exact V.
Qed.

Lemma cycle_to8 m : agree (elen p) (esz p ch g) m -> exists m8, upto 8 m8 /\
  exec (cycle p' ch) m = exec (cycle_solver p' ch) m8.
Proof.
  intros A. apply upto0 in A. unfold cycle.
  destruct (segA m A) as (m1 & E1 & A1). destruct (segB m1 A1) as (m2 & E2 & A2).
  destruct (segC m2 A2) as (m3 & E3 & A3). destruct (segD m3 A3) as (m4 & E4 & A4).
  destruct (segE m4 A4) as (m5 & E5 & A5). destruct (segF m5 A5) as (m6 & E6 & A6).
  destruct (segG m6 A6) as (m7 & E7 & A7). destruct (segH m7 A7) as (m8 & E8 & A8).
  exists m8. split; auto.
  rewrite app_assoc, exec_app, E1, exec_app, E2, exec_app, E3, exec_app, E4, exec_app, E5, exec_app, E6, exec_app, E7,
    exec_app, E8. reflexivity.
Qed.

Lemma cycle_ok m : ch <> STAGEDENSE -> agree (elen p) (esz p ch g) m ->
  exists m', exec (cycle p' ch) m = Some m' /\ agree (elen p') (esz p' ch g) m'.
Proof.
  intros Hc A. destruct (cycle_to8 m A) as (m8 & A8 & ->). destruct (segI m8 Hc A8) as (m9 & E9 & A9).
  exists m9. split; auto. now apply upto9.
Qed.
End Cycle.

(** ** Sessions *)

(** A stage that can be appended to the problem. *)
Definition fits (p : prob) (s : stage) : Prop :=
  stage_wf s /\ nx1 s = nx1 (st p 0) /\ ndx1 s = ndx1 (st p 0) /\ nu s = nu (st p 0).
(** All stages have the controls of the first one. *)
Definition uniform (p : prob) : Prop := forall i, i < N p -> nu (st p i) = nu (st p 0).

Lemma wf_cycled p s : wf p -> 2 <= N p -> stage_wf s -> nx1 s = nx1 (st p 0) -> ndx1 s = ndx1 (st p 0) ->
  wf (cycled p s).
Proof.
  intros W H2 Ws Hx Hn. pose proof (N' p s H2) as EN.
  destruct (end_dims p W) as (D1 & D2 & D3).
  assert (Q : forall i, i < N p -> let t := st (cycled p s) i in
    nx1 t = nx1 (st p 0) /\ ndx1 t = ndx1 (st p 0) /\ nx2 t = nx1 (st p 0) /\ ndx2 t = ndx1 (st p 0)).
  { intros i I. cbv zeta. destruct (Nat.eq_dec i (N p - 1)) as [->|].
    - rewrite (st_last p s H2). destruct Ws as (_ & A & B & _). repeat split; congruence.
    - rewrite (st_shift p s) by lia. destruct (st_dims p (S i) W) as (A & B & C & D & _); [lia|]. auto. }
  split; [lia|]. split; [|split; [|split]].
  - unfold integrity. rewrite EN. destruct (N p =? 0) eqn:Z; auto.
    rewrite !andb_true_iff, !Nat.eqb_eq, forallb_forall.
    destruct (Q 0) as (Q1 & Q2 & Q3 & Q4); [lia|]. destruct (Q (N p - 1)) as (Q5 & Q6 & Q7 & Q8); [lia|].
    repeat split; try (cbn [i_ndx t_nx t_ndx cycled] in *; congruence).
    intros k K. apply in_seq in K. rewrite andb_true_iff, !Nat.eqb_eq.
    destruct (Q (k - 1)) as (_ & _ & R3 & R4); [lia|]. destruct (Q k) as (R1 & R2 & _); [lia|].
    split; congruence.
  - intros k K. destruct W as (_ & _ & W3 & _). change (i_x0 (cycled p s)) with (i_x0 p) in K.
    rewrite (W3 k K). symmetry. apply (Q 0). lia.
  - cbn [stages cycled]. apply Forall_app. split; [|constructor; [assumption|constructor]].
    destruct W as (_ & _ & _ & F & _). destruct (stages p); [constructor|]. simpl. now inversion F.
  - apply W.
Qed.
Lemma fits_cycled p s s' : wf p -> 2 <= N p -> fits p s -> uniform p -> fits p s' -> fits (cycled p s) s'.
Proof.
  intros W H2 (_ & A & B & C) U (D0 & D1 & D2 & D3). split; auto.
  rewrite (st_shift p s) by lia. destruct (st_dims p 1 W) as (E1 & E2 & _); [lia|].
  rewrite (U 1) by lia. repeat split; congruence.
Qed.
Lemma uniform_cycled p s : 2 <= N p -> fits p s -> uniform p -> uniform (cycled p s).
Proof.
  intros H2 (_ & _ & _ & C) U i I. rewrite (N' p s H2) in I. rewrite (st_shift p s H2 0) by lia. rewrite (U 1) by lia.
  destruct (Nat.eq_dec i (N p - 1)) as [->|]; [now rewrite (st_last p s H2)|].
  rewrite (st_shift p s) by lia. apply U. lia.
Qed.

Lemma events_ok l : forall p ch g m, wf p -> 2 <= N p -> i_x0 p <> None -> uniform p -> ch <> STAGEDENSE ->
  (forall s, In (Cycle s) l -> fits p s) -> agree (elen p) (esz p ch g) m ->
  exists m' g', exec (events p ch l) m = Some m' /\ wf (last_problem p l) /\
    agree (elen (last_problem p l)) (esz (last_problem p l) ch g') m'.
Proof.
  induction l as [|[c|s] l IH]; intros p ch g m W H2 Hx U Hc Hl A.
  - exists m, g. auto.
  - destruct (call_ok p ch W c g m) as (m1 & g1 & E1 & A1); auto.
    { intros D. contradiction. }
    destruct (IH p ch g1 m1) as (m2 & g2 & E2 & A2); auto.
    { intros s Hs. apply Hl. now right. }
    exists m2, g2. split; auto. cbn [events]. now rewrite exec_app, E1.
  - assert (F : fits p s) by (apply Hl; now left).
    assert (W' : wf (cycled p s)) by (destruct F as (? & ? & ? & ?); now apply wf_cycled).
    destruct (cycle_ok p s ch W W' H2 Hx) with (g := g) (m := m) as (m1 & E1 & A1); auto.
    { intros i I. rewrite (U i I). symmetry. apply F. }
    destruct (IH (cycled p s) ch g m1) as (m2 & g2 & E2 & A2); auto.
    { now rewrite N'. }
    { now apply uniform_cycled. }
    { intros s' Hs. apply fits_cycled; auto. apply Hl. now right. }
    exists m2, g2. split; auto. cbn [events]. now rewrite exec_app, E1.
Qed.

(** Any interleaving of the routines of the solver and of cycles: no size error,
    and the results, the LQ problem and the step have the sizes of the current
    problem. *)
Theorem C62_cycle_partial : forall p ch l, wf p -> 2 <= N p -> i_x0 p <> None -> uniform p -> ch <> STAGEDENSE ->
  (forall s, In (Cycle s) l -> fits p s) ->
  exists m, exec (mpc p ch l) mem0 = Some m /\
    results_sizes (last_problem p l) m /\ lq_sizes (last_problem p l) m.
Proof.
  intros p ch l W H2 Hx U Hc Hl. destruct (setup_ok p ch W) as (m & E0 & A).
  destruct (events_ok l p ch (i_nr p) m) as (m' & g' & E1 & W' & A'); auto.
  exists m'. unfold mpc. rewrite exec_app, E0. split; auto. split.
  - apply (sizes_results _ ch g' m' W' A').
  - apply (sizes_lq _ ch g' m' W' A').
Qed.

(** One step in the horizon: [rotate_vec_left(trial_us, 1)] runs past the end. *)
Lemma exec_split l1 o l2 m m' : exec (l1 ++ o :: l2) m = Some m' ->
  exists m1 m2, exec l1 m = Some m1 /\ step m1 o = Some m2 /\ exec l2 m2 = Some m'.
Proof.
  rewrite exec_app. destruct (exec l1 m) as [m1|]; [|discriminate]. simpl.
  destruct (step m1 o) as [m2|] eqn:E; [|discriminate]. eauto.
Qed.
Ltac frt := repeat match goal with
  | |- Forall _ (_ ++ _) => apply Forall_app; split
  | |- Forall _ [] => apply Forall_nil
  | |- Forall _ (_ :: _) => apply Forall_cons
  | |- Forall _ (for_ _ _) => apply Forall_flat_map, Forall_forall; intros ? _
  | |- Forall _ (flat_map _ _) => apply Forall_flat_map, Forall_forall; intros ? _
  | |- Forall _ (map _ _) => apply Forall_map
  | |- Forall _ (if ?c then _ else _) => destruct c
  | |- Forall _ (match ?c with _ => _ end) => destruct c
  | |- tgt _ <> _ => cbn [tgt]; congruence
  end.

Definition before_tus (p : prob) : list op :=
  cycle_results p ++ cycle_data1 ++ cycle_data2 p ++ cycle_data3 p ++ [Chk (integrity p); Rot Txs 1 0].
Definition after_tus (p : prob) (ch : choice) : list op :=
  tl (tl (tl (cycle_ws1 p))) ++ cycle_ws2 ++ cycle_ws3 p ++ lqr_init p ++ cycle_ws4 ++ cycle_solver p ch.
Lemma cycle_tus p ch : cycle p ch = before_tus p ++ Rot Tus 1 0 :: after_tus p ch.
Proof. unfold cycle, before_tus, after_tus. rewrite <- !app_assoc. reflexivity. Qed.
Lemma not_tus_before p : Forall (fun o => match tgt o with Some Tus | Some Rus => tgt o = Some Rus | _ => True end) (before_tus p).
Proof.
  unfold before_tus, cycle_results, cycle_data1, cycle_data2, cycle_data3, cstr_data, cost_data, dyn_data,
    dyn_bufs, cost_bufs; cbv zeta; frt; cbn [tgt]; auto.
Qed.
Lemma tus_before p : Forall (fun o => tgt o <> Some Tus) (before_tus p).
Proof.
  eapply Forall_impl; [|apply not_tus_before]. cbv beta. intros o H. destruct (tgt o) as [[]|]; congruence.
Qed.
Lemma tus_after p ch : Forall (fun o => tgt o <> Some Tus) (after_tus p ch).
Proof.
  unfold after_tus, cycle_ws1, cycle_ws2, cycle_ws3, new_knot, lqr_init, cycle_ws4, cycle_solver, new_solver, factor,
    knot_bufs, factor_bufs; cbv zeta; cbn [tl]; frt.
Qed.

Theorem C62_cycle_one_refuted : forall p ch s, wf p -> N p = 1 -> exec (mpc p ch [Cycle s]) mem0 = None.
Proof.
  intros p ch s W H1. destruct (setup_ok p ch W) as (m & E0 & A).
  unfold mpc. rewrite exec_app, E0. cbn [events]. rewrite app_nil_r, cycle_tus.
  match goal with |- ?x = None => destruct x eqn:E1; auto end. exfalso.
  apply exec_split in E1 as (m1 & m2 & E1 & E2 & _).
  pose proof (exec_frame _ _ _ _ E1 (tus_before _)) as F.
  cbn [step] in E2. unfold len in E2. rewrite F in E2. destruct (A Tus) as [L _]. unfold len in L. rewrite L in E2.
  cbn [elen] in E2. rewrite H1 in E2. discriminate.
Qed.

(** Stages with different controls: the first trial control keeps its size, and the
    next linear step stops on it. *)
Lemma exec_in l : forall m m' a e, exec l m = Some m' -> In (Fit a e) l ->
  exists m1 x, size m1 a = Some x /\ size m1 e = Some x /\
    forall b, Forall (fun o => tgt o <> Some b) l -> m1 b = m b.
Proof.
  induction l as [|o l IH]; intros m m' a e E1 H; [destruct H|]. simpl in E1.
  destruct (step m o) as [m1|] eqn:S1; [|discriminate]. destruct H as [->|H].
  - simpl in S1. destruct (size m a) as [x|] eqn:Sa; [|discriminate].
    destruct (size m e) as [y|] eqn:Se; [|discriminate]. destruct (same x y) eqn:Sm; [|discriminate].
    apply same_eq in Sm. subst y. exists m, x. auto.
  - destruct (IH m1 m' a e E1 H) as (m2 & x & A1 & A2 & F). exists m2, x. repeat split; auto.
    intros b Hb. inversion_clear Hb as [|? ? Ho Hl]. rewrite (F b Hl). eapply step_frame; eauto.
Qed.

Theorem C62_cycle_controls_refuted : forall p ch s, wf p -> 2 <= N p -> nu (st p 1) <> nu (st p 0) ->
  exec (mpc p ch [Cycle s; Call LinearStep]) mem0 = None.
Proof.
  intros p ch s W H2 Hn. destruct (setup_ok p ch W) as (m & E0 & A).
  unfold mpc. rewrite exec_app, E0. cbn [events code]. rewrite app_nil_r, exec_app.
  destruct (exec (cycle (cycled p s) ch) m) as [m3|] eqn:E3; auto.
  rewrite cycle_tus in E3. apply exec_split in E3 as (m1 & m2 & E1 & E2 & E3).
  pose proof (exec_frame _ _ _ _ E1 (tus_before _)) as F1.
  pose proof (exec_frame _ _ _ _ E3 (tus_after _ _)) as F3.
  assert (T : len m3 Tus = N p /\ at_ m3 Tus 0 = (nu (st p 0), 1)).
  { cbn [step] in E2. unfold len, at_ in *. rewrite F1 in E2. destruct (A Tus) as [L V].
    specialize (V 0). unfold len, at_ in *. cbn [elen esz] in *. rewrite F3.
    destruct (1 + 1 + 0 <=? fst (m Tus)) eqn:B; [|discriminate]. injection E2 as <-. rewrite put_same. cbn [fst snd].
    split; auto. cbn [Nat.ltb Nat.leb orb]. rewrite V by lia. unfold k_nu_.
    now replace (0 <? N p) with true by (symmetry; apply Nat.ltb_lt; lia). }
  match goal with |- ?x = None => destruct x as [m4|] eqn:E4; auto end. exfalso.
  destruct (exec_in _ m3 m4 (Buf Tus 0) (Lit (nu (st (cycled p s) 0)) 1) E4) as (m5 & x & S1 & S2 & F).
  - unfold linear_step. cbv zeta. apply in_or_app. right. apply in_or_app. right. apply in_or_app. right.
    apply in_or_app. left. unfold for_. rewrite N' by auto. destruct (N p) as [|k]; [lia|].
    cbn [seq flat_map]. apply in_or_app. left. apply in_or_app. right. apply in_or_app. right.
    unfold integrate, is_vec. right. right. left. reflexivity.
  - simpl in S2. injection S2 as <-. simpl in S1. unfold len, at_ in *.
    rewrite F in S1.
    + destruct T as [T1 T2]. rewrite T1 in S1. destruct (0 <? N p); [|discriminate].
      rewrite T2 in S1. injection S1 as S1. rewrite (st_shift p s) in S1 by lia. congruence.
    + unfold linear_step, multiply_add, integrate, is_vec, stage_at, evaluate. cbv zeta. frt.
Qed.

(** The dense solver keeps, for the new last stage, the factor of the stage that
    left. *)
Theorem C62_cycle_dense_refuted : forall p s, wf p -> 2 <= N p -> i_x0 p <> None -> uniform p -> fits p s ->
  exists m, exec (mpc p STAGEDENSE [Cycle s]) mem0 = Some m /\
    at_ m Kd (N p - 1) = (nc s, 1) /\
    at_ m Fff (N p - 1) = (nu s + nc (st p 0) + ndx1 s + ndx1 s, 1).
Proof.
  intros p s W H2 Hx U F. destruct (setup_ok p STAGEDENSE W) as (m & E0 & A).
  assert (W' : wf (cycled p s)) by (destruct F as (? & ? & ? & ?); now apply wf_cycled).
  assert (Hu : forall i, i < N p -> nu (st p i) = nu s) by (intros i I; rewrite (U i I); symmetry; apply F).
  destruct (cycle_to8 p s STAGEDENSE W W' H2 Hx Hu (i_nr p) m A) as (m8 & A8 & E8).
  destruct (dense_end p s STAGEDENSE H2 (i_nr p) m8 eq_refl A8) as (m9 & E9 & R9 & K9).
  exists m9. unfold mpc. rewrite exec_app, E0. cbn [events]. rewrite app_nil_r, E8. split; auto. split.
  - pose proof (A8 Kd) as [_ V]. unfold at_ in *. rewrite K9, V by (cbn [elen]; rewrite N'; lia). cbn [esz].
    rewrite <- C_st by (rewrite N'; lia). now rewrite st_last.
  - rewrite R9. unfold gain_rows. rewrite (knx2 p W), n2_st by lia. unfold k_nu_.
    replace (0 <? N p) with true by (symmetry; apply Nat.ltb_lt; lia). rewrite <- C_st by lia.
    destruct F as (_ & F1 & F2 & F3). unfold n. now rewrite F2, F3.
Qed.

(** A problem with two stages, one with a constraint, cycled twice. *)
Definition cyc_stage : stage := Stage 3 2 1 3 2 2 1 [Cstr 2 1 2 (Some 2)].
Definition cyc_prob : prob :=
  Prob 2 2 (Some 3) [Stage 3 2 1 3 2 2 1 []; cyc_stage] 3 2 1 [Cstr 2 1 1 None].
Definition cyc_run : list event :=
  [Call (LqStep true); Call CopyGains; Cycle (Stage 3 2 1 3 2 2 1 []);
   Call (Start true true); Call (Multipliers false); Call Projected; Call (LqStep false); Call CopyGains;
   Call LinearStep; Call Rollout; Call Accept; Cycle cyc_stage; Call (LqStep false); Call CopyGains].
Lemma cyc_wf : wf cyc_prob.
Proof.
  split; [cbn; lia|]. split; [reflexivity|]. split; [intros k [= <-]; reflexivity|].
  split; repeat constructor.
Qed.
Example C62_cycle_example : wf cyc_prob /\ 2 <= N cyc_prob /\ i_x0 cyc_prob <> None /\ uniform cyc_prob /\
  (forall s, In (Cycle s) cyc_run -> fits cyc_prob s) /\ stages (last_problem cyc_prob cyc_run) = [Stage 3 2 1 3 2 2 1 []; cyc_stage].
Proof.
  split; [exact cyc_wf|]. split; [cbn; lia|]. split; [discriminate|]. split.
  - intros i I. destruct i as [|[|i]]; [reflexivity|reflexivity|cbn in I; lia].
  - split; [|reflexivity]. intros s Hs. simpl in Hs.
    repeat (destruct Hs as [Hs|Hs]; [try discriminate Hs; injection Hs as <-; repeat split; repeat constructor|]).
    destruct Hs.
Qed.
(** with constraints that differ the dense factors do not fit *)
Example C62_cycle_dense_example : fits cyc_prob cyc_stage /\ nc (st cyc_prob 0) <> nc cyc_stage.
Proof. split; [repeat split; repeat constructor|discriminate]. Qed.
Definition cyc_prob1 : prob := Prob 2 2 (Some 3) [cyc_stage] 3 2 1 [].
Example C62_cycle_one_example : wf cyc_prob1 /\ N cyc_prob1 = 1.
Proof.
  split; [|reflexivity]. split; [cbn; lia|]. split; [reflexivity|]. split; [intros k [= <-]; reflexivity|].
  split; repeat constructor.
Qed.
Definition cyc_prob2 : prob := Prob 2 2 (Some 3) [Stage 3 2 1 3 2 2 1 []; Stage 3 2 2 3 2 2 2 []] 3 2 1 [].
Example C62_cycle_controls_example : wf cyc_prob2 /\ nu (st cyc_prob2 1) <> nu (st cyc_prob2 0).
Proof.
  split; [|discriminate]. split; [cbn; lia|]. split; [reflexivity|]. split; [intros k [= <-]; reflexivity|].
  split; repeat constructor.
Qed.
