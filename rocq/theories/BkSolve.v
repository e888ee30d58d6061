(** Bunch-Kaufman: the solve phase inverts what the steps describe. *)
From Coq Require Import Reals List Arith ZArith Bool Lia Lra.
From Verif Require Import BkModel BkProofs.
Import ListNotations.
Local Open Scope R_scope.

Lemma solves_ext k n T x x' b b' : (forall i, (k <= i < n)%nat -> x i = x' i) -> (forall i, (k <= i < n)%nat -> b i = b' i) ->
  solves k n T x b -> solves k n T x' b'.
Proof.
  intros Ex Eb H i Hi. rewrite <- Eb by assumption. rewrite <- (H i Hi). apply sum_ext. intros j Hj. now rewrite Ex.
Qed.

(** list versions of the loops *)
Fixpoint clear (k : nat) (l : list (bool * nat)) (a : mat) : mat :=
  match l with [] => a | s :: l => clear (k + size s) l (if fst s then upd a (S k) k 0 else a) end.
Fixpoint subs (k : nat) (l : list (bool * nat)) (a : mat) (sd : vec) : vec :=
  match l with
  | [] => sd
  | s :: l => if fst s then subs (k + 2) l (upd a (S k) k 0) (fun i => if i =? S k then 0 else if i =? k then a (S k) k else sd i)
              else subs (k + 1) l a (fun i => if i =? k then 0 else sd i)
  end.
Fixpoint sl (k : nat) (l : list (bool * nat)) (a : mat) : mat :=
  match l with [] => a | s :: l => sl (k + size s) l (swap_rows k (at_ k s) (snd s) a) end.
Fixpoint ds (k : nat) (l : list (bool * nat)) (L : mat) (sd x : vec) : vec :=
  match l with
  | [] => x
  | s :: l => if fst s then ds (k + 2) l L sd
          (fun i => if i =? k then x k * L k k + x (S k) * sd k
                    else if i =? S k then x (S k) * L (S k) (S k) + x k * sd k else x i)
      else ds (k + 1) l L sd (fun i => if i =? k then x i * L k k else x i)
  end.

Lemma step_piv n a piv k s T T' : step n a piv k s T T' ->
  (k + size s <= n)%nat /\ (at_ k s <= snd s < n)%nat /\
  if fst s then (piv k <? 0)%Z = true /\ Z.to_nat (-1 - piv k) = snd s /\ (piv (S k) <? 0)%Z = true /\ Z.to_nat (-1 - piv (S k)) = snd s
  else (piv k <? 0)%Z = false /\ Z.to_nat (piv k) = snd s.
Proof.
  intros (H1 & H2 & H3). split; [assumption|]. split; [assumption|]. destruct (fst s).
  - destruct H3 as (-> & -> & _). repeat split; try (apply Z.ltb_lt; lia); lia.
  - destruct H3 as (-> & _). split; [apply Z.ltb_ge; lia|lia].
Qed.
Lemma extract_list n a0 piv l : forall fuel k T T' a sd, steps n a0 piv k l T n T' -> (n - k <= fuel)%nat ->
  extract fuel n k a sd piv = (clear k l a, subs k l a sd).
Proof.
  induction l as [|s l IH]; intros fuel k T T' a sd H Hf; simpl in H.
  - destruct H as [-> _]. destruct fuel; simpl; [reflexivity|]. now rewrite (proj2 (Nat.ltb_ge n n)) by lia.
  - destruct H as (T1 & H1 & H2). assert (P := step_piv _ _ _ _ _ _ _ H1). destruct P as (P0 & P1 & P2).
    destruct s as [two p]. unfold size, at_ in *. cbn [fst snd] in *. destruct fuel; [destruct two; lia|]. cbn [extract clear subs fst].
    rewrite (proj2 (Nat.ltb_lt k n)) by (destruct two; lia). unfold size. cbn [fst]. destruct two.
    + destruct P2 as (-> & _). apply (IH fuel _ T1 T'); auto. lia.
    + destruct P2 as (-> & _). apply (IH fuel _ T1 T'); auto. lia.
Qed.
Lemma swap_loop_list n a0 piv l : forall fuel k T T' a, steps n a0 piv k l T n T' -> (n - k <= fuel)%nat ->
  swap_loop fuel n k a piv = sl k l a.
Proof.
  induction l as [|s l IH]; intros fuel k T T' a H Hf; simpl in H.
  - destruct H as [-> _]. destruct fuel; simpl; [reflexivity|]. now rewrite (proj2 (Nat.ltb_ge n n)) by lia.
  - destruct H as (T1 & H1 & H2). assert (P := step_piv _ _ _ _ _ _ _ H1). destruct P as (P0 & P1 & P2).
    destruct s as [two p]. unfold size, at_ in *. cbn [fst snd] in *. destruct fuel; [destruct two; lia|]. cbn [swap_loop sl].
    rewrite (proj2 (Nat.ltb_lt k n)) by (destruct two; lia). unfold size, at_. cbn [fst snd]. destruct two.
    + destruct P2 as (-> & -> & _). apply (IH fuel _ T1 T'); auto. lia.
    + destruct P2 as (-> & ->). apply (IH fuel _ T1 T'); auto. lia.
Qed.
Lemma forward_list n a0 piv l : forall fuel k T T' x y, steps n a0 piv k l T n T' -> (n - k <= fuel)%nat ->
  (forall r, x r = y r) -> forall r, swaps_forward fuel n k piv x r = fw k l y r.
Proof.
  induction l as [|s l IH]; intros fuel k T T' x y H Hf E r; simpl in H.
  - destruct H as [-> _]. destruct fuel; simpl; [apply E|]. rewrite (proj2 (Nat.ltb_ge n n)) by lia. apply E.
  - destruct H as (T1 & H1 & H2). assert (P := step_piv _ _ _ _ _ _ _ H1). destruct P as (P0 & P1 & P2).
    destruct s as [two p]. unfold size, at_ in *. cbn [fst snd] in *. destruct fuel; [destruct two; lia|]. cbn [swaps_forward fw].
    rewrite (proj2 (Nat.ltb_lt k n)) by (destruct two; lia). unfold size. cbn [fst snd]. destruct two.
    + destruct P2 as (-> & -> & _). apply (IH fuel _ T1 T'); auto; [lia|]. intros q. rewrite swap_tr. apply E.
    + destruct P2 as (-> & ->). apply (IH fuel _ T1 T'); auto; [lia|]. intros q. rewrite swap_tr. apply E.
Qed.
Lemma diag_list n a0 piv l L sd : forall fuel k T T' x, steps n a0 piv k l T n T' -> (n - k <= fuel)%nat ->
  diag_solve fuel n k L sd piv x = ds k l L sd x.
Proof.
  induction l as [|s l IH]; intros fuel k T T' x H Hf; simpl in H.
  - destruct H as [-> _]. destruct fuel; simpl; [reflexivity|]. now rewrite (proj2 (Nat.ltb_ge n n)) by lia.
  - destruct H as (T1 & H1 & H2). assert (P := step_piv _ _ _ _ _ _ _ H1). destruct P as (P0 & P1 & P2).
    destruct s as [two p]. unfold size, at_ in *. cbn [fst snd] in *. destruct fuel; [destruct two; lia|]. cbn [diag_solve ds fst].
    rewrite (proj2 (Nat.ltb_lt k n)) by (destruct two; lia). destruct two.
    + destruct P2 as (-> & _). apply (IH fuel _ T1 T'); auto. lia.
    + destruct P2 as (-> & _). apply (IH fuel _ T1 T'); auto. lia.
Qed.
Lemma bw_snoc l : forall k s x r, bw k (l ++ [s]) x r = bw k l (fun q => x (perm (k + fold_right (fun s m => size s + m) 0 l)%nat s q)) r.
Proof.
  induction l as [|s0 l IH]; intros k s x r; simpl.
  - now rewrite Nat.add_0_r.
  - rewrite IH. apply bw_ext. intros q. now rewrite Nat.add_assoc.
Qed.
Lemma steps_len n a piv l : forall k T e T', steps n a piv k l T e T' -> (e = k + fold_right (fun s m => size s + m) 0 l)%nat.
Proof. induction l as [|s l IH]; intros k T e T' H; simpl in *; [lia|]. destruct H as (T1 & _ & H). apply IH in H. lia. Qed.
Lemma steps_split n a piv l l' : forall k T e T', steps n a piv k (l ++ l') T e T' -> exists m T1,
  steps n a piv k l T m T1 /\ steps n a piv m l' T1 e T'.
Proof.
  induction l as [|s l IH]; intros k T e T' H; simpl in *.
  - exists k, T. repeat split; auto.
  - destruct H as (T1 & H1 & H2). destruct (IH _ _ _ _ H2) as (m & T2 & H3 & H4). exists m, T2. split; [|exact H4]. exists T1. auto.
Qed.
Lemma backward_list n a0 piv l : forall fuel e T T' x y, steps n a0 piv 0 l T e T' -> (e <= fuel)%nat ->
  (forall r, x r = y r) -> forall r, swaps_backward fuel e piv x r = bw 0 l y r.
Proof.
  induction l as [|s l IH] using rev_ind; intros fuel e T T' x y H Hf E r.
  - destruct H as [<- _]. destruct fuel; simpl; apply E.
  - destruct (steps_split _ _ _ _ _ _ _ _ _ H) as (m & T1 & H1 & H2). simpl in H2. destruct H2 as (T2 & H2 & <- & _).
    assert (Lm := steps_len _ _ _ _ _ _ _ _ H1). simpl in Lm. rewrite bw_snoc. simpl Nat.add. rewrite <- Lm.
    assert (P := step_piv _ _ _ _ _ _ _ H2). destruct P as (P0 & P1 & P2).
    destruct s as [two p]. unfold size, at_ in *. cbn [fst snd] in *. destruct two.
    + replace (m + 2)%nat with (S (S m)) in * by lia. destruct fuel; [lia|]. cbn [swaps_backward].
      destruct P2 as (_ & _ & -> & ->). replace (S m - 1)%nat with m by lia.
      apply (IH _ _ T T1); auto; [lia|]. intros q. rewrite swap_tr. apply E.
    + replace (m + 1)%nat with (S m) in * by lia. destruct fuel; [lia|]. cbn [swaps_backward].
      destruct P2 as (-> & ->). apply (IH _ _ T T1); auto; [lia|]. intros q. rewrite swap_tr. apply E.
Qed.

(** the final arrays against the raw array *)
Fixpoint final (n : nat) (L : mat) (sd : vec) (a : mat) (k : nat) (l : list (bool * nat)) : Prop :=
  match l with
  | [] => True
  | s :: l =>
    (if fst s then L k k = a k k /\ L (S k) (S k) = a (S k) (S k) /\ sd k = a (S k) k /\ L (S k) k = 0 /\
       forall i, (S k < i < n)%nat -> L i k = fw (k + 2) l (fun r => a r k) i /\ L i (S k) = fw (k + 2) l (fun r => a r (S k)) i
     else L k k = a k k /\ forall i, (k < i < n)%nat -> L i k = fw (k + 1) l (fun r => a r k) i) /\
    final n L sd a (k + size s) l
  end.
Lemma clear_col l : forall k a r c, (c < k)%nat -> clear k l a r c = a r c.
Proof.
  induction l as [|s l IH]; intros k a r c H; simpl; [reflexivity|]. rewrite IH by lia.
  destruct (fst s); [|reflexivity]. unfold upd. nat_cases; reflexivity.
Qed.
Lemma subs_low l : forall k a sd c, (c < k)%nat -> subs k l a sd c = sd c.
Proof.
  induction l as [|s l IH]; intros k a sd c H; simpl; [reflexivity|]. destruct (fst s); rewrite IH by lia; nat_cases; reflexivity.
Qed.
Lemma sl_low n a0 piv l : forall k T T' a r c, steps n a0 piv k l T n T' -> (c < k)%nat -> sl k l a r c = fw k l (fun q => a q c) r.
Proof.
  induction l as [|s l IH]; intros k T T' a r c H Hc; simpl in *; [reflexivity|]. destruct H as (T1 & H1 & H2).
  rewrite (IH _ _ _ _ _ _ H2) by lia. apply fw_ext. intros q. unfold swap_rows, perm, tr. nat_cases; reflexivity.
Qed.
Lemma final_ok n a0 piv a l : forall k T T' A B sd, steps n a0 piv k l T n T' ->
  (forall r c, (k <= c)%nat -> A r c = a r c) -> (forall r c, (k <= c)%nat -> B r c = clear k l A r c) ->
  final n (sl k l B) (subs k l A sd) a k l.
Proof.
  induction l as [|s l IH]; intros k T T' A B sd H EA EB; [exact I|]. simpl in H. destruct H as (T1 & H1 & H2).
  assert (P := step_piv _ _ _ _ _ _ _ H1). destruct P as (P0 & P1 & _).
  assert (EB' : forall r c, (k <= c < k + size s)%nat -> swap_rows k (at_ k s) (snd s) B r c = (if fst s then upd A (S k) k 0 else A) r c).
  { intros r c Hc. unfold swap_rows. rewrite (proj2 (Nat.ltb_ge c k)) by lia. rewrite EB by lia. simpl. now rewrite clear_col by lia. }
  split.
  - destruct s as [two p]. unfold size in *. cbn [fst snd sl subs] in *. unfold size. cbn [fst]. destruct two.
    + assert (G : forall r c, (k <= c < k + 2)%nat -> (k + 2 <= r)%nat -> upd A (S k) k 0 r c = a r c).
      { intros r c Hc Hr. unfold upd. nat_cases; apply EA; lia. }
      repeat split; rewrite ?(sl_low n a0 piv l _ _ _ _ _ _ H2) by lia; rewrite ?(fw_low _ _ _ _ _ _ _ _ _ _ H2) by lia; rewrite ?EB' by lia.
      * unfold upd. nat_cases; apply EA; lia.
      * unfold upd. nat_cases; apply EA; lia.
      * rewrite subs_low by lia. nat_cases; apply EA; lia.
      * unfold upd. nat_cases; reflexivity.
      * apply (fw_local n a0 piv l _ _ _ _ _ _ H2); [|lia]. intros q Hq. rewrite EB' by lia. apply G; lia.
      * apply (fw_local n a0 piv l _ _ _ _ _ _ H2); [|lia]. intros q Hq. rewrite EB' by lia. apply G; lia.
    + split.
      * rewrite (sl_low n a0 piv l _ _ _ _ _ _ H2) by lia. rewrite (fw_low _ _ _ _ _ _ _ _ _ _ H2) by lia. rewrite EB' by lia. apply EA. lia.
      * intros i Hi. rewrite (sl_low n a0 piv l _ _ _ _ _ _ H2) by lia. apply (fw_local n a0 piv l _ _ _ _ _ _ H2); [|lia].
        intros q Hq. rewrite EB' by lia. apply EA. lia.
  - destruct s as [two p]. unfold size in *. cbn [fst snd sl subs] in *.
    assert (K : final n (sl (k + (if two then 2 else 1)) l (swap_rows k (at_ k (two, p)) p B))
      (subs (k + (if two then 2 else 1)) l (if two then upd A (S k) k 0 else A)
         (fun i => if two then if i =? S k then 0 else if i =? k then A (S k) k else sd i else if i =? k then 0 else sd i)) a (k + (if two then 2 else 1)) l).
    { apply (IH _ T1 T'); auto.
      - intros r c Hc. destruct two; [|apply EA; lia]. unfold upd. nat_cases; apply EA; lia.
      - intros r c Hc. unfold swap_rows. rewrite (proj2 (Nat.ltb_ge c k)) by (destruct two; lia). rewrite EB by (destruct two; lia). reflexivity. }
    destruct two; exact K.
Qed.

(** diagonal solve, entry by entry *)
Fixpoint dsolved (L : mat) (sd : vec) (k : nat) (l : list (bool * nat)) (y z : vec) : Prop :=
  match l with
  | [] => True
  | s :: l =>
    (if fst s then z k = y k * L k k + y (S k) * sd k /\ z (S k) = y (S k) * L (S k) (S k) + y k * sd k
     else z k = y k * L k k) /\ dsolved L sd (k + size s) l y z
  end.
Lemma ds_low l L sd : forall k x r, (r < k)%nat -> ds k l L sd x r = x r.
Proof.
  induction l as [|s l IH]; intros k x r H; simpl; [reflexivity|]. destruct (fst s); rewrite IH by lia; nat_cases; reflexivity.
Qed.
Lemma ds_ok l L sd : forall k x y, (forall r, (k <= r)%nat -> x r = y r) -> dsolved L sd k l y (ds k l L sd x).
Proof.
  induction l as [|s l IH]; intros k x y E; [exact I|]. destruct s as [two p]. cbn [ds dsolved fst snd]. unfold size. cbn [fst]. destruct two.
  - split.
    + rewrite !ds_low by lia. rewrite <- !E by lia. split; nat_cases; reflexivity.
    + apply IH. intros r Hr. nat_cases; apply E; lia.
  - split.
    + rewrite !ds_low by lia. rewrite <- !E by lia. nat_cases; reflexivity.
    + apply IH. intros r Hr. nat_cases; apply E; lia.
Qed.

(** triangular solves *)
Lemma for_ind {St} (Q : nat -> St -> Prop) lo hi f s : (lo <= hi)%nat -> Q lo s ->
  (forall j s, (lo <= j < hi)%nat -> Q j s -> Q (S j) (f s j)) -> Q hi (for_ lo hi f s).
Proof.
  intros Hle H0 HS. unfold for_. remember (hi - lo)%nat as d eqn:Ed. revert lo s Hle H0 HS Ed. induction d; intros lo s Hle H0 HS Ed; simpl.
  - now replace hi with lo by lia.
  - apply (IHd (S lo)); try lia; [apply HS; auto; lia|]. intros; apply HS; auto; lia.
Qed.
Lemma for_empty {St} lo hi (f : St -> nat -> St) s : (hi <= lo)%nat -> for_ lo hi f s = s.
Proof. intros H. unfold for_. now replace (hi - lo)%nat with 0%nat by lia. Qed.
Lemma lower_solve_ok n L x : forall i, (i < n)%nat ->
  lower_solve n L x i + sum 0 i (fun c => L i c * lower_solve n L x c) = x i.
Proof.
  assert (G : forall i, (i < n)%nat -> lower_solve n L x i + sum 0 (Nat.min i n) (fun c => L i c * lower_solve n L x c) = x i).
  { unfold lower_solve.
    apply (for_ind (fun m y => forall i, (i < n)%nat -> y i + sum 0 (Nat.min i m) (fun c => L i c * y c) = x i)); [lia| |].
    - intros i Hi. rewrite Nat.min_0_r, sum_nil by lia. ring.
    - intros m y Hm IH i Hi. rewrite <- (IH i Hi).
      destruct (le_lt_dec i m).
      + rewrite !Nat.min_l by lia. rewrite (proj2 (Nat.ltb_ge m i)) by lia. cbn [andb].
        f_equal. apply sum_ext. intros c Hc. rewrite (proj2 (Nat.ltb_ge m c)) by lia. reflexivity.
      + rewrite !Nat.min_r by lia. rewrite sum_last by lia. nat_cases.
        rewrite (sum_ext 0 m _ (fun c => L i c * y c)) by (intros; nat_cases; reflexivity). ring. }
  intros i Hi. specialize (G i Hi). now rewrite Nat.min_l in G by lia.
Qed.
Lemma upper_solve_ok n L x : forall i, (i < n)%nat ->
  upper_solve n L x i + sum (S i) n (fun r => L r i * upper_solve n L x r) = x i.
Proof.
  unfold upper_solve.
  set (f := fun (c : nat) (x : vec) (i : nat) => if i =? c then x i - sum (S c) n (fun r => L r c * x r) else x i).
  assert (G : forall m, (m <= n)%nat -> (forall i, (i < m)%nat -> fold_right f x (seq m (n - m)) i = x i) /\
     forall i, (m <= i < n)%nat -> fold_right f x (seq m (n - m)) i + sum (S i) n (fun r => L r i * fold_right f x (seq m (n - m)) r) = x i).
  { intros m. apply (range_ind (fun m => (m <= n)%nat -> (forall i, (i < m)%nat -> fold_right f x (seq m (n - m)) i = x i) /\
     forall i, (m <= i < n)%nat -> fold_right f x (seq m (n - m)) i + sum (S i) n (fun r => L r i * fold_right f x (seq m (n - m)) r) = x i) n).
    - intros lo H1 H2. replace (n - lo)%nat with 0%nat by lia. simpl. split; intros; [reflexivity|lia].
    - intros lo H1 IH H2. destruct (IH ltac:(lia)) as [I1 I2]. replace (n - lo)%nat with (S (n - S lo)) by lia. cbn [seq fold_right].
      set (y := fold_right f x (seq (S lo) (n - S lo))) in *. split.
      + intros i Hi. unfold f. nat_cases; apply I1; lia.
      + intros i Hi. rewrite (sum_ext (S i) n _ (fun r => L r i * y r)) by (intros; unfold f; nat_cases; reflexivity).
        unfold f. nat_cases.
        * rewrite <- (I1 lo) by lia. ring.
        * apply I2. lia. }
  intros i Hi. destruct (G 0%nat ltac:(lia)) as [_ G2]. rewrite Nat.sub_0_r in G2. apply G2. lia.
Qed.

Lemma phases n a piv L sd l : forall k T T', steps n a piv k l T n T' -> symm k n T -> final n L sd a k l ->
  forall b y z w,
  (forall i, (k <= i < n)%nat -> y i + sum k i (fun c => L i c * y c) = fw k l b i) ->
  dsolved L sd k l y z ->
  (forall i, (k <= i < n)%nat -> w i + sum (S i) n (fun r => L r i * w r) = z i) ->
  solves k n T (bw k l w) b.
Proof.
  induction l as [|s l IH]; intros k T T' H Sy F b y z w Hy Hz Hw; simpl in H.
  - destruct H as [-> _]. intros i Hi. lia.
  - destruct H as (T1 & H1 & H2). assert (P := step_piv _ _ _ _ _ _ _ H1). destruct P as (P0 & P1 & _).
    destruct F as [F0 F]. destruct Hz as [Hz0 Hz]. assert (Sy1 := step_symm _ _ _ _ _ _ _ H1 Sy).
    cbn [fw] in Hy. set (b1 := fun r => b (perm k s r)) in *.
    (* the reduced right-hand side *)
    assert (IHs : solves (k + size s) n T1 (bw (k + size s) l w) (reduce a k s b)).
    { apply (IH _ _ _ H2 Sy1 F _ y z w); [|exact Hz|intros; apply Hw; lia].
      intros i Hi. assert (E := Hy i ltac:(lia)). destruct s as [two p]. unfold size in *. cbn [fst snd] in *. unfold reduce. cbn [fst]. fold b1. destruct two.
      - destruct F0 as (_ & _ & _ & F3 & F4). destruct (F4 i ltac:(lia)) as [F5 F6].
        rewrite (fw_ext l _ _ (fun i => b1 i - (a i k * b1 k + a i (S k) * b1 (S k)))) by reflexivity.
        rewrite fw_lin2.
        assert (Y0 := Hy k ltac:(lia)). rewrite (sum_nil k k), (fw_low _ _ _ _ _ _ _ _ _ _ H2) in Y0 by lia.
        assert (Y1 := Hy (S k) ltac:(lia)). rewrite (sum_head k (S k)), (sum_nil (S k)), (fw_low _ _ _ _ _ _ _ _ _ _ H2), F3 in Y1 by lia.
        rewrite (sum_head k), (sum_head (S k)) in E by lia. rewrite <- F5, <- F6. replace (S (S k)) with (k + 2)%nat in E by lia.
        replace (b1 k) with (y k) by lra. replace (b1 (S k)) with (y (S k)) by lra. lra.
      - destruct F0 as (_ & F4).
        rewrite (fw_ext l _ _ (fun i => b1 i - a i k * b1 k)) by reflexivity.
        rewrite fw_lin1.
        assert (Y0 := Hy k ltac:(lia)). rewrite (sum_nil k k), (fw_low _ _ _ _ _ _ _ _ _ _ H2) in Y0 by lia.
        rewrite (sum_head k) in E by lia. rewrite <- F4 by lia. replace (S k) with (k + 1)%nat in E by lia.
        replace (b1 k) with (y k) by lra. lra. }
    assert (X := step_solve n a piv k s T T1 b _ H1 Sy IHs). eapply solves_ext; [| |exact X]; [|reflexivity].
    intros i Hi. unfold extend. cbn [bw]. fold b1.
    assert (Hq := perm_range _ _ _ _ _ _ _ i H1 Hi). set (q := perm k s i) in *. clearbody q.
    destruct s as [two p]. unfold size in *. cbn [fst snd] in *. destruct two.
    + assert (Y0 := Hy k ltac:(lia)). rewrite (sum_nil k k), (fw_low _ _ _ _ _ _ _ _ _ _ H2) in Y0 by lia.
      destruct F0 as (F0 & F1 & F2 & F3 & F4). destruct Hz0 as [Z0 Z1].
      assert (Y1 := Hy (S k) ltac:(lia)). rewrite (sum_head k (S k)), (sum_nil (S k)), (fw_low _ _ _ _ _ _ _ _ _ _ H2), F3 in Y1 by lia.
      assert (W0 := Hw k ltac:(lia)). assert (W1 := Hw (S k) ltac:(lia)).
      rewrite (sum_head (S k)), F3 in W0 by lia. replace (S (S k)) with (k + 2)%nat in * by lia.
      rewrite (sum_ext (k + 2) n (fun r => L r k * w r) (fun r => fw (k + 2) l (fun r => a r k) r * w r)) in W0
        by (intros r Hr; rewrite (proj1 (F4 r ltac:(lia))); reflexivity).
      rewrite (sum_ext (k + 2) n (fun r => L r (S k) * w r) (fun r => fw (k + 2) l (fun r => a r (S k)) r * w r)) in W1
        by (intros r Hr; rewrite (proj2 (F4 r ltac:(lia))); reflexivity).
      rewrite (sum_fw_bw _ _ _ _ _ _ _ _ _ _ H2) in W0. rewrite (sum_fw_bw _ _ _ _ _ _ _ _ _ _ H2) in W1.
      rewrite F0, F2 in Z0. rewrite F1, F2 in Z1.
      assert (B0 : b (perm k (true, p) k) = y k) by (change (b1 k = y k); lra). rewrite B0.
      assert (B1 : b (perm k (true, p) (S k)) = y (S k)) by (change (b1 (S k) = y (S k)); lra). rewrite B1.
      nat_cases; try reflexivity.
      * rewrite (bw_low _ _ _ _ _ _ _ _ _ _ H2) by lia. lra.
      * rewrite (bw_low _ _ _ _ _ _ _ _ _ _ H2) by lia. lra.
    + assert (Y0 := Hy k ltac:(lia)). rewrite (sum_nil k k), (fw_low _ _ _ _ _ _ _ _ _ _ H2) in Y0 by lia.
      destruct F0 as (F0 & F4).
      assert (W0 := Hw k ltac:(lia)). replace (S k) with (k + 1)%nat in * by lia.
      rewrite (sum_ext (k + 1) n (fun r => L r k * w r) (fun r => fw (k + 1) l (fun r => a r k) r * w r)) in W0
        by (intros r Hr; rewrite (F4 r ltac:(lia)); reflexivity).
      rewrite (sum_fw_bw _ _ _ _ _ _ _ _ _ _ H2) in W0.
      rewrite F0 in Hz0. 
      assert (B0 : b (perm k (false, p) k) = y k) by (change (b1 k = y k); lra). rewrite B0.
      nat_cases; try reflexivity. rewrite (bw_low _ _ _ _ _ _ _ _ _ _ H2) by lia. lra.
Qed.

(** the whole solve *)
Lemma solve_ok n a piv l T T' sd0 b : steps n a piv 0 l T n T' -> symm 0 n T ->
  let (a2, sd) := extract n n 0 a sd0 piv in
  solves 0 n T (solve n (Factor (swap_loop n n 0 a2 piv) sd piv) b) b.
Proof.
  intros H Sy. rewrite (extract_list n a piv l n 0 T T') by (auto; lia).
  rewrite (swap_loop_list n a piv l n 0 T T') by (auto; lia).
  assert (F : final n (sl 0 l (clear 0 l a)) (subs 0 l a sd0) a 0 l) by (apply (final_ok n a piv a l 0 T T'); auto).
  unfold solve. cbn [f_mat f_sub f_piv].
  set (L := sl 0 l (clear 0 l a)) in *. set (sd := subs 0 l a sd0) in *.
  rewrite (diag_list n a piv l L sd n 0 T T') by (auto; lia).
  set (x0 := swaps_forward n n 0 piv b). set (y := lower_solve n L x0). set (z := ds 0 l L sd y). set (w := upper_solve n L z).
  assert (X : solves 0 n T (bw 0 l w) b).
  { apply (phases n a piv L sd l 0 T T' H Sy F b y z w).
    - intros i Hi. unfold y. rewrite lower_solve_ok by lia. unfold x0. apply (forward_list n a piv l n 0 T T'); auto. lia.
    - apply ds_ok. reflexivity.
    - intros i Hi. apply upper_solve_ok. lia. }
  eapply solves_ext; [| |exact X]; [|reflexivity]. intros i _. symmetry.
  apply (backward_list n a piv l n n T T'); auto.
Qed.
(** a kernel vector of the remainder is one of the whole *)
Lemma steps_kernel n a piv l : forall k T e T', steps n a piv k l T e T' -> symm k n T ->
  (exists v, (exists i, (e <= i < n)%nat /\ v i <> 0) /\ solves e n T' v (fun _ => 0)) ->
  exists v, (exists i, (k <= i < n)%nat /\ v i <> 0) /\ solves k n T v (fun _ => 0).
Proof.
  induction l as [|s l IH]; intros k T e T' H Sy V; simpl in H.
  - destruct H as [-> E]. destruct V as (v & Hv & S). exists v. split; [exact Hv|]. intros i Hi. rewrite <- (S i Hi).
    apply sum_ext. intros j Hj. now rewrite E.
  - destruct H as (T1 & H1 & H2). destruct (IH _ _ _ _ H2 (step_symm _ _ _ _ _ _ _ H1 Sy) V) as (v & (i & Hi & Hv) & S1).
    exists (extend n a k s (fun _ => 0) v). split.
    + exists (perm k s i). split; [eapply perm_range; [exact H1|lia]|]. unfold extend. rewrite perm_invol.
      destruct s as [two p]. unfold size in *. cbn [fst] in *. destruct two; nat_cases; exact Hv.
    + apply (step_solve n a piv k s T T1 _ _ H1 Sy). intros j Hj. rewrite (S1 j Hj). unfold reduce. destruct (fst s); ring.
Qed.
