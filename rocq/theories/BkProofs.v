(** Proofs for the Bunch-Kaufman model. *)
From Coq Require Import Reals List Arith ZArith Bool Lia Lra Psatz.
From Verif Require Import BkModel.
Import ListNotations.
Local Open Scope R_scope.

(** decide every comparison of naturals in sight *)
Ltac nat_cases := repeat (match goal with
  | |- context [Nat.eqb ?a ?b] => destruct (Nat.eqb_spec a b)
  | |- context [Nat.ltb ?a ?b] => destruct (Nat.ltb_spec a b)
  | |- context [Nat.leb ?a ?b] => destruct (Nat.leb_spec a b)
  end; cbn [andb negb]; try lia); subst; try lia.

(** ** sums *)
Lemma sum_nil lo hi f : (hi <= lo)%nat -> sum lo hi f = 0.
Proof. intros H. unfold sum. replace (hi - lo)%nat with 0%nat by lia. reflexivity. Qed.
Lemma sum_head lo hi f : (lo < hi)%nat -> sum lo hi f = f lo + sum (S lo) hi f.
Proof. intros H. unfold sum. replace (hi - lo)%nat with (S (hi - S lo)) by lia. reflexivity. Qed.
Lemma range_ind (P : nat -> Prop) (hi : nat) : (forall lo, (hi <= lo)%nat -> P lo) ->
  (forall lo, (lo < hi)%nat -> P (S lo) -> P lo) -> forall lo, P lo.
Proof.
  intros H0 H1 lo. remember (hi - lo)%nat as d. revert lo Heqd. induction d; intros lo E.
  - apply H0. lia.
  - apply H1; [lia|]. apply IHd. lia.
Qed.
Lemma sum_ext lo hi f g : (forall i, (lo <= i < hi)%nat -> f i = g i) -> sum lo hi f = sum lo hi g.
Proof.
  revert lo. apply (range_ind (fun lo => (forall i, (lo <= i < hi)%nat -> f i = g i) -> sum lo hi f = sum lo hi g) hi).
  - intros lo H _. now rewrite !sum_nil.
  - intros lo H IH E. rewrite !(sum_head lo hi) by lia. rewrite E by lia. rewrite IH; [reflexivity|]. intros; apply E; lia.
Qed.
Lemma sum_plus lo hi f g : sum lo hi (fun i => f i + g i) = sum lo hi f + sum lo hi g.
Proof.
  revert lo. apply (range_ind (fun lo => sum lo hi (fun i => f i + g i) = sum lo hi f + sum lo hi g) hi); intros lo H.
  - rewrite !sum_nil by lia. ring.
  - intros IH. rewrite !(sum_head lo hi) by lia. rewrite IH. ring.
Qed.
Lemma sum_scale lo hi c f : sum lo hi (fun i => c * f i) = c * sum lo hi f.
Proof.
  revert lo. apply (range_ind (fun lo => sum lo hi (fun i => c * f i) = c * sum lo hi f) hi); intros lo H.
  - rewrite !sum_nil by lia. ring.
  - intros IH. rewrite !(sum_head lo hi) by lia. rewrite IH. ring.
Qed.
Lemma sum_zero lo hi : sum lo hi (fun _ => 0) = 0.
Proof. transitivity (0 * sum lo hi (fun _ => 0)); [|ring]. rewrite <- sum_scale. apply sum_ext. intros. ring. Qed.
Lemma sum_split lo mid hi f : (lo <= mid <= hi)%nat -> sum lo hi f = sum lo mid f + sum mid hi f.
Proof.
  intros H. unfold sum. replace (hi - lo)%nat with ((mid - lo) + (hi - mid))%nat by lia. rewrite seq_app.
  replace (lo + (mid - lo))%nat with mid by lia. induction (seq lo (mid - lo)); simpl; [ring|]. rewrite IHl. ring.
Qed.
Lemma sum_last lo hi f : (lo <= hi)%nat -> sum lo (S hi) f = sum lo hi f + f hi.
Proof. intros H. rewrite (sum_split lo hi (S hi)) by lia. rewrite (sum_head hi), (sum_nil (S hi)) by lia. ring. Qed.
(** one entry *)
Lemma sum_one lo hi f i : (lo <= i < hi)%nat -> (forall j, (lo <= j < hi)%nat -> j <> i -> f j = 0) -> sum lo hi f = f i.
Proof.
  intros Hi H. rewrite (sum_split lo i hi) by lia. rewrite (sum_head i) by lia.
  rewrite (sum_ext lo i f (fun _ => 0)) by (intros; apply H; lia). rewrite (sum_ext (S i) hi f (fun _ => 0)) by (intros; apply H; lia).
  rewrite !sum_zero. ring.
Qed.

(** ** transpositions *)
Definition tr (i j r : nat) : nat := if r =? i then j else if r =? j then i else r.
Lemma tr_range i j lo hi r : (lo <= i < hi)%nat -> (lo <= j < hi)%nat -> (lo <= r < hi)%nat -> (lo <= tr i j r < hi)%nat.
Proof. unfold tr. intros. nat_cases. Qed.

Lemma tr_id i r : tr i i r = r.
Proof. unfold tr. nat_cases; congruence. Qed.
Lemma tr_l i j : tr i j i = j.
Proof. unfold tr. nat_cases; congruence. Qed.
Lemma tr_r i j : tr i j j = i.
Proof. unfold tr. nat_cases; congruence. Qed.
Lemma tr_o i j r : r <> i -> r <> j -> tr i j r = r.
Proof. unfold tr. intros. nat_cases. Qed.
Lemma tr_invol i j r : tr i j (tr i j r) = r.
Proof.
  destruct (Nat.eq_dec r i) as [->|]; [now rewrite tr_l, tr_r|]. destruct (Nat.eq_dec r j) as [->|]; [now rewrite tr_r, tr_l|].
  now rewrite !(tr_o i j r).
Qed.
Lemma swap_tr i p x r : swap_vec i p x r = x (tr i p r).
Proof. unfold swap_vec, tr. nat_cases; congruence. Qed.
Lemma sum_tr lo hi i j f : (lo <= i < hi)%nat -> (lo <= j < hi)%nat -> sum lo hi (fun r => f (tr i j r)) = sum lo hi f.
Proof.
  (* wlog i < j *)
  assert (G : forall i j, (lo <= i)%nat -> (i < j)%nat -> (j < hi)%nat -> sum lo hi (fun r => f (tr i j r)) = sum lo hi f).
  { clear i j. intros i j H1 H2 H3. rewrite !(sum_split lo i hi) by lia. rewrite !(sum_head i) by lia.
    rewrite !(sum_split (S i) j hi) by lia. rewrite !(sum_head j) by lia.
    rewrite tr_l, tr_r.
    rewrite (sum_ext lo i (fun r => f (tr i j r)) f) by (intros; rewrite tr_o by lia; reflexivity).
    rewrite (sum_ext (S i) j (fun r => f (tr i j r)) f) by (intros; rewrite tr_o by lia; reflexivity).
    rewrite (sum_ext (S j) hi (fun r => f (tr i j r)) f) by (intros; rewrite tr_o by lia; reflexivity). ring. }
  intros Hi Hj. destruct (lt_eq_lt_dec i j) as [[H|H]|H].
  - apply G; lia.
  - subst. apply sum_ext. intros. now rewrite tr_id.
  - rewrite <- (G j i) by lia. apply sum_ext. intros r _. f_equal. unfold tr. nat_cases; congruence.
Qed.

(** ** elimination steps *)
(** [sym T on k..n) and what one round must have left in the array and the pivots *)
Definition symm (k n : nat) (T : mat) : Prop := forall i j, (k <= i < n)%nat -> (k <= j < n)%nat -> T i j = T j i.
Definition size (s : bool * nat) : nat := if fst s then 2 else 1.
(** the row exchanged with p *)
Definition at_ (k : nat) (s : bool * nat) : nat := if fst s then S k else k.
Definition perm (k : nat) (s : bool * nat) : nat -> nat := tr (at_ k s) (snd s).
(** H is the matrix after the symmetric exchange *)
Definition step (n : nat) (a : mat) (piv : nat -> Z) (k : nat) (s : bool * nat) (T T' : mat) : Prop :=
  let H := fun i j => T (perm k s i) (perm k s j) in
  (k + size s <= n)%nat /\ (at_ k s <= snd s < n)%nat /\
  if fst s then
    (piv k = -1 - Z.of_nat (snd s))%Z /\ (piv (S k) = -1 - Z.of_nat (snd s))%Z /\
    H k k * a k k + H k (S k) * a (S k) k = 1 /\ H k k * a (S k) k + H k (S k) * a (S k) (S k) = 0 /\
    H (S k) k * a k k + H (S k) (S k) * a (S k) k = 0 /\ H (S k) k * a (S k) k + H (S k) (S k) * a (S k) (S k) = 1 /\
    (forall i, (S k < i < n)%nat -> a i k = H i k * a k k + H i (S k) * a (S k) k /\
                                   a i (S k) = H i k * a (S k) k + H i (S k) * a (S k) (S k)) /\
    (forall i j, (S k < i < n)%nat -> (S k < j < n)%nat -> T' i j = H i j - (a i k * H k j + a i (S k) * H (S k) j))
  else
    piv k = Z.of_nat (snd s) /\
    H k k * a k k = 1 /\
    (forall i, (k < i < n)%nat -> a i k = H i k * a k k) /\
    (forall i j, (k < i < n)%nat -> (k < j < n)%nat -> T' i j = H i j - a i k * H k j).
Fixpoint steps (n : nat) (a : mat) (piv : nat -> Z) (k : nat) (l : list (bool * nat)) (T : mat) (e : nat) (T' : mat) : Prop :=
  match l with
  | [] => k = e /\ forall i j, (k <= i < n)%nat -> (k <= j < n)%nat -> T i j = T' i j
  | s :: l => exists T1, step n a piv k s T T1 /\ steps n a piv (k + size s) l T1 e T'
  end.

Lemma step_symm n a piv k s T T' : step n a piv k s T T' -> symm k n T -> symm (k + size s) n T'.
Proof.
  destruct s as [two p]. unfold step, size, perm, at_; cbn [fst snd]. intros (Hk & Hp & H) Y i j Hi Hj.
  destruct two.
  - unfold at_ in *. cbn [fst snd] in *. destruct H as (_ & _ & E1 & E2 & E3 & E4 & Hl & HT).
    assert (R : forall r, (k <= r < n)%nat -> (k <= tr (S k) p r < n)%nat) by (intros; apply tr_range; lia).
    rewrite !HT by lia. destruct (Hl i) as [-> ->]; [lia|]. destruct (Hl j) as [-> ->]; [lia|].
    rewrite (Y (tr (S k) p i) (tr (S k) p j)) by (apply R; lia).
    rewrite (Y (tr (S k) p k) (tr (S k) p j)), (Y (tr (S k) p (S k)) (tr (S k) p j)) by (apply R; lia).
    rewrite (Y (tr (S k) p k) (tr (S k) p i)), (Y (tr (S k) p (S k)) (tr (S k) p i)) by (apply R; lia). ring.
  - destruct H as (_ & E1 & Hl & HT).
    assert (R : forall r, (k <= r < n)%nat -> (k <= tr k p r < n)%nat) by (intros; apply tr_range; lia).
    rewrite !HT by lia. rewrite (Hl i), (Hl j) by lia.
    rewrite (Y (tr k p i) (tr k p j)), (Y (tr k p k) (tr k p j)), (Y (tr k p k) (tr k p i)) by (apply R; lia). ring.
Qed.
Lemma steps_symm n a piv l : forall k T e T', steps n a piv k l T e T' -> symm k n T -> symm e n T'.
Proof.
  induction l as [|s l IH]; intros k T e T' H Sy; simpl in H.
  - destruct H as [-> H]. intros i j Hi Hj. rewrite <- !H by lia. apply Sy; lia.
  - destruct H as (T1 & H1 & H2). eapply IH; [exact H2|]. eapply step_symm; eauto.
Qed.
Lemma steps_le n a piv l : forall k T e T', steps n a piv k l T e T' -> (k <= e)%nat.
Proof. induction l as [|s l IH]; intros k T e T' H; simpl in H; [lia|]. destruct H as (T1 & _ & H2). apply IH in H2. lia. Qed.
Lemma step_ext n a a' piv piv' k s T T1 T' T1' : step n a piv k s T T' ->
  (forall i j, (k <= i < n)%nat -> (k <= j < n)%nat -> T i j = T1 i j) ->
  (forall i j, (k + size s <= i < n)%nat -> (k + size s <= j < n)%nat -> T' i j = T1' i j) ->
  (forall i j, (k <= j < k + size s)%nat -> (j <= i < n)%nat -> a i j = a' i j) ->
  (forall i, (k <= i < k + size s)%nat -> piv i = piv' i) -> step n a' piv' k s T1 T1'.
Proof.
  destruct s as [two p]. unfold step, size, perm, at_; cbn [fst snd]. intros (Hk & Hp & H) ET ET' Ea Ep.
  split; [assumption|]. split; [assumption|]. destruct two; cbn [fst snd] in *.
  - assert (R : forall r, (k <= r < n)%nat -> (k <= tr (S k) p r < n)%nat) by (intros; apply tr_range; lia).
    destruct H as (P1 & P2 & E1 & E2 & E3 & E4 & Hl & HT).
    rewrite <- !Ep by lia. rewrite <- !Ea by lia. rewrite <- !ET by (apply R; lia). repeat split; auto.
    + rewrite <- !Ea by lia. rewrite <- !ET by (apply R; lia). apply Hl. lia.
    + rewrite <- !Ea by lia. rewrite <- !ET by (apply R; lia). apply Hl. lia.
    + intros i j Hi Hj. rewrite <- ET' by lia. rewrite <- !Ea by lia. rewrite <- !ET by (apply R; lia). apply HT; lia.
  - assert (R : forall r, (k <= r < n)%nat -> (k <= tr k p r < n)%nat) by (intros; apply tr_range; lia).
    destruct H as (P1 & E1 & Hl & HT).
    rewrite <- !Ep by lia. rewrite <- !Ea by lia. rewrite <- !ET by (apply R; lia). repeat split; auto.
    + intros i Hi. rewrite <- !Ea by lia. rewrite <- !ET by (apply R; lia). apply Hl. lia.
    + intros i j Hi Hj. rewrite <- ET' by lia. rewrite <- !Ea by lia. rewrite <- !ET by (apply R; lia). apply HT; lia.
Qed.
Lemma steps_ext n a a' piv piv' l : forall k T T1 e T' T1', steps n a piv k l T e T' ->
  (forall i j, (k <= i < n)%nat -> (k <= j < n)%nat -> T i j = T1 i j) ->
  (forall i j, (e <= i < n)%nat -> (e <= j < n)%nat -> T' i j = T1' i j) ->
  (forall i j, (k <= j < e)%nat -> (j <= i < n)%nat -> a i j = a' i j) ->
  (forall i, (k <= i < e)%nat -> piv i = piv' i) -> steps n a' piv' k l T1 e T1'.
Proof.
  induction l as [|s l IH]; intros k T T1 e T' T1' H ET ET' Ea Ep; simpl in *.
  - destruct H as [-> H]. split; [reflexivity|]. intros i j Hi Hj. rewrite <- ET, <- ET' by assumption. now apply H.
  - destruct H as (T2 & H1 & H2). exists T2. assert (L := steps_le _ _ _ _ _ _ _ _ H2). split.
    + eapply step_ext; [exact H1|exact ET|reflexivity| |]; intros; [apply Ea|apply Ep]; lia.
    + eapply IH; [exact H2|reflexivity|exact ET'| |]; intros; [apply Ea|apply Ep]; lia.
Qed.
Lemma steps_app n a piv l : forall k T m T1 l' e T', steps n a piv k l T m T1 -> steps n a piv m l' T1 e T' ->
  steps n a piv k (l ++ l') T e T'.
Proof.
  induction l as [|s l IH]; intros k T m T1 l' e T' H H'; simpl in *.
  - destruct H as [-> H]. eapply steps_ext; [exact H'| | | |]; auto. intros; symmetry; auto.
  - destruct H as (T2 & H1 & H2). exists T2. split; [exact H1|]. eapply IH; eauto.
Qed.

(** ** exchanges along a list of steps *)
Fixpoint fw (k : nat) (l : list (bool * nat)) (x : vec) : vec :=
  match l with [] => x | s :: l => fw (k + size s) l (fun r => x (perm k s r)) end.
Fixpoint bw (k : nat) (l : list (bool * nat)) (x : vec) : vec :=
  match l with [] => x | s :: l => fun r => bw (k + size s) l x (perm k s r) end.
Lemma fw_ext l : forall k x y, (forall r, x r = y r) -> forall r, fw k l x r = fw k l y r.
Proof. induction l as [|s l IH]; intros k x y E r; simpl; auto. Qed.
Lemma bw_ext l : forall k x y, (forall r, x r = y r) -> forall r, bw k l x r = bw k l y r.
Proof. induction l as [|s l IH]; intros k x y E r; simpl; auto. Qed.
Lemma perm_below n a piv k s T T' r : step n a piv k s T T' -> (r < k)%nat -> perm k s r = r.
Proof. intros (_ & H & _) Hr. unfold perm, at_ in *. destruct (fst s); apply tr_o; lia. Qed.
Lemma perm_range n a piv k s T T' r : step n a piv k s T T' -> (k <= r < n)%nat -> (k <= perm k s r < n)%nat.
Proof. intros (H0 & H & _) Hr. unfold perm, at_, size in *. destruct (fst s); apply tr_range; lia. Qed.
Lemma fw_low n a piv l : forall k T e T' x r, steps n a piv k l T e T' -> (r < k)%nat -> fw k l x r = x r.
Proof.
  induction l as [|s l IH]; intros k T e T' x r H Hr; simpl in *; [reflexivity|]. destruct H as (T1 & H1 & H2).
  rewrite (IH _ _ _ _ _ r H2) by lia. now rewrite (perm_below _ _ _ _ _ _ _ r H1).
Qed.
Lemma bw_low n a piv l : forall k T e T' x r, steps n a piv k l T e T' -> (r < k)%nat -> bw k l x r = x r.
Proof.
  induction l as [|s l IH]; intros k T e T' x r H Hr; simpl in *; [reflexivity|]. destruct H as (T1 & H1 & H2).
  rewrite (perm_below _ _ _ _ _ _ _ r H1) by lia. apply (IH _ _ _ _ _ r H2). lia.
Qed.
Lemma fw_lin l : forall k x y c r, fw k l (fun i => x i + c * y i) r = fw k l x r + c * fw k l y r.
Proof. induction l as [|s l IH]; intros k x y c r; simpl; auto. Qed.
Lemma fw_lin2 l : forall k x y z c d r, fw k l (fun i => x i - (y i * c + z i * d)) r = fw k l x r - (fw k l y r * c + fw k l z r * d).
Proof. induction l as [|s l IH]; intros k x y z c d r; simpl; auto. Qed.
Lemma fw_lin1 l : forall k x y c r, fw k l (fun i => x i - y i * c) r = fw k l x r - fw k l y r * c.
Proof. induction l as [|s l IH]; intros k x y c r; simpl; auto. Qed.
Lemma fw_local n a piv l : forall k T e T' x y, steps n a piv k l T e T' -> (forall r, (k <= r < n)%nat -> x r = y r) ->
  forall r, (k <= r < n)%nat -> fw k l x r = fw k l y r.
Proof.
  induction l as [|s l IH]; intros k T e T' x y H E r Hr; simpl in *; [auto|]. destruct H as (T1 & H1 & H2).
  assert (R : forall q, (k <= q < n)%nat -> x (perm k s q) = y (perm k s q)).
  { intros q Hq. apply E. eapply perm_range; eauto. }
  destruct (le_lt_dec (k + size s) r).
  - eapply IH; [exact H2| |lia]. intros q Hq. apply R. lia.
  - rewrite !(fw_low _ _ _ _ _ _ _ _ _ r H2) by lia. apply R. lia.
Qed.
Lemma sum_fw_bw n a piv l : forall k T e T' x y, steps n a piv k l T e T' ->
  sum k n (fun r => fw k l x r * y r) = sum k n (fun r => x r * bw k l y r).
Proof.
  induction l as [|s l IH]; intros k T e T' x y H; simpl in *; [reflexivity|]. destruct H as (T1 & H1 & H2).
  assert (Hk : (k + size s <= n)%nat) by apply H1.
  assert (Hp : (k <= at_ k s < n)%nat /\ (k <= snd s < n)%nat).
  { destruct H1 as (h0 & h1 & _). unfold at_, size in *. destruct (fst s); lia. }
  rewrite <- (sum_tr k n (at_ k s) (snd s) (fun r => x r * bw (k + size s) l y (perm k s r))) by apply Hp.
  fold (perm k s).
  rewrite (sum_ext k n (fun r => x (perm k s r) * bw (k + size s) l y (perm k s (perm k s r))) (fun r => x (perm k s r) * bw (k + size s) l y r))
    by (intros; unfold perm; now rewrite tr_invol).
  rewrite !(sum_split k (k + size s) n) by lia. rewrite (IH _ _ _ _ (fun r => x (perm k s r)) y H2). f_equal.
  apply sum_ext. intros r Hr. rewrite (fw_low _ _ _ _ _ _ _ _ _ r H2), (bw_low _ _ _ _ _ _ _ _ _ r H2) by lia. reflexivity.
Qed.

(** ** the solution of a step from the solution of the reduced system *)
Definition reduce (a : mat) (k : nat) (s : bool * nat) (b : vec) : vec :=
  let b1 := fun r => b (perm k s r) in
  if fst s then fun i => b1 i - (a i k * b1 k + a i (S k) * b1 (S k)) else fun i => b1 i - a i k * b1 k.
Definition extend (n : nat) (a : mat) (k : nat) (s : bool * nat) (b y : vec) : vec :=
  let b1 := fun r => b (perm k s r) in
  let z := if fst s then
      fun i => if i =? k then b1 k * a k k + b1 (S k) * a (S k) k - sum (k + 2) n (fun j => a j k * y j)
               else if i =? S k then b1 k * a (S k) k + b1 (S k) * a (S k) (S k) - sum (k + 2) n (fun j => a j (S k) * y j)
               else y i
    else fun i => if i =? k then b1 k * a k k - sum (S k) n (fun j => a j k * y j) else y i in
  fun r => z (perm k s r).
Definition solves (k n : nat) (T : mat) (x b : vec) : Prop :=
  forall i, (k <= i < n)%nat -> sum k n (fun j => T i j * x j) = b i.
Lemma perm_invol k s r : perm k s (perm k s r) = r.
Proof. apply tr_invol. Qed.
Lemma solves_perm n a piv k s T T' z b : step n a piv k s T T' ->
  solves k n (fun i j => T (perm k s i) (perm k s j)) z (fun r => b (perm k s r)) ->
  solves k n T (fun r => z (perm k s r)) b.
Proof.
  intros H Y i Hi. assert (Hp : (k <= at_ k s < n)%nat /\ (k <= snd s < n)%nat).
  { destruct H as (h0 & h1 & _). unfold at_, size in *. destruct (fst s); lia. }
  assert (E := Y (perm k s i) (perm_range _ _ _ _ _ _ _ i H Hi)). cbv beta in E. rewrite !perm_invol in E. rewrite <- E.
  rewrite <- (sum_tr k n (at_ k s) (snd s) (fun j => T i j * z (perm k s j))) by apply Hp. fold (perm k s).
  apply sum_ext. intros r _. now rewrite perm_invol.
Qed.
Lemma step_solve n a piv k s T T' b y : step n a piv k s T T' -> symm k n T ->
  solves (k + size s) n T' y (reduce a k s b) -> solves k n T (extend n a k s b y) b.
Proof.
  intros H Sy E. apply (solves_perm n a piv k s T T' _ b H).
  assert (R : forall r, (k <= r < n)%nat -> (k <= perm k s r < n)%nat) by (intros; eapply perm_range; eauto).
  assert (SyH : forall i j, (k <= i < n)%nat -> (k <= j < n)%nat -> T (perm k s i) (perm k s j) = T (perm k s j) (perm k s i)).
  { intros i j Hi Hj. apply Sy; apply R; assumption. }
  destruct s as [two p]. unfold step in H; cbn [fst snd] in H. destruct H as (Hk & Hp & H).
  set (P := perm k (two, p)) in *. set (b1 := fun r => b (P r)). unfold solves in *. unfold reduce in E. cbn [fst] in E. fold P in E.
  intros i Hi. change (b (P i)) with (b1 i).
  destruct two; cbn [fst snd] in *; unfold size in *; cbn [fst] in *.
  - destruct H as (_ & _ & E1 & E2 & E3 & E4 & Hl & HT).
    rewrite (sum_head k), (sum_head (S k)) by lia.
    replace (S (S k)) with (k + 2)%nat by lia.
    replace (k =? k) with true by (symmetry; apply Nat.eqb_refl).
    replace (S k =? k) with false by (symmetry; apply Nat.eqb_neq; lia).
    replace (S k =? S k) with true by (symmetry; apply Nat.eqb_refl).
    change (b (P k)) with (b1 k). change (b (P (S k))) with (b1 (S k)).
    rewrite (sum_ext (k + 2) n (fun j => T (P i) (P j) * _) (fun j => T (P i) (P j) * y j)) by (intros; nat_cases; reflexivity).
    set (s0 := sum (k + 2) n (fun j => a j k * y j)). set (s1 := sum (k + 2) n (fun j => a j (S k) * y j)).
    set (A := T (P k) (P k)) in *. set (B := T (P k) (P (S k))) in *. set (C := T (P (S k)) (P (S k))) in *.
    assert (EB : T (P (S k)) (P k) = B) by (apply SyH; lia). rewrite EB in *.
    assert (H0 : forall j, (S k < j < n)%nat -> T (P k) (P j) = A * a j k + B * a j (S k) /\ T (P (S k)) (P j) = B * a j k + C * a j (S k)).
    { intros j Hj. destruct (Hl j Hj) as [-> ->]. rewrite (SyH k j), (SyH (S k) j) by lia.
      set (h0 := T (P j) (P k)). set (h1 := T (P j) (P (S k))). split.
      - transitivity (h0 * (A * a k k + B * a (S k) k) + h1 * (A * a (S k) k + B * a (S k) (S k))); [rewrite E1, E2|]; ring.
      - transitivity (h0 * (B * a k k + C * a (S k) k) + h1 * (B * a (S k) k + C * a (S k) (S k))); [rewrite E3, E4|]; ring. }
    assert (A0 : sum (k + 2) n (fun j => T (P k) (P j) * y j) = A * s0 + B * s1).
    { unfold s0, s1. rewrite <- !sum_scale, <- sum_plus. apply sum_ext. intros j Hj. rewrite (proj1 (H0 j ltac:(lia))). ring. }
    assert (A1 : sum (k + 2) n (fun j => T (P (S k)) (P j) * y j) = B * s0 + C * s1).
    { unfold s0, s1. rewrite <- !sum_scale, <- sum_plus. apply sum_ext. intros j Hj. rewrite (proj2 (H0 j ltac:(lia))). ring. }
    assert (Hc : i = k \/ i = S k \/ (S k < i)%nat) by lia. destruct Hc as [-> | [-> | Hc]].
    + rewrite A0. fold A B. transitivity (b1 k * (A * a k k + B * a (S k) k) + b1 (S k) * (A * a (S k) k + B * a (S k) (S k))); [ring|rewrite E1, E2; ring].
    + rewrite A1, EB. fold C. transitivity (b1 k * (B * a k k + C * a (S k) k) + b1 (S k) * (B * a (S k) k + C * a (S k) (S k))); [ring|rewrite E3, E4; ring].
    + assert (EE := E i ltac:(lia)). cbv beta in EE. fold (b1 i) (b1 k) (b1 (S k)) in EE.
      rewrite (sum_ext (k + 2) n (fun j => T (P i) (P j) * y j)
        (fun j => T' i j * y j + (a i k * (T (P k) (P j) * y j) + a i (S k) * (T (P (S k)) (P j) * y j)))).
      2:{ intros j Hj. rewrite (HT i j) by lia. ring. }
      rewrite !sum_plus, !sum_scale, A0, A1, EE.
      destruct (H0 i ltac:(lia)) as [F0 F1]. rewrite (SyH i k), (SyH i (S k)), F0, F1 by lia.
      transitivity (b1 i + a i k * (b1 k * (A * a k k + B * a (S k) k) + b1 (S k) * (A * a (S k) k + B * a (S k) (S k)) - b1 k)
        + a i (S k) * (b1 k * (B * a k k + C * a (S k) k) + b1 (S k) * (B * a (S k) k + C * a (S k) (S k)) - b1 (S k))); [ring|].
      rewrite E1, E2, E3, E4. ring.
  - destruct H as (_ & E1 & Hl & HT). replace (k + 1)%nat with (S k) in * by lia.
    rewrite (sum_head k) by lia.
    replace (k =? k) with true by (symmetry; apply Nat.eqb_refl).
    change (b (P k)) with (b1 k).
    rewrite (sum_ext (S k) n (fun j => T (P i) (P j) * _) (fun j => T (P i) (P j) * y j)) by (intros; nat_cases; reflexivity).
    set (s0 := sum (S k) n (fun j => a j k * y j)). set (A := T (P k) (P k)) in *.
    assert (H0 : forall j, (k < j < n)%nat -> T (P k) (P j) = A * a j k).
    { intros j Hj. rewrite (Hl j Hj). rewrite (SyH k j) by lia. transitivity (T (P j) (P k) * (A * a k k)); [rewrite E1|]; ring. }
    assert (A0 : sum (S k) n (fun j => T (P k) (P j) * y j) = A * s0).
    { unfold s0. rewrite <- !sum_scale. apply sum_ext. intros j Hj. rewrite (H0 j ltac:(lia)). ring. }
    assert (Hc : i = k \/ (k < i)%nat) by lia. destruct Hc as [-> | Hc].
    + rewrite A0. fold A. transitivity (b1 k * (A * a k k)); [ring|rewrite E1; ring].
    + assert (EE := E i ltac:(lia)). cbv beta in EE. fold (b1 i) (b1 k) in EE.
      rewrite (sum_ext (S k) n (fun j => T (P i) (P j) * y j) (fun j => T' i j * y j + a i k * (T (P k) (P j) * y j))).
      2:{ intros j Hj. rewrite (HT i j) by lia. ring. }
      rewrite !sum_plus, !sum_scale, A0, EE. rewrite (SyH i k), (H0 i) by lia.
      transitivity (b1 i + a i k * (b1 k * (A * a k k) - b1 k)); [ring|]. rewrite E1. ring.
Qed.
