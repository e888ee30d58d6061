(** Bunch-Kaufman: the blocked factorisation, and the whole of compute. *)
From Coq Require Import Reals List Arith ZArith Bool Lia Lra Psatz.
From Verif Require Import BkModel BkProofs BkSolve BkFactor.
Import ListNotations.
Local Open Scope R_scope.

Definition sing (k n : nat) (T : mat) : Prop :=
  exists v, (exists i, (k <= i < n)%nat /\ v i <> 0) /\ solves k n T v (fun _ => 0).
Lemma zero_col_sing e n T : (e < n)%nat -> (forall i, (e <= i < n)%nat -> T i e = 0) -> sing e n T.
Proof.
  intros He H. exists (fun j => if j =? e then 1 else 0). split.
  - exists e. split; [lia|]. rewrite Nat.eqb_refl. lra.
  - intros i Hi. rewrite (sum_one e n _ e) by (try lia; intros j _ Hj; rewrite (proj2 (Nat.eqb_neq j e) Hj); ring).
    rewrite H by lia. ring.
Qed.

(** ** row exchanges in the columns of the block *)
Lemma sl_app l : forall k l' a, sl k (l ++ l') a = sl (k + fold_right (fun s m => size s + m) 0 l)%nat l' (sl k l a).
Proof.
  induction l as [|s l IH]; intros k l' a; simpl; [now rewrite Nat.add_0_r|]. rewrite IH. now rewrite Nat.add_assoc.
Qed.
Lemma sl_ext l : forall k a b c, (forall r, a r c = b r c) -> forall r, sl k l a r c = sl k l b r c.
Proof.
  induction l as [|s l IH]; intros k a b c E r; simpl; [apply E|]. apply IH. intros q. unfold swap_rows. destruct (c <? k); [|apply E].
  destruct (q =? at_ k s); [apply E|]. destruct (q =? snd s); apply E.
Qed.
Lemma sl_high n a0 piv l : forall k T e T' a r c, steps n a0 piv k l T e T' -> (forall s l', l = l' ++ [s] -> e <= c + size s)%nat -> sl k l a r c = a r c.
Proof.
  induction l as [|s l IH] using rev_ind; intros k T e T' a r c H Hc; [reflexivity|].
  destruct (steps_split _ _ _ _ _ _ _ _ _ H) as (m & T1 & H1 & H2). simpl in H2. destruct H2 as (T2 & H2 & E & _).
  rewrite sl_app. rewrite <- (steps_len _ _ _ _ _ _ _ _ H1). simpl. specialize (Hc s l eq_refl).
  unfold swap_rows at 1. rewrite (proj2 (Nat.ltb_ge c m)) by lia. apply (IH _ _ _ _ _ _ _ H1).
  intros s' l' ->. clear - H1 Hc E. lia.
Qed.
Lemma absp_neg o piv j p : absp o piv j = (-1 - Z.of_nat p)%Z -> (o <= p)%nat ->
  (piv j <? 0)%Z = true /\ (o + Z.to_nat (-1 - piv j))%nat = p.
Proof. unfold absp. intros H Hp. destruct (Z.leb_spec 0 (piv j)); [lia|]. split; [apply Z.ltb_lt; lia|lia]. Qed.
Lemma absp_pos o piv j p : absp o piv j = Z.of_nat p -> (o <= p)%nat ->
  (piv j <? 0)%Z = false /\ (o + Z.to_nat (piv j))%nat = p.
Proof. unfold absp. intros H Hp. destruct (Z.leb_spec 0 (piv j)); [|lia]. split; [apply Z.ltb_ge; lia|lia]. Qed.

Lemma undo_ok n ar o piv l : forall fuel T k T' a, steps n ar (absp o piv) o l T k T' -> l <> [] -> (k - o <= fuel)%nat ->
  exists a', undo_rows fuel o (k - 1) a piv = Success a' /\
    ((forall r c, (o <= c < k)%nat -> a r c = sl o l ar r c) -> forall r c, (o <= c < k)%nat -> a' r c = ar r c) /\
    (forall r c, ~ (o <= c < k)%nat \/ (r < c)%nat \/ (n <= r)%nat -> a' r c = a r c).
Proof.
  induction l as [|s l IH] using rev_ind; intros fuel T k T' a H Hl Hf; [congruence|].
  destruct (steps_split _ _ _ _ _ _ _ _ _ H) as (m & T1 & H1 & H2). simpl in H2. destruct H2 as (T2 & H2 & E & _).
  assert (Lm := steps_le _ _ _ _ _ _ _ _ H1). assert (Ls : (size s = 1 \/ size s = 2)%nat) by (unfold size; destruct (fst s); auto).
  destruct fuel; [lia|]. cbn [undo_rows]. cbv zeta.
  assert (PS : (m + size s <= n)%nat /\ (at_ m s <= snd s < n)%nat) by (split; apply H2). destruct PS as [Hsz Hsn].
  assert (Ej : (k - 1)%nat = at_ m s) by (unfold at_, size in *; destruct (fst s); lia).
  assert (PV : exists neg, (piv (k - 1)%nat <? 0)%Z = neg /\ (o + Z.to_nat (if neg then -1 - piv (k - 1)%nat else piv (k - 1)%nat))%nat = snd s /\
     (if neg then k - 1 - 1 else k - 1)%nat = m).
  { destruct H2 as (_ & _ & H2). rewrite Ej. unfold at_, size in *. destruct (fst s) eqn:Fs.
    - destruct H2 as (_ & Q & _). destruct (absp_neg o piv (S m) (snd s) Q ltac:(lia)) as [Q1 Q2]. exists true. rewrite Q1. repeat split; auto. lia.
    - destruct H2 as (Q & _). destruct (absp_pos o piv m (snd s) Q ltac:(lia)) as [Q1 Q2]. exists false. rewrite Q1. repeat split; auto. }
  destruct PV as (neg & -> & -> & ->). rewrite Ej.
  assert (SL : forall r c, sl o (l ++ [s]) ar r c = if c <? m then sl o l ar (tr (at_ m s) (snd s) r) c else sl o l ar r c).
  { intros r c. rewrite sl_app. rewrite <- (steps_len _ _ _ _ _ _ _ _ H1). simpl. unfold swap_rows, tr. destruct (c <? m); [|reflexivity].
    nat_cases; congruence. }
  assert (SH : forall r c, (m <= c)%nat -> sl o l ar r c = ar r c).
  { intros r c Hc. apply (sl_high _ _ _ _ _ _ _ _ _ _ _ H1). intros. lia. }
  destruct (Nat.eqb_spec m o) as [->|Hmo].
  - exists a. split; [reflexivity|]. split; [|reflexivity]. intros HA r c Hc. rewrite HA by lia. rewrite SL. nat_cases; apply SH; lia.
  - set (a1 := if snd s =? at_ m s then a else _).
    assert (A1 : forall r c, a1 r c = if (o <=? c) && (c <? m) then a (tr (at_ m s) (snd s) r) c else a r c).
    { intros r c. unfold a1, tr. destruct (Nat.eqb_spec (snd s) (at_ m s)) as [Es|Es].
      - rewrite <- Es. nat_cases; congruence.
      - nat_cases; congruence. }
    assert (FR : forall r c, ~ (o <= c < k)%nat \/ (r < c)%nat \/ (n <= r)%nat -> a1 r c = a r c).
    { intros r c Hrc. rewrite A1. destruct (Nat.leb_spec o c); [|reflexivity]. destruct (Nat.ltb_spec c m); [|reflexivity]. cbn [andb].
      rewrite tr_o; [reflexivity| |]; unfold at_, size in *; destruct (fst s); lia. }
    clearbody a1.
    destruct (Nat.eqb_spec (m - 1) o) as [Hm1|Hm1].
    + exists a1. split; [reflexivity|]. split; [|exact FR]. intros HA r c Hc. rewrite A1. destruct (Nat.ltb_spec c m).
      * replace (o <=? c) with true by (symmetry; apply Nat.leb_le; lia). cbn [andb]. rewrite HA, SL by lia. replace (c <? m) with true by (symmetry; apply Nat.ltb_lt; lia).
        rewrite tr_invol. apply (sl_high _ _ _ _ _ _ _ _ _ _ _ H1). intros s' l' ->.
        assert (size s' >= 1)%nat by (unfold size; destruct (fst s'); lia). lia.
      * rewrite andb_false_r. rewrite HA, SL by lia. nat_cases. apply SH. lia.
    + destruct (IH fuel _ _ _ a1 H1) as (a2 & U1 & U2 & U3); [|lia|].
      { intros ->. simpl in H1. lia. }
      exists a2. split; [exact U1|]. split.
      * intros HA r c Hc. destruct (le_lt_dec m c).
        -- rewrite U3 by lia. rewrite A1. rewrite (proj2 (Nat.ltb_ge c m)) by lia. rewrite andb_false_r, HA, SL by lia. nat_cases. apply SH. lia.
        -- apply U2; [|lia]. intros r' c' Hc'. rewrite A1. replace ((o <=? c') && (c' <? m)) with true by (symmetry; apply andb_true_iff; split; [apply Nat.leb_le|apply Nat.ltb_lt]; lia).
           rewrite HA, SL by lia. replace (c' <? m) with true by (symmetry; apply Nat.ltb_lt; lia). now rewrite tr_invol.
      * intros r c Hrc. rewrite U3 by lia. apply FR. lia.
Qed.

(** ** one round *)
Lemma move_lower_at o n k kk kp a i j : (o <= k)%nat -> (k <= kk)%nat -> (kk < kp)%nat ->
  move_lower o n k kk kp a i j =
  if (o <=? j) && (j <? k) then a (tr kk kp i) j
  else if (i =? kp) && (j =? kp) then a kk kk
  else if (i =? kp) && (kk <? j) && (j <? kp) then a j kk
  else if (kp <? i) && (i <? n) && (j =? kp) then a i kk else a i j.
Proof.
  intros H1 H2 H3. unfold move_lower. cbv zeta.
  set (a1 := upd a kp kp (a kk kk)). set (a2 := for_ (S kk) kp _ a1).
  assert (G : forall p q, a2 p q = if (p =? kp) && (kk <? q) && (q <? kp) then a1 q kk else a1 p q).
  { unfold a2. apply (for_ind (fun m (s : mat) => forall p q, s p q = if (p =? kp) && (kk <? q) && (q <? m) then a1 q kk else a1 p q)); [lia| |].
    - intros p q. nat_cases; reflexivity.
    - intros m s Hm IH p q. unfold upd at 1. rewrite !IH. nat_cases; reflexivity. }
  clearbody a2. unfold tr. rewrite !G. unfold a1, upd. nat_cases; reflexivity.
Qed.
Lemma store_one_at n k a w i j : (k < n)%nat -> store_one n k a w i j =
  if (i =? k) && (j =? k) then 1 / w k k else if (k <? i) && (i <? n) && (j =? k) then w i k * (1 / w k k) else a i j.
Proof. intros. unfold store_one, upd. nat_cases; reflexivity. Qed.
Lemma store_two_at n k a w i j : (S k < n)%nat ->
  let q := 1 / Rabs (w (S k) k) in let d11 := q * w (S k) (S k) in let d22 := q * w k k in
  let d := 1 / (d11 * d22 - 1) * q in let d21 := w (S k) k * q in
  store_two n k a w i j =
  if (i =? k) && (j =? k) then d11 * d
  else if (i =? S k) && (j =? k) then - d21 * d
  else if (i =? S k) && (j =? S k) then d22 * d
  else if (S k <? i) && (i <? n) && (j =? k) then (w i k * d11 - w i (S k) * d21) * d
  else if (S k <? i) && (i <? n) && (j =? S k) then (w i (S k) * d22 - w i k * d21) * d else a i j.
Proof.
  intros Hn q d11 d22 d d21. unfold store_two. cbv zeta. fold q. fold d11 d22 d21. fold d.
  set (a1 := upd (upd (upd a k k (d11 * d)) (S k) k (- d21 * d)) (S k) (S k) (d22 * d)).
  set (f := fun (a : mat) (j : nat) => upd _ j (S k) _).
  assert (G : forall p r, for_ (S (S k)) n f a1 p r =
     if (S k <? p) && (p <? n) && (r =? k) then (w p k * d11 - w p (S k) * d21) * d
     else if (S k <? p) && (p <? n) && (r =? S k) then (w p (S k) * d22 - w p k * d21) * d else a1 p r).
  { apply (for_ind (fun m (s : mat) => forall p r, s p r =
     if (S k <? p) && (p <? m) && (r =? k) then (w p k * d11 - w p (S k) * d21) * d
     else if (S k <? p) && (p <? m) && (r =? S k) then (w p (S k) * d22 - w p k * d21) * d else a1 p r)); [lia| |].
    - intros p r. nat_cases; reflexivity.
    - intros m s Hm IH p r. unfold f, upd. rewrite IH. nat_cases; reflexivity. }
  rewrite G. unfold a1, upd. nat_cases; reflexivity.
Qed.

(** what remains to be factored when k columns are done *)
Definition rest (o k : nat) (a w : mat) : mat := fun i j => sym a i j - sum o k (fun c => a i c * w j c).
Record binv (o n k : nat) (a0 : mat) (piv0 : nat -> Z) (a w : mat) (piv : nat -> Z) (l : list (bool * nat)) (ar : mat) : Prop := {
  bi_steps : steps n ar (absp o piv) o l (sym a0) k (rest o k a w);
  bi_cols : forall r c, (o <= c < k)%nat -> a r c = sl o l ar r c;
  bi_frame : forall i j, ~ (o <= j <= i /\ i < n)%nat -> a i j = a0 i j;
  bi_piv : forall j, (j < o \/ k <= j)%nat -> piv j = piv0 j }.

Lemma block_round_ok o n k a0 piv0 a w piv l ar : (o <= k < n)%nat -> binv o n k a0 piv0 a w piv l ar ->
  match block_round o n k a w piv with
  | None => sing o n (sym a0)
  | Some (a', w', piv', ks) => exists s ar', ks = size s /\ (k + size s <= n)%nat /\ binv o n (k + ks) a0 piv0 a' w' piv' (l ++ [s]) ar'
  end.
Proof.
  intros Hk [BS BC BF BP]. set (U := rest o k a w) in *.
  assert (SyU : symm k n U) by (eapply steps_symm; [exact BS|apply sym_symm]).
  unfold block_round. cbv zeta.
  set (wk := load_col o n k k k (fun i => a i k) a w).
  assert (WK : forall i, (k <= i < n)%nat -> wk i k = U i k).
  { intros i Hi. unfold wk, load_col, U, rest. rewrite sym_lo by lia. nat_cases; reflexivity. }
  assert (WKo : forall i c, c <> k -> wk i c = w i c).
  { intros i c Hc. unfold wk, load_col. nat_cases; reflexivity. }
  clearbody wk. rewrite (WK k) by lia.
  assert (EC : col_max n k (fun i => wk i k) = col_max n k (fun i => U i k)).
  { unfold col_max. destruct (Nat.ltb_spec (S k) n); [|reflexivity]. apply max_coeff_ext; [|lia]. intros j Hj. apply WK. lia. }
  rewrite EC. clear EC. destruct (col_max n k (fun i => U i k)) as [colmax imax] eqn:HC.
  assert (Him : (S k <= imax)%nat).
  { unfold col_max in HC. destruct (Nat.ltb_spec (S k) n).
    - destruct (max_coeff_ok (fun i => U i k) (S k) n ltac:(lia)) as (M1 & _ & _). rewrite HC in M1. cbn in M1. lia.
    - injection HC as <- <-. lia. }
  destruct (Reqb_spec (Rmax (Rabs (U k k)) colmax) 0) as [Z|NZ].
  - (* no pivot *)
    apply (steps_kernel _ _ _ _ _ _ _ _ BS (sym_symm a0 o n)). apply zero_col_sing; [lia|]. intros i Hi.
    assert (A := Rmax_l (Rabs (U k k)) colmax). assert (B := Rmax_r (Rabs (U k k)) colmax). rewrite Z in A, B.
    destruct (Nat.eq_dec i k) as [->|Hne].
    + destruct (Req_dec (U k k) 0) as [E|E]; [exact E|]. apply Rabs_pos_lt in E. lra.
    + unfold col_max in HC. destruct (Nat.ltb_spec (S k) n); [|lia].
      destruct (max_coeff_ok (fun i => U i k) (S k) n ltac:(lia)) as (_ & _ & M). rewrite HC in M. specialize (M i ltac:(lia)). cbn [fst] in M.
      destruct (Req_dec (U i k) 0) as [E|E]; [exact E|]. apply Rabs_pos_lt in E. lra.
  - set (w1 := load_col o n k (S k) imax (fun i => if i <? imax then a imax i else a i imax) a wk).
    assert (W1 : (imax < n)%nat -> forall i, (k <= i < n)%nat -> w1 i (S k) = U i imax).
    { intros Hi i Hin. unfold w1, load_col, U, rest.
      replace ((k <=? i) && (i <? n) && (S k =? S k)) with true by (symmetry; rewrite Nat.eqb_refl, andb_true_r; apply andb_true_iff; split; [apply Nat.leb_le|apply Nat.ltb_lt]; lia).
      f_equal.
      - destruct (Nat.ltb_spec i imax); [rewrite sym_up by lia|rewrite sym_lo by lia]; reflexivity.
      - apply sum_ext. intros c Hc. rewrite WKo by lia. reflexivity. }
    assert (W1o : forall i c, c <> S k -> w1 i c = wk i c).
    { intros i c Hc. unfold w1, load_col. nat_cases; reflexivity. }
    clearbody w1.
    destruct (choose k imax (Rabs (U k k)) colmax _ (Rabs (w1 imax (S k)))) as [kp two] eqn:HCh.
    assert (P := choose_ok U n k colmax imax (row_max n k imax (fun i => w1 i (S k)) (fun i => w1 i (S k))) (Rabs (w1 imax (S k))) kp two ltac:(lia) SyU HC NZ). destruct P as (P1 & P2 & P3) ; [|exact HCh|].
    { intros Hi. split; [|now rewrite W1 by lia]. unfold row_max.
      rewrite (proj2 (Nat.ltb_lt k imax)) by lia.
      rewrite (max_coeff_ext (fun i => w1 i (S k)) (fun j => U imax j) k imax) by (try lia; intros; rewrite W1 by lia; apply SyU; lia).
      destruct (Nat.ltb_spec (S imax) n); [|reflexivity].
      rewrite (max_coeff_ext (fun i => w1 i (S k)) (fun i => U i imax) (S imax) n) by (try lia; intros; rewrite W1 by lia; reflexivity). reflexivity. }
    set (w2 := if negb two && (kp =? imax) then _ else _).
    assert (W2k : forall i, (k <= i < n)%nat -> w2 i k = U i (if two then k else kp)).
    { intros i Hi. unfold w2. destruct two; cbn [negb andb].
      - destruct (Rleb (colmax * alpha) (Rabs (U k k))); [|rewrite W1o by lia]; apply WK; lia.
      - destruct (Nat.eqb_spec kp imax) as [->|Hne].
        + destruct P2 as [P2|[[_ P2] P2']]; [lia|]. rewrite P2'. nat_cases. apply W1; lia.
        + destruct P2 as [->|P2]; [|lia]. destruct (Rleb (colmax * alpha) (Rabs (U k k))); [|rewrite W1o by lia]; apply WK; lia. }
    assert (W2s : two = true -> forall i, (k <= i < n)%nat -> w2 i (S k) = U i kp).
    { intros -> i Hi. unfold w2. cbn [negb andb]. destruct P2 as [P2|[[-> P2] P2']]; [lia|]. rewrite P2'. apply W1; lia. }
    assert (W2o : forall i c, (c < k)%nat -> w2 i c = w i c).
    { intros i c Hc. unfold w2. assert (X : (if Rleb (colmax * alpha) (Rabs (U k k)) then wk else w1) i c = w i c).
      { destruct (Rleb _ _); [apply WKo; lia|]. rewrite W1o, WKo by lia. reflexivity. }
      destruct (negb two && (kp =? imax)); [|exact X]. nat_cases; exact X. }
    clearbody w2. clear HCh W1 W1o WK WKo wk w1.
    set (kk := if two then S k else k).
    assert (Hkk : (k <= kk)%nat /\ (kk <= kp < n)%nat) by (unfold kk; destruct two; lia).
    set (a1 := if kp =? kk then a else move_lower o n k kk kp a). set (w' := if kp =? kk then w2 else swap_w o kk kp w2).
    assert (EP : (if kp =? kk then (a, w2) else (move_lower o n k kk kp a, swap_w o kk kp w2)) = (a1, w')) by (unfold a1, w'; destruct (kp =? kk); reflexivity).
    rewrite EP. clear EP.
    assert (Ww : forall i c, (o <= c <= kk)%nat -> w' i c = w2 (tr kk kp i) c).
    { intros i c Hc. unfold w', swap_w, tr. destruct (Nat.eqb_spec kp kk) as [->|]; nat_cases; congruence. }
    assert (A1c : forall i c, (o <= c < k)%nat -> a1 i c = a (tr kk kp i) c).
    { intros i c Hc. unfold a1. destruct (Nat.eqb_spec kp kk) as [->|]; [now rewrite tr_id|]. rewrite move_lower_at by lia. nat_cases; reflexivity. }
    assert (A1l : forall i j, (kk < j)%nat -> (j <= i)%nat -> (i < n)%nat -> a1 i j = sym a (tr kk kp i) (tr kk kp j)).
    { intros i j Hj Hji Hi. unfold a1. destruct (Nat.eqb_spec kp kk) as [->|]; [now rewrite !tr_id, sym_lo|]. rewrite move_lower_at by lia.
      replace ((o <=? j) && (j <? k)) with false by (symmetry; apply andb_false_iff; right; apply Nat.ltb_ge; lia).
      destruct (Nat.eq_dec i kp) as [->|Ni]; [rewrite tr_r|rewrite (tr_o kk kp i) by lia];
      (destruct (Nat.eq_dec j kp) as [->|Nj]; [rewrite ?tr_r|rewrite (tr_o kk kp j) by lia]); unfold sym; nat_cases; reflexivity. }
    assert (A1f : forall i j, ~ (o <= j <= i /\ i < n)%nat -> a1 i j = a i j).
    { intros i j H. unfold a1. destruct (Nat.eqb_spec kp kk) as [->|]; [reflexivity|]. rewrite move_lower_at by lia.
      destruct (Nat.leb_spec o j); [destruct (Nat.ltb_spec j k)|]; cbn [andb].
      - rewrite tr_o by lia. reflexivity.
      - nat_cases; reflexivity.
      - nat_cases; reflexivity. }
    clearbody a1 w'.
    set (a' := if two then store_two n k a1 w' else store_one n k a1 w').
    set (H := fun i j => U (tr kk kp i) (tr kk kp j)).
    assert (R : forall r, (k <= r < n)%nat -> (k <= tr kk kp r < n)%nat) by (intros; apply tr_range; lia).
    assert (SyH : forall i j, (k <= i < n)%nat -> (k <= j < n)%nat -> H i j = H j i) by (intros; apply SyU; apply R; assumption).
    assert (WH : forall i, (k <= i < n)%nat -> w' i k = H i k).
    { intros i Hi. rewrite Ww by lia. rewrite W2k by (apply R; lia). unfold H. f_equal. unfold kk. destruct two; [rewrite tr_o by lia|rewrite tr_l]; reflexivity. }
    assert (WHs : two = true -> forall i, (k <= i < n)%nat -> w' i (S k) = H i (S k)).
    { intros Et i Hi. rewrite Ww by (unfold kk; rewrite Et; lia). rewrite W2s by (auto; apply R; lia). unfold H. f_equal. unfold kk. rewrite Et. now rewrite tr_l. }
    assert (Wlow : forall i c, (o <= c < k)%nat -> w' i c = w (tr kk kp i) c).
    { intros i c Hc. rewrite Ww by lia. apply W2o. lia. }
    assert (A'o : forall i j, (j < k \/ kk < j)%nat -> a' i j = a1 i j).
    { intros i j Hj. unfold a', kk in *. destruct two; [rewrite store_two_at by lia|rewrite store_one_at by lia]; nat_cases; reflexivity. }
    assert (A'f : forall i j, ~ (o <= j <= i /\ i < n)%nat -> a' i j = a1 i j).
    { intros i j Hij. unfold a', kk in *. destruct two; [rewrite store_two_at by lia|rewrite store_one_at by lia]; nat_cases; reflexivity. }
    (* the rest of the new state is H minus the new columns *)
    assert (RS : forall i j, (kk < i < n)%nat -> (kk < j < n)%nat ->
      sym a' i j - sum o k (fun c => a' i c * w' j c) = H i j).
    { intros i j Hi Hj. unfold H, U, rest. f_equal.
      - unfold sym at 1. destruct (Nat.leb_spec j i); rewrite A'o, A1l by lia; [reflexivity|]. unfold sym. nat_cases; try reflexivity. now replace (tr kk kp i) with (tr kk kp j) by lia.
      - apply sum_ext. intros c Hc. rewrite A'o, A1c, Wlow by lia. reflexivity. }
    exists (two, kp), (fun i j => if k <=? j then a' i j else ar i j).
    split; [destruct two; reflexivity|]. split; [unfold size; cbn [fst]; unfold kk in *; destruct two; lia|].
    assert (Hks : (if two then 2 else 1)%nat = size (two, kp)) by (destruct two; reflexivity). rewrite Hks.
    assert (Lk := steps_len _ _ _ _ _ _ _ _ BS).
    assert (ESZ : (k + size (two, kp) = S kk)%nat) by (unfold size, kk; cbn [fst]; destruct two; lia).
    constructor.
    + eapply steps_app.
      * eapply steps_ext; [exact BS|reflexivity|intros i j _ _; exact (eq_refl (U i j))| |].
        -- intros i j Hj Hi. nat_cases. reflexivity.
        -- intros i Hi. unfold absp. rewrite record_out by lia. reflexivity.
      * simpl. exists (rest o (S kk) a' w'). rewrite ESZ. split; [|split; reflexivity].
        unfold step, perm, at_, size. cbn [fst snd]. fold kk. split; [unfold kk in *; destruct two; lia|]. split; [lia|].
        assert (AP := absp_record o k kp two piv ltac:(lia)).
        destruct two; unfold kk in *; clear kk.
        -- destruct AP as [AP0 AP1]. split; [exact AP0|]. split; [exact AP1|].
           replace (k <=? k) with true by (symmetry; apply Nat.leb_le; lia). replace (k <=? S k) with true by (symmetry; apply Nat.leb_le; lia).
           fold (H k k) (H k (S k)) (H (S k) k) (H (S k) (S k)).
           assert (B0 : H k k = U k k) by (unfold H; rewrite (tr_o (S k) kp k) by lia; reflexivity).
           assert (B1 : H (S k) k = U kp k) by (unfold H; rewrite (tr_o (S k) kp k), tr_l by lia; reflexivity).
           assert (B2 : H (S k) (S k) = U kp kp) by (unfold H; rewrite tr_l by lia; reflexivity).
           destruct P3 as [P3 P4].
           destruct (two_inverse (H k k) (H (S k) k) (H (S k) (S k))) as (I1 & I2 & I3 & I4); [rewrite B1; exact P4|rewrite B0, B1, B2; exact P3|].
           set (q := 1 / Rabs (H (S k) k)) in *. set (d11 := q * H (S k) (S k)) in *. set (d22 := q * H k k) in *.
           set (d := 1 / (d11 * d22 - 1) * q) in *. set (d21 := H (S k) k * q) in *.
           assert (ST : forall i j, a' i j = if (i =? k) && (j =? k) then d11 * d
              else if (i =? S k) && (j =? k) then - d21 * d
              else if (i =? S k) && (j =? S k) then d22 * d
              else if (S k <? i) && (i <? n) && (j =? k) then (w' i k * d11 - w' i (S k) * d21) * d
              else if (S k <? i) && (i <? n) && (j =? S k) then (w' i (S k) * d22 - w' i k * d21) * d else a1 i j).
           { intros i j. unfold a'. rewrite store_two_at by lia. rewrite !(WH k), !(WH (S k)), !(WHs eq_refl (S k)) by lia. reflexivity. }
           assert (Ekk : a' k k = d11 * d) by (rewrite ST; nat_cases; reflexivity).
           assert (Eks : a' (S k) k = - d21 * d) by (rewrite ST; nat_cases; reflexivity).
           assert (Ess : a' (S k) (S k) = d22 * d) by (rewrite ST; nat_cases; reflexivity).
           rewrite <- Ekk, <- Eks in I1. rewrite <- Eks, <- Ess in I2. rewrite <- Ekk, <- Eks in I3. rewrite <- Eks, <- Ess in I4.
           rewrite (SyH k (S k)) by lia.
           assert (Ecol : forall i, (S k < i < n)%nat -> a' i k = H i k * a' k k + H i (S k) * a' (S k) k /\ a' i (S k) = H i k * a' (S k) k + H i (S k) * a' (S k) (S k)).
           { intros i Hi. rewrite Ekk, Eks, Ess. split; rewrite ST, (WH i), (WHs eq_refl i) by lia; nat_cases; ring. }
           repeat split; auto.
           ++ fold (H i k) (H i (S k)). now apply Ecol.
           ++ fold (H i k) (H i (S k)). now apply Ecol.
           ++ intros i j Hi Hj. fold (H i j) (H k j) (H (S k) j). unfold rest. rewrite !sum_last by lia.
              rewrite <- (RS i j) by lia. rewrite (WH j), (WHs eq_refl j), (SyH k j), (SyH (S k) j) by lia. ring.
        -- split; [exact AP|]. replace (k <=? k) with true by (symmetry; apply Nat.leb_le; lia). fold (H k k).
           assert (B0 : H k k <> 0) by (unfold H; rewrite tr_l; exact P3).
           assert (ST : forall i j, a' i j = if (i =? k) && (j =? k) then 1 / H k k else if (k <? i) && (i <? n) && (j =? k) then w' i k * (1 / H k k) else a1 i j).
           { intros i j. unfold a'. rewrite store_one_at by lia. rewrite !(WH k) by lia. reflexivity. }
           assert (Ekk : a' k k = 1 / H k k) by (rewrite ST; nat_cases; reflexivity).
           repeat split.
           ++ rewrite Ekk. field. exact B0.
           ++ intros i Hi. fold (H i k). rewrite Ekk, ST, (WH i) by lia. nat_cases; reflexivity.
           ++ intros i j Hi Hj. fold (H i j) (H k j). unfold rest. rewrite !sum_last by lia.
              rewrite <- (RS i j) by lia. rewrite (WH j), (SyH k j) by lia. ring.
    + intros r c Hc. rewrite sl_app. rewrite <- Lk. simpl.
      destruct (Nat.leb_spec k c).
      * unfold swap_rows. rewrite (proj2 (Nat.ltb_ge c k)) by lia.
        rewrite (sl_high _ _ _ _ _ _ _ _ _ _ _ BS) by (intros; lia). nat_cases. reflexivity.
      * rewrite A'o, A1c by lia.
        assert (X : forall q, sl o l (fun i j => if k <=? j then a' i j else ar i j) q c = a q c).
        { intros q. rewrite BC by lia. apply sl_ext. intros p. nat_cases. reflexivity. }
        unfold swap_rows. rewrite (proj2 (Nat.ltb_lt c k)) by lia. rewrite !X. unfold at_. cbn [fst snd]. fold kk. unfold tr. nat_cases; reflexivity.
    + intros i j Hij. rewrite A'f, A1f by assumption. now apply BF.
    + intros j Hj. rewrite record_out by (unfold size, kk in *; cbn [fst] in *; destruct two; lia). apply BP. lia.
Qed.

Lemma block_loop_ok o n nb a0 piv0 : forall fuel k a w piv l ar, (o <= k <= n)%nat -> (o + nb - k <= fuel)%nat -> (o < n)%nat -> (2 <= nb)%nat ->
  (o < k -> l <> [])%nat -> binv o n k a0 piv0 a w piv l ar ->
  match block_loop fuel o n nb k a w piv with
  | Success (a', piv', e) => (o < e <= n)%nat /\ ran o n o a0 piv0 e a' piv'
  | NumericalIssue => sing o n (sym a0)
  | OutOfFuel => False
  end.
Proof.
  induction fuel; intros k a w piv l ar Hk Hf Hon Hnb Hl B; cbn [block_loop].
  all: destruct (Nat.ltb_spec k n) as [Hkn|Hkn]; destruct (Nat.ltb_spec (S (k - o)) nb) as [Hb|Hb]; cbn [andb].
  1: lia.
  4:{ assert (R := block_round_ok o n k a0 piv0 a w piv l ar ltac:(lia) B). destruct (block_round o n k a w piv) as [[[[a1 w1] piv1] ks]|]; [|exact R].
      destruct R as (s & ar' & -> & Hs & B'). assert (size s >= 1)%nat by (unfold size; destruct (fst s); lia).
      apply (IHfuel (k + size s)%nat a1 w1 piv1 (l ++ [s]) ar'); auto; try lia. intros _ E. now apply app_eq_nil in E. }
  all: (assert (Hok : (o < k)%nat) by lia; specialize (Hl Hok); destruct B as [BS BC BF BP]; cbv zeta;
    set (a1 := fun i j => if (k <=? j) && (j <=? i) && (i <? n) then _ else _);
    destruct (undo_ok n ar o piv l (k - o) _ _ _ a1 BS Hl ltac:(lia)) as (a2 & U1 & U2 & U3);
    rewrite U1; split; [lia|];
    assert (A1 : forall r c, (o <= c < k)%nat -> a1 r c = sl o l ar r c) by (intros r c Hc; unfold a1; rewrite <- BC by lia; nat_cases; reflexivity);
    assert (E2 : forall r c, (o <= c < k)%nat -> a2 r c = ar r c) by (now apply U2);
    split; [lia|]; split; [|split];
    [ exists l; eapply steps_ext; [exact BS|reflexivity| |intros i j Hj Hi; symmetry; apply E2; lia|reflexivity];
      intros i j Hi Hj; assert (SyR : rest o k a w i j = rest o k a w j i) by (apply (steps_symm _ _ _ _ _ _ _ _ BS (sym_symm a0 o n)); assumption);
      unfold sym at 1; destruct (Nat.leb_spec j i);
      [rewrite U3 by lia; unfold a1, rest; rewrite sym_lo by lia; nat_cases; reflexivity
      |rewrite SyR, U3 by lia; unfold a1, rest; rewrite sym_lo by lia; nat_cases; reflexivity]
    | intros i j Hij; destruct (le_lt_dec o j);
       [rewrite U3 by lia|rewrite U3 by lia]; unfold a1; rewrite <- BF by assumption; nat_cases; reflexivity
    | exact BP ]).
Qed.
Lemma one_block_ok o n nb a w piv : (o < n)%nat -> (2 <= nb)%nat ->
  match one_block o n nb a w piv with
  | Success (a', piv', e) => (o < e <= n)%nat /\ ran o n o a piv e a' piv'
  | NumericalIssue => sing o n (sym a)
  | OutOfFuel => False
  end.
Proof.
  intros Ho Hnb. unfold one_block. apply (block_loop_ok o n nb a piv nb o a w piv [] a); try lia.
  constructor; auto.
  - simpl. split; [reflexivity|]. intros i j _ _. unfold rest. rewrite sum_nil by lia. ring.
Qed.

(** ** all blocks *)
Lemma ran_sing o n a piv e a' piv' : ran o n o a piv e a' piv' -> sing e n (sym a') -> sing o n (sym a).
Proof. intros (_ & (l & S) & _) V. exact (steps_kernel _ _ _ _ _ _ _ _ S (sym_symm a o n) V). Qed.
Lemma blocks_ok n nb w A : nb = 0%nat \/ (2 <= nb)%nat -> forall fuel k a piv l, (k <= n)%nat -> (n - k <= fuel)%nat ->
  steps n a piv 0 l (sym A) k (sym a) -> (forall j, (k <= j)%nat -> piv j = 0%Z) ->
  match blocks fuel n nb k w a piv with
  | Success (a', piv') => exists l' T', steps n a' piv' 0 l' (sym A) n T'
  | NumericalIssue => sing 0 n (sym A)
  | OutOfFuel => False
  end.
Proof.
  intros Hnb. 
  assert (CONT : forall k a piv l e a' piv', steps n a piv 0 l (sym A) k (sym a) -> (forall j, (k <= j)%nat -> piv j = 0%Z) -> (k <= n)%nat ->
    ran k n k a piv e a' piv' -> (exists l', steps n a' (shift_pivots k e piv') 0 l' (sym A) e (sym a')) /\
    (forall j, (e <= j)%nat -> shift_pivots k e piv' j = 0%Z)).
  { intros k a piv l e a' piv' St Pz Hk (Le & (l2 & S2) & F & G). split.
    - exists (l ++ l2). eapply steps_app.
      + eapply steps_ext; [exact St|reflexivity|reflexivity| |].
        * intros i j Hj Hi. symmetry. apply F. lia.
        * intros i Hi. unfold shift_pivots. nat_cases; rewrite G by lia; reflexivity.
      + eapply steps_ext; [exact S2|reflexivity|reflexivity|reflexivity|].
        intros i Hi. unfold shift_pivots, absp. nat_cases; try reflexivity.
    - intros j Hj. unfold shift_pivots. nat_cases; rewrite G by lia; apply Pz; lia. }
  assert (DONE : forall fuel k a piv l, (n <= k)%nat -> (k <= n)%nat -> steps n a piv 0 l (sym A) k (sym a) ->
    match blocks fuel n nb k w a piv with
    | Success (a', piv') => exists l' T', steps n a' piv' 0 l' (sym A) n T' | NumericalIssue => sing 0 n (sym A) | OutOfFuel => False end).
  { intros fuel k a piv l H1 H2 St. assert (k = n) by lia. subst k. destruct fuel; cbn [blocks]; rewrite (proj2 (Nat.ltb_ge n n)) by lia; eauto. }
  induction fuel; intros k a piv l Hk Hf St Pz; [apply (DONE 0%nat k a piv l); auto; lia|].
  destruct (le_lt_dec n k); [apply (DONE (S fuel) k a piv l); auto|].
  cbn [blocks]. rewrite (proj2 (Nat.ltb_lt k n)) by lia.
  destruct (Nat.eqb_spec nb 0) as [Hz|Hz]; [cbn [negb andb]|destruct (Nat.ltb_spec nb (n - k)); cbn [negb andb]].
  2:{ assert (OB := one_block_ok k n nb a (w k) piv ltac:(lia) ltac:(lia)). destruct (one_block k n nb a (w k) piv) as [[[a1 piv1] e]| |].
      - destruct OB as [He Ra]. destruct (CONT k a piv l e a1 piv1 St Pz Hk Ra) as [[l' St'] Pz'].
        apply (IHfuel e a1 _ l'); auto; lia.
      - exact (steps_kernel _ _ _ _ _ _ _ _ St (sym_symm A 0 n) OB).
      - exact OB. }
  all: assert (UB := unblocked_ok k n a piv ltac:(lia) ltac:(intros; apply Pz; lia)); destruct (unblocked k n a piv) as [[a1 piv1]| |];
    [ destruct (CONT k a piv l n a1 piv1 St Pz Hk UB) as [[l' St'] Pz']; apply (IHfuel n a1 _ l'); auto; lia
    | destruct UB as (e & a1 & piv1 & Ra & He & Hz0); apply (steps_kernel _ _ _ _ _ _ _ _ St (sym_symm A 0 n));
      apply (ran_sing _ _ _ _ _ _ _ Ra); now apply zero_col_sing
    | exact UB ].
Qed.
