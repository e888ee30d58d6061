(** Bunch-Kaufman: the unblocked factorisation performs elimination steps. *)
From Coq Require Import Reals List Arith ZArith Bool Lia Lra Psatz.
From Verif Require Import BkModel BkProofs BkSolve.
Import ListNotations.
Local Open Scope R_scope.

Definition sym (a : mat) : mat := fun i j => if j <=? i then a i j else a j i.
Lemma sym_lo a i j : (j <= i)%nat -> sym a i j = a i j.
Proof. intros. unfold sym. nat_cases; reflexivity. Qed.
Lemma sym_up a i j : (i <= j)%nat -> sym a i j = a j i.
Proof. intros. unfold sym. nat_cases; try reflexivity. now replace i with j by lia. Qed.
Lemma sym_symm a k n : symm k n (sym a).
Proof. intros i j _ _. unfold sym. nat_cases; try reflexivity. now replace i with j by lia. Qed.

Lemma Rleb_spec x y : reflect (x <= y) (Rleb x y).
Proof. unfold Rleb. destruct (Rle_dec x y); constructor; assumption. Qed.
Lemma Reqb_spec x y : reflect (x = y) (Reqb x y).
Proof. unfold Reqb. destruct (Req_EM_T x y); constructor; assumption. Qed.
Lemma max_coeff_ok f lo hi : (lo < hi)%nat ->
  (lo <= snd (max_coeff f lo hi) < hi)%nat /\ fst (max_coeff f lo hi) = Rabs (f (snd (max_coeff f lo hi))) /\
  forall j, (lo <= j < hi)%nat -> Rabs (f j) <= fst (max_coeff f lo hi).
Proof.
  intros H. unfold max_coeff.
  apply (for_ind (fun m s => (lo <= snd s < m)%nat /\ fst s = Rabs (f (snd s)) /\ forall j, (lo <= j < m)%nat -> Rabs (f j) <= fst s)); [lia| |].
  - cbn. split; [lia|]. split; [reflexivity|]. intros j Hj. replace j with lo by lia. lra.
  - intros j s Hj (I1 & I2 & I3). destruct (Rleb_spec (Rabs (f j)) (fst s)); cbn [fst snd].
    + split; [lia|]. split; [assumption|]. intros i Hi. destruct (Nat.eq_dec i j); [now subst|]. apply I3. lia.
    + split; [lia|]. split; [reflexivity|]. intros i Hi. destruct (Nat.eq_dec i j); [subst; lra|]. assert (X := I3 i ltac:(lia)). lra.
Qed.
Lemma max_coeff_ext f g lo hi : (forall j, (lo <= j < hi)%nat -> f j = g j) -> (lo < hi)%nat -> max_coeff f lo hi = max_coeff g lo hi.
Proof.
  intros E H. unfold max_coeff. rewrite (E lo) by lia. unfold for_.
  assert (G : forall l s, (forall j, In j l -> f j = g j) ->
    fold_left (fun (m : R * nat) j => if Rleb (Rabs (f j)) (fst m) then m else (Rabs (f j), j)) l s =
    fold_left (fun (m : R * nat) j => if Rleb (Rabs (g j)) (fst m) then m else (Rabs (g j), j)) l s).
  { induction l; intros s F; simpl; [reflexivity|]. rewrite (F a) by now left. apply IHl. intros; apply F. now right. }
  apply G. intros j Hj. apply in_seq in Hj. apply E. lia.
Qed.

Lemma alpha_range : 0 < alpha < 1.
Proof.
  unfold alpha. assert (0 < sqrt 17) by (apply sqrt_lt_R0; lra).
  assert (sqrt 17 < 7). { rewrite <- (sqrt_square 7) by lra. apply sqrt_lt_1_alt. lra. }
  lra.
Qed.

(** ** the pivot choice on a symmetric matrix given entry by entry *)
Lemma choose_ok (T : mat) n k colmax imax rowmax aii kp two : (k < n)%nat -> symm k n T ->
  col_max n k (fun i => T i k) = (colmax, imax) -> Rmax (Rabs (T k k)) colmax <> 0 ->
  ((imax < n)%nat -> rowmax = row_max n k imax (fun j => T imax j) (fun i => T i imax) /\ aii = Rabs (T imax imax)) ->
  choose k imax (Rabs (T k k)) colmax rowmax aii = (kp, two) ->
  (if two then S k <= kp < n else k <= kp < n)%nat /\
  (kp = k \/ (kp = imax /\ imax < n)%nat /\ Rleb (colmax * alpha) (Rabs (T k k)) = false) /\
  if two then T k k * T kp kp - T kp k * T kp k <> 0 /\ T kp k <> 0 else T kp kp <> 0.
Proof.
  intros Hk Sy HC HM HR. destruct alpha_range as [a0 a1]. unfold choose.
  assert (P0 : 0 <= Rabs (T k k)) by apply Rabs_pos.
  assert (HC' : (imax < n)%nat /\ (S k <= imax)%nat /\ colmax = Rabs (T imax k) \/ colmax = 0 /\ imax = S k /\ (n <= imax)%nat).
  { unfold col_max in HC. destruct (Nat.ltb_spec (S k) n).
    - left. destruct (max_coeff_ok (fun i => T i k) (S k) n ltac:(lia)) as (M1 & M2 & M3). rewrite HC in *. cbn [fst snd] in *. repeat split; auto; lia.
    - right. injection HC as <- <-. repeat split; lia. }
  destruct (Rleb_spec (colmax * alpha) (Rabs (T k k))) as [L1|L1].
  - intros [= <- <-]. split; [lia|]. split; [now left|]. intros Z. rewrite Z, Rabs_R0 in *. apply HM.
    assert (C0 : colmax <= 0) by nra. assert (C1 : 0 <= colmax) by (destruct HC' as [(_ & _ & ->)|(-> & _)]; [apply Rabs_pos|lra]).
    replace colmax with 0 by lra. apply Rmax_left. lra.
  - destruct HC' as [(Hi & Hi' & EC)|(-> & _ & _)]; [|exfalso; apply L1; rewrite Rmult_0_l; exact P0].
    destruct (HR Hi) as [HR' ->]. clear HR. rename HR' into HR.
    assert (C1 : 0 < colmax) by nra.
    assert (HRm : colmax <= rowmax).
    { rewrite HR. unfold row_max. rewrite (proj2 (Nat.ltb_lt k imax)) by lia.
      destruct (max_coeff_ok (fun j => T imax j) k imax ltac:(lia)) as (_ & _ & M3). specialize (M3 k ltac:(lia)). cbv beta in M3. rewrite <- EC in M3.
      destruct (S imax <? n); [|exact M3]. eapply Rle_trans; [exact M3|apply Rmax_l]. }
    assert (Q : 0 < alpha * colmax * (colmax / rowmax)) by (apply Rmult_lt_0_compat; [nra|]; apply Rdiv_lt_0_compat; lra).
    destruct (Rleb_spec (alpha * colmax * (colmax / rowmax)) (Rabs (T k k))) as [L2|L2].
    + intros [= <- <-]. split; [lia|]. split; [now left|]. intros Z. rewrite Z, Rabs_R0 in L2. lra.
    + destruct (Rleb_spec (alpha * rowmax) (Rabs (T imax imax))) as [L3|L3].
      * intros [= <- <-]. split; [lia|]. split; [right; split; [auto|reflexivity]|]. intros Z. rewrite Z, Rabs_R0 in L3. nra.
      * intros [= <- <-]. split; [lia|]. split; [right; split; [auto|reflexivity]|].
        assert (NZ : T imax k <> 0) by (intros Z; rewrite Z, Rabs_R0 in EC; lra). split; [|exact NZ].
        assert (E : Rabs (T k k) * rowmax < alpha * (colmax * colmax)).
        { apply Rnot_le_lt in L2. replace (alpha * (colmax * colmax)) with (alpha * colmax * (colmax / rowmax) * rowmax) by (field; lra). nra. }
        assert (G : Rabs (T k k * T imax imax) < colmax * colmax).
        { rewrite Rabs_mult. apply Rnot_le_lt in L3. set (u := Rabs (T k k)) in *. set (v := Rabs (T imax imax)) in *. clearbody u v. clear - a0 a1 C1 P0 E L3.
          apply Rle_lt_trans with (u * (alpha * rowmax)); [apply Rmult_le_compat_l; lra|].
          apply Rlt_trans with (alpha * (alpha * (colmax * colmax))).
          - replace (u * (alpha * rowmax)) with (alpha * (u * rowmax)) by ring. apply Rmult_lt_compat_l; lra.
          - assert (0 < colmax * colmax) by nra. assert (alpha * alpha < 1) by nra.
            replace (alpha * (alpha * (colmax * colmax))) with (alpha * alpha * (colmax * colmax)) by ring. nra. }
        intros Z. apply (Rlt_irrefl (colmax * colmax)). rewrite EC at 1 2. rewrite <- Rabs_mult.
        replace (T imax k * T imax k) with (T k k * T imax imax) by lra. exact G.
Qed.

(** ** one round *)
Lemma elim_one_at n k a i j : elim_one n k a i j =
  if (k <? j) && (j <=? i) && (i <? n) then a i j - a j k * (1 / a k k) * a i k
  else if (i =? k) && (j =? k) then 1 / a k k
  else if (k <? i) && (i <? n) && (j =? k) then a i k * (1 / a k k) else a i j.
Proof.
  unfold elim_one. cbv zeta. set (d := 1 / a k k). set (a1 := upd a k k d).
  set (a2 := for_ (S k) n _ a1).
  assert (G : forall p q, a2 p q = if (k <? q) && (q <? n) && (q <=? p) && (p <? n) then a1 p q - a1 q k * d * a1 p k else a1 p q).
  { unfold a2. destruct (le_lt_dec (S k) n).
    2:{ rewrite for_empty by lia. intros. nat_cases; reflexivity. }
    apply (for_ind (fun m s => forall p q, s p q = if (k <? q) && (q <? m) && (q <=? p) && (p <? n) then a1 p q - a1 q k * d * a1 p k else a1 p q)); [lia| |].
    - intros p q. nat_cases; reflexivity.
    - intros m s Hm IH.
      assert (J : forall p q, for_ m n (fun a i => upd a i m (a i m - s m k * d * a i k)) s p q =
        if (q =? m) && (m <=? p) && (p <? n) then s p m - s m k * d * s p k else s p q).
      { apply (for_ind (fun e t => forall p q, t p q = if (q =? m) && (m <=? p) && (p <? e) then s p m - s m k * d * s p k else s p q)); [lia| |].
        - intros p q. nat_cases; reflexivity.
        - intros e t He IHt p q. unfold upd. rewrite !IHt. nat_cases; reflexivity. }
      intros p q. rewrite J, !IH. nat_cases; reflexivity. }
  rewrite !G. unfold a1, upd. nat_cases; reflexivity.
Qed.

Lemma elim_two_at n k a i j : (S k < n)%nat ->
  let q := 1 / Rabs (a (S k) k) in let d11 := q * a (S k) (S k) in let d22 := q * a k k in
  let d := 1 / (d11 * d22 - 1) * q in let d21 := a (S k) k * q in
  let w0 := fun j => (a j k * d11 - a j (S k) * d21) * d in
  let w1 := fun j => (a j (S k) * d22 - a j k * d21) * d in
  elim_two n k a i j =
  if (S k <? j) && (j <=? i) && (i <? n) then a i j - (a i k * w0 j + a i (S k) * w1 j)
  else if (i =? k) && (j =? k) then d11 * d
  else if (i =? S k) && (j =? k) then - d21 * d
  else if (i =? S k) && (j =? S k) then d22 * d
  else if (S k <? i) && (i <? n) && (j =? k) then w0 i
  else if (S k <? i) && (i <? n) && (j =? S k) then w1 i else a i j.
Proof.
  intros Hn q d11 d22 d d21 w0 w1. unfold elim_two. cbv zeta. fold q. fold d11 d22 d21. fold d.
  set (a1 := upd (upd (upd a k k (d11 * d)) (S k) k (- d21 * d)) (S k) (S k) (d22 * d)).
  set (f := fun (a : mat) (j : nat) => _).
  assert (A1 : forall p r, (S k < p)%nat -> a1 p r = a p r).
  { intros p r Hp. unfold a1, upd. nat_cases; reflexivity. }
  assert (G : forall p r, for_ (S (S k)) n f a1 p r =
     if (S k <? r) && (r <? n) && (r <=? p) && (p <? n) then a p r - (a p k * w0 r + a p (S k) * w1 r)
     else if (S k <? p) && (p <? n) && (r =? k) then w0 p
     else if (S k <? p) && (p <? n) && (r =? S k) then w1 p else a1 p r).
  { apply (for_ind (fun m s => forall p r, s p r =
      if (S k <? r) && (r <? m) && (r <=? p) && (p <? n) then a p r - (a p k * w0 r + a p (S k) * w1 r)
      else if (S k <? p) && (p <? m) && (r =? k) then w0 p
      else if (S k <? p) && (p <? m) && (r =? S k) then w1 p else a1 p r)); [lia| |].
    - intros p r. nat_cases; reflexivity.
    - intros m s Hm IH.
      assert (R0 : forall p, (m <= p < n)%nat -> s p k = a p k /\ s p (S k) = a p (S k)).
      { intros p Hp. rewrite !IH. split; nat_cases; apply A1; lia. }
      assert (E0 : (s m k * d11 - s m (S k) * d21) * d = w0 m) by (destruct (R0 m ltac:(lia)) as [-> ->]; reflexivity).
      assert (E1 : (s m (S k) * d22 - s m k * d21) * d = w1 m) by (destruct (R0 m ltac:(lia)) as [-> ->]; reflexivity).
      unfold f. rewrite E0, E1.
      assert (J : forall p r, for_ m n (fun a i => upd a i m (a i m - (a i k * w0 m + a i (S k) * w1 m))) s p r =
        if (r =? m) && (m <=? p) && (p <? n) then a p m - (a p k * w0 m + a p (S k) * w1 m) else s p r).
      { apply (for_ind (fun e t => forall p r, t p r =
           if (r =? m) && (m <=? p) && (p <? e) then a p m - (a p k * w0 m + a p (S k) * w1 m) else s p r)); [lia| |].
        - intros p r. nat_cases; reflexivity.
        - intros e t He IHt p r. unfold upd at 1. rewrite (IHt e m), (IHt e k), (IHt e (S k)), (IHt p r).
          destruct (R0 e ltac:(lia)) as [Re0 Re1].
          assert (Rm : s e m = a e m) by (rewrite IH; nat_cases; apply A1; lia).
          nat_cases; try reflexivity. rewrite Re0, Re1, Rm. reflexivity. }
      intros p r. unfold upd. rewrite J, !IH. nat_cases; reflexivity. }
  rewrite G. unfold a1, upd. nat_cases; reflexivity.
Qed.

Lemma swap_lower_mid kk kp (a : mat) : (kk < kp)%nat -> forall p q,
  for_ (S kk) kp (fun (a : mat) j => let tmp := a j kk in upd (upd a j kk (a kp j)) kp j tmp) a p q =
  if (q =? kk) && (kk <? p) && (p <? kp) then a kp p
  else if (p =? kp) && (kk <? q) && (q <? kp) then a q kk else a p q.
Proof.
  intros H. apply (for_ind (fun m s => forall p q, s p q =
    if (q =? kk) && (kk <? p) && (p <? m) then a kp p
    else if (p =? kp) && (kk <? q) && (q <? m) then a q kk else a p q)); [lia| |].
  - intros p q. nat_cases; reflexivity.
  - intros m s Hm IH p q. cbv zeta. unfold upd. rewrite !IH. nat_cases; reflexivity.
Qed.
Lemma swap_lower_ok n k kp (two : bool) (a : mat) i j : let kk := if two then S k else k in (kk <= kp < n)%nat -> (k <= j)%nat -> (j <= i)%nat -> (i < n)%nat ->
  swap_lower n k kk kp two a i j = sym a (tr kk kp i) (tr kk kp j).
Proof.
  intros kk Hp Hj Hji Hi. unfold swap_lower. destruct (Nat.eqb_spec kp kk) as [->|Hne].
  - rewrite !tr_id. unfold sym. nat_cases; reflexivity.
  - assert (Hlt : (kk < kp)%nat) by lia. cbv zeta.
    set (a1 := fun i j : nat => if (kp <? i) && (i <? n) then if j =? kk then a i kp else if j =? kp then a i kk else a i j else a i j).
    set (a2 := @for_ mat (S kk) kp _ a1).
    assert (G : forall p q, a2 p q = if (q =? kk) && (kk <? p) && (p <? kp) then a1 kp p
       else if (p =? kp) && (kk <? q) && (q <? kp) then a1 q kk else a1 p q) by (apply swap_lower_mid; assumption).
    clearbody a2.
    destruct (Nat.eq_dec i kk) as [Ei|Ei]; [rewrite Ei, tr_l|destruct (Nat.eq_dec i kp) as [Ei'|Ei']; [rewrite Ei', tr_r|rewrite (tr_o kk kp i) by assumption]];
    (destruct (Nat.eq_dec j kk) as [Ej|Ej]; [rewrite Ej, tr_l|destruct (Nat.eq_dec j kp) as [Ej'|Ej']; [rewrite Ej', tr_r|rewrite (tr_o kk kp j) by assumption]]);
    subst i || idtac; subst j || idtac; try lia;
    unfold sym; destruct two; unfold kk in *; unfold upd; rewrite ?G; unfold a1; nat_cases; reflexivity.
Qed.
Lemma swap_lower_out n k kp (two : bool) (a : mat) i j : let kk := if two then S k else k in (kk <= kp < n)%nat -> ~ (k <= j <= i /\ i < n)%nat ->
  swap_lower n k kk kp two a i j = a i j.
Proof.
  intros kk Hp H. unfold swap_lower. destruct (Nat.eqb_spec kp kk) as [->|Hne]; [reflexivity|].
  assert (Hlt : (kk < kp)%nat) by lia. cbv zeta.
  set (a1 := fun i j : nat => if (kp <? i) && (i <? n) then if j =? kk then a i kp else if j =? kp then a i kk else a i j else a i j).
  set (a2 := @for_ mat (S kk) kp _ a1).
  assert (G : forall p q, a2 p q = if (q =? kk) && (kk <? p) && (p <? kp) then a1 kp p
     else if (p =? kp) && (kk <? q) && (q <? kp) then a1 q kk else a1 p q) by (apply swap_lower_mid; assumption).
  clearbody a2. destruct two; unfold kk in *; unfold upd; rewrite ?G; unfold a1; nat_cases; reflexivity.
Qed.

(** pivots of a view in whole-array numbering *)
Definition absp (o : nat) (piv : nat -> Z) : nat -> Z := fun j => if (0 <=? piv j)%Z then (piv j + Z.of_nat o)%Z else (piv j - Z.of_nat o)%Z.
Lemma absp_record o k kp (two : bool) piv : (o <= kp)%nat ->
  if two then absp o (record_pivot o k kp two piv) k = (-1 - Z.of_nat kp)%Z /\ absp o (record_pivot o k kp two piv) (S k) = (-1 - Z.of_nat kp)%Z
  else absp o (record_pivot o k kp two piv) k = Z.of_nat kp.
Proof.
  intros H. unfold absp, record_pivot, set_piv. destruct two.
  - split; nat_cases; destruct (Z.leb_spec 0 (-1 - Z.of_nat (kp - o))); lia.
  - nat_cases. destruct (Z.leb_spec 0 (Z.of_nat (kp - o))); lia.
Qed.
Lemma record_out o k kp (two : bool) piv j : (j < k \/ k + (if two then 2 else 1) <= j)%nat -> record_pivot o k kp two piv j = piv j.
Proof. intros H. unfold record_pivot, set_piv. destruct two; nat_cases; reflexivity. Qed.

(** the 2x2 inverse of 131-141 *)
Lemma two_inverse (x y z : R) : y <> 0 -> x * z - y * y <> 0 ->
  let q := 1 / Rabs y in let d11 := q * z in let d22 := q * x in
  let d := 1 / (d11 * d22 - 1) * q in let d21 := y * q in
  x * (d11 * d) + y * (- d21 * d) = 1 /\ x * (- d21 * d) + y * (d22 * d) = 0 /\
  y * (d11 * d) + z * (- d21 * d) = 0 /\ y * (- d21 * d) + z * (d22 * d) = 1.
Proof.
  intros Hy Hd q d11 d22 d d21.
  assert (E : Rabs y * Rabs y = y * y) by (rewrite <- Rabs_mult; apply Rabs_right; nra).
  assert (N : Rabs y <> 0) by (now apply Rabs_no_R0).
  set (m := Rabs y) in *. clearbody m.
  assert (N2 : d11 * d22 - 1 = (x * z - y * y) / (y * y)).
  { unfold d11, d22, q. rewrite <- E. field. exact N. }
  assert (Q2 : q * q = 1 / (y * y)) by (unfold q; rewrite <- E; field; exact N).
  assert (Dq : q * d = 1 / (x * z - y * y)).
  { unfold d. rewrite N2. transitivity (y * y / (x * z - y * y) * (q * q)); [field; split; auto|]. rewrite Q2. field. split; auto. }
  unfold d11, d22, d21. repeat split.
  - transitivity ((x * z - y * y) * (q * d)); [ring|]. rewrite Dq. field. exact Hd.
  - ring.
  - ring.
  - transitivity ((x * z - y * y) * (q * d)); [ring|]. rewrite Dq. field. exact Hd.
Qed.

Lemma round_ok o n k a piv : (o <= k < n)%nat ->
  match round o n k a piv with
  | None => forall i, (k <= i < n)%nat -> sym a i k = 0
  | Some (a', piv', ks) => exists s, ks = size s /\ step n a' (absp o piv') k s (sym a) (sym a') /\
      (forall i j, ~ (k <= j <= i /\ i < n)%nat -> a' i j = a i j) /\ (forall j, (j < k \/ k + ks <= j)%nat -> piv' j = piv j)
  end.
Proof.
  intros Hk. unfold round.
  assert (EC : col_max n k (fun i => a i k) = col_max n k (fun i => sym a i k)).
  { unfold col_max. destruct (Nat.ltb_spec (S k) n); [|reflexivity]. apply max_coeff_ext; [|lia]. intros j Hj. now rewrite sym_lo by lia. }
  destruct (col_max n k (fun i => a i k)) as [colmax imax] eqn:HC. symmetry in EC.
  destruct (Reqb_spec (Rmax (Rabs (a k k)) colmax) 0) as [Z|NZ].
  - intros i Hi. rewrite sym_lo by lia. assert (A := Rmax_l (Rabs (a k k)) colmax). assert (B := Rmax_r (Rabs (a k k)) colmax). rewrite Z in A, B.
    destruct (Nat.eq_dec i k) as [->|Hne].
    + destruct (Req_dec (a k k) 0) as [E|E]; [exact E|]. apply Rabs_pos_lt in E. lra.
    + unfold col_max in HC. destruct (Nat.ltb_spec (S k) n); [|lia].
      destruct (max_coeff_ok (fun i => a i k) (S k) n ltac:(lia)) as (_ & _ & M). rewrite HC in M. specialize (M i ltac:(lia)). cbn [fst] in M.
      destruct (Req_dec (a i k) 0) as [E|E]; [exact E|]. apply Rabs_pos_lt in E. lra.
  - destruct (choose k imax (Rabs (a k k)) colmax _ (Rabs (a imax imax))) as [kp two] eqn:HCh.
    assert (P := choose_ok (sym a) n k colmax imax (row_max n k imax (fun j => a imax j) (fun i => a i imax)) (Rabs (a imax imax)) kp two ltac:(lia) (sym_symm a k n) EC).
    rewrite !(sym_lo a k k) in P by lia.
    specialize (P NZ). destruct P as (P1 & _ & P3); [|exact HCh|].
    { intros Hi. split; [|now rewrite sym_lo by lia]. unfold row_max.
      assert (Him : (k < imax)%nat).
      { unfold col_max in HC. destruct (Nat.ltb_spec (S k) n).
        - destruct (max_coeff_ok (fun i => a i k) (S k) n ltac:(lia)) as (M1 & _ & _). rewrite HC in M1. cbn in M1. lia.
        - injection HC as <- <-. lia. }
      rewrite (proj2 (Nat.ltb_lt k imax)) by lia.
      rewrite (max_coeff_ext (fun j => sym a imax j) (fun j => a imax j)) by (try lia; intros; rewrite sym_lo by lia; reflexivity).
      destruct (Nat.ltb_spec (S imax) n); [|reflexivity].
      rewrite (max_coeff_ext (fun j => sym a j imax) (fun j => a j imax)) by (try lia; intros; rewrite sym_lo by lia; reflexivity). reflexivity. }
    clear HCh. exists (two, kp). split; [destruct two; reflexivity|].
    set (kk := if two then S k else k). set (b := swap_lower n k kk kp two a).
    assert (Hkp : (kk <= kp < n)%nat) by (unfold kk; destruct two; lia).
    assert (HB : forall i j, (k <= j)%nat -> (j <= i)%nat -> (i < n)%nat -> b i j = sym a (tr kk kp i) (tr kk kp j)) by (intros; now apply swap_lower_ok).
    assert (HBo : forall i j, ~ (k <= j <= i /\ i < n)%nat -> b i j = a i j) by (intros; now apply swap_lower_out).
    assert (Sy : forall i j, sym a i j = sym a j i).
    { intros i j. unfold sym. nat_cases; try reflexivity. now replace i with j by lia. }
    (* entries of the exchanged matrix are read off b *)
    assert (HH : forall i j, (k <= i < n)%nat -> (k <= j < n)%nat -> sym a (tr kk kp i) (tr kk kp j) = sym b i j).
    { intros i j Hi Hj. unfold sym at 2. destruct (Nat.leb_spec j i).
      - symmetry. apply HB; lia.
      - rewrite HB by lia. apply Sy. }
    clearbody b. split; [|split].
    + unfold step, perm, at_, size. cbn [fst snd]. fold kk. split; [destruct two; unfold kk in *; lia|]. split; [exact Hkp|].
      assert (AP := absp_record o k kp two piv ltac:(unfold kk in *; destruct two; lia)).
      destruct two; unfold kk in *; clear kk.
      * destruct AP as [AP0 AP1]. split; [exact AP0|]. split; [exact AP1|].
        rewrite !HH by lia. set (a' := elim_two n k b).
        assert (EE : forall i j, a' i j = elim_two n k b i j) by reflexivity.
        assert (B0 : b k k = a k k) by (rewrite HB, !(tr_o (S k) kp k), sym_lo by lia; reflexivity).
        assert (B1 : b (S k) k = sym a kp k) by (rewrite HB, (tr_o (S k) kp k), tr_l by lia; reflexivity).
        assert (B2 : b (S k) (S k) = sym a kp kp) by (rewrite HB, tr_l by lia; reflexivity).
        destruct P3 as [P3 P4]. 
        destruct (two_inverse (b k k) (b (S k) k) (b (S k) (S k))) as (I1 & I2 & I3 & I4); [rewrite B1; exact P4|rewrite B0, B1, B2; exact P3|].
        assert (Ekk : a' k k = 1 / Rabs (b (S k) k) * b (S k) (S k) * (1 / (1 / Rabs (b (S k) k) * b (S k) (S k) * (1 / Rabs (b (S k) k) * b k k) - 1) * (1 / Rabs (b (S k) k))))
          by (rewrite EE, elim_two_at by lia; nat_cases; reflexivity).
        assert (Eks : a' (S k) k = - (b (S k) k * (1 / Rabs (b (S k) k))) * (1 / (1 / Rabs (b (S k) k) * b (S k) (S k) * (1 / Rabs (b (S k) k) * b k k) - 1) * (1 / Rabs (b (S k) k))))
          by (rewrite EE, elim_two_at by lia; nat_cases; reflexivity).
        assert (Ess : a' (S k) (S k) = 1 / Rabs (b (S k) k) * b k k * (1 / (1 / Rabs (b (S k) k) * b (S k) (S k) * (1 / Rabs (b (S k) k) * b k k) - 1) * (1 / Rabs (b (S k) k))))
          by (rewrite EE, elim_two_at by lia; nat_cases; reflexivity).
        rewrite <- Ekk, <- Eks, <- ?Ess in I1. rewrite <- Eks, <- Ess in I2. rewrite <- Ekk, <- Eks in I3. rewrite <- Eks, <- Ess in I4.
        rewrite !(sym_lo b k k), !(sym_lo b (S k)), (sym_up b k (S k)) by lia.
        assert (Ecol : forall i, (S k < i < n)%nat -> a' i k = b i k * a' k k + b i (S k) * a' (S k) k /\ a' i (S k) = b i k * a' (S k) k + b i (S k) * a' (S k) (S k)).
        { intros i Hi. rewrite Ekk, Eks, Ess. split; rewrite EE, elim_two_at by lia; nat_cases; ring. }
        repeat split; auto.
        -- rewrite !HH by lia. rewrite !(sym_lo b i) by lia. now apply Ecol.
        -- rewrite !HH by lia. rewrite !(sym_lo b i) by lia. now apply Ecol.
        -- assert (Tl : forall i j, (S k < i < n)%nat -> (S k < j < n)%nat -> (j <= i)%nat ->
             a' i j = b i j - (b i k * a' j k + b i (S k) * a' j (S k))).
           { intros i j Hi Hj Hji. destruct (Ecol j Hj) as [-> ->]. rewrite EE, elim_two_at by lia. rewrite Ekk, Eks, Ess.
             rewrite (proj2 (Nat.ltb_lt (S k) j)), (proj2 (Nat.leb_le j i)), (proj2 (Nat.ltb_lt i n)) by lia. cbn [andb]. ring. }
           intros i j Hi Hj. rewrite !HH by lia. rewrite (sym_up b k j), (sym_up b (S k) j) by lia.
           destruct (Ecol i Hi) as [Ci Ci']. destruct (Ecol j Hj) as [Cj Cj'].
           unfold sym. destruct (Nat.leb_spec j i).
           ++ rewrite Tl, Cj, Cj', Ci, Ci' by lia. ring.
           ++ rewrite Tl, Ci, Ci' by lia. ring.
      * split; [exact AP|]. rewrite !HH by lia. set (a' := elim_one n k b).
        assert (EE : forall i j, a' i j = elim_one n k b i j) by reflexivity.
        assert (B0 : b k k <> 0) by (rewrite HB, !tr_l by lia; exact P3).
        assert (Ekk : a' k k = 1 / b k k) by (rewrite EE, elim_one_at; nat_cases; reflexivity).
        rewrite (sym_lo b k k) by lia.
        assert (Ecol : forall i, (k < i < n)%nat -> a' i k = b i k * a' k k).
        { intros i Hi. rewrite Ekk, EE, elim_one_at. nat_cases; reflexivity. }
        repeat split.
        -- rewrite Ekk. field. exact B0.
        -- intros i Hi. rewrite HH, sym_lo by lia. now apply Ecol.
        -- assert (Tl : forall i j, (k < i < n)%nat -> (k < j < n)%nat -> (j <= i)%nat -> a' i j = b i j - b i k * a' j k).
           { intros i j Hi Hj Hji. rewrite (Ecol j Hj), Ekk, EE, elim_one_at.
             rewrite (proj2 (Nat.ltb_lt k j)), (proj2 (Nat.leb_le j i)), (proj2 (Nat.ltb_lt i n)) by lia. cbn [andb]. ring. }
           intros i j Hi Hj. rewrite !HH by lia. rewrite (sym_up b k j) by lia.
           unfold sym. destruct (Nat.leb_spec j i).
           ++ rewrite Tl, (Ecol i), (Ecol j) by lia. ring.
           ++ rewrite Tl, (Ecol i) by lia. ring.
    + intros i j Hij. rewrite <- (HBo i j Hij). destruct two; unfold kk in *.
      * rewrite elim_two_at by lia. nat_cases; reflexivity.
      * rewrite elim_one_at by lia. nat_cases; reflexivity.
    + intros j Hj. apply record_out. destruct two; exact Hj.
Qed.

(** ** the unblocked loop *)
(** what a (partial) run leaves: steps until e, the rest symmetric part in the lower triangle *)
Definition ran (o n k : nat) (a : mat) (piv : nat -> Z) (e : nat) (a' : mat) (piv' : nat -> Z) : Prop :=
  (k <= e)%nat /\ (exists l, steps n a' (absp o piv') k l (sym a) e (sym a')) /\
  (forall i j, ~ (k <= j <= i /\ i < n)%nat -> a' i j = a i j) /\ (forall j, (j < k \/ e <= j)%nat -> piv' j = piv j).
Definition stuck (n e : nat) (a : mat) : Prop := (e < n)%nat /\ forall i, (e <= i < n)%nat -> sym a i e = 0.
Lemma ran_refl o n k a piv : ran o n k a piv k a piv.
Proof. split; [lia|]. split; [|auto]. exists []. simpl. auto. Qed.
Lemma step_ran o n k s a piv a' piv' : step n a' (absp o piv') k s (sym a) (sym a') ->
  (forall i j, ~ (k <= j <= i /\ i < n)%nat -> a' i j = a i j) -> (forall j, (j < k \/ k + size s <= j)%nat -> piv' j = piv j) ->
  ran o n k a piv (k + size s) a' piv'.
Proof. intros H F1 F2. split; [lia|]. split; [|auto]. exists [s]. simpl. exists (sym a'). auto. Qed.
Lemma ran_trans o n k a piv m a1 piv1 e a2 piv2 : ran o n k a piv m a1 piv1 -> ran o n m a1 piv1 e a2 piv2 -> ran o n k a piv e a2 piv2.
Proof.
  intros (L1 & (l1 & S1) & F1 & G1) (L2 & (l2 & S2) & F2 & G2). split; [lia|]. split; [|split].
  - exists (l1 ++ l2). eapply steps_app; [|exact S2]. eapply steps_ext; [exact S1|reflexivity|reflexivity| |].
    + intros i j Hj Hi. symmetry. apply F2. lia.
    + intros i Hi. unfold absp. now rewrite G2 by lia.
  - intros i j H. rewrite F2, F1; auto. lia.
  - intros j H. rewrite G2, G1; auto; lia.
Qed.
Lemma unblocked_loop_ok o n : forall fuel k a piv, (o <= k <= n)%nat -> (n - k <= fuel)%nat ->
  match unblocked_loop fuel o n k a piv with
  | Success (a', piv') => ran o n k a piv n a' piv'
  | NumericalIssue => exists e a' piv', ran o n k a piv e a' piv' /\ stuck n e a'
  | OutOfFuel => False
  end.
Proof.
  induction fuel; intros k a piv Hk Hf; cbn [unblocked_loop].
  - rewrite (proj2 (Nat.ltb_ge k n)) by lia. replace n with k by lia. apply ran_refl.
  - destruct (Nat.ltb_spec k n); [|replace n with k by lia; apply ran_refl].
    assert (R := round_ok o n k a piv ltac:(lia)). destruct (round o n k a piv) as [[[a1 piv1] ks]|].
    + destruct R as (s & -> & St & F1 & F2). assert (R1 := step_ran o n k s a piv a1 piv1 St F1 F2).
      assert (Hs : (k + size s <= n)%nat) by apply St. assert (size s = 1 \/ size s = 2)%nat by (unfold size; destruct (fst s); auto).
      specialize (IHfuel (k + size s)%nat a1 piv1 ltac:(lia) ltac:(lia)).
      destruct (unblocked_loop fuel o n (k + size s) a1 piv1) as [[a2 piv2]| |].
      * eapply ran_trans; eauto.
      * destruct IHfuel as (e & a2 & piv2 & R2 & S2). exists e, a2, piv2. split; [eapply ran_trans; eauto|assumption].
      * exact IHfuel.
    + exists k, a, piv. split; [apply ran_refl|]. split; [lia|exact R].
Qed.
Lemma unblocked_ok o n a piv : (o <= n)%nat -> (forall j, (o <= j < n)%nat -> piv j = 0%Z) ->
  match unblocked o n a piv with
  | Success (a', piv') => ran o n o a piv n a' piv'
  | NumericalIssue => exists e a' piv', ran o n o a piv e a' piv' /\ stuck n e a'
  | OutOfFuel => False
  end.
Proof.
  intros Ho Hz. unfold unblocked. destruct (Nat.eqb_spec (n - o) 0); [replace n with o by lia; apply ran_refl|].
  destruct (Nat.eqb_spec (n - o) 1).
  - destruct (Reqb_spec (Rabs (a o o)) 0) as [Z|NZ].
    + exists o, a, piv. split; [apply ran_refl|]. split; [lia|]. intros i Hi. replace i with o by lia. rewrite sym_lo by lia.
      destruct (Req_dec (a o o) 0) as [E|E]; [exact E|]. apply Rabs_pos_lt in E. lra.
    + replace n with (o + size (false, o))%nat by (unfold size; cbn; lia). apply step_ran.
      * unfold step, perm, at_, size. cbn [fst snd]. split; [lia|]. split; [lia|]. rewrite tr_id. rewrite sym_lo by lia.
        split; [unfold absp; rewrite Hz by lia; reflexivity|]. split.
        -- unfold upd. nat_cases. field. intros E. apply NZ. now rewrite E, Rabs_R0.
        -- split; intros; lia.
      * intros i j H. unfold upd. unfold size in *. cbn in *. nat_cases; reflexivity.
      * reflexivity.
  - apply unblocked_loop_ok; lia.
Qed.
