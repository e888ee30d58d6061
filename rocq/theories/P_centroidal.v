(** C45: the Jacobians of the centroidal dynamics and residuals are derivatives. *)
From Coq Require Import Reals List Lra Lia Arith Bool.
From Verif Require Import CentroidalModel.
Local Open Scope R_scope.

(** ** Specification *)
Fixpoint rsum (n : nat) (f : nat -> R) : R := match n with 0%nat => 0 | S n => rsum n f + f n end.
(** J v for a matrix with [n] columns *)
Definition mv (n : nat) (J : mtx) (v : vec) : vec := fun i => rsum n (fun j => J i j * v j).
Definition shift (x : vec) (t : R) (d : vec) : vec := fun k => x k + t * d k.
(** rows 0 .. r-1 of (Jx, Ju) are the derivative of [f] at (x, u), along every direction *)
Definition is_derivative (r n m : nat) (f : vec -> vec -> vec) (x u : vec) (Jx Ju : mtx) : Prop :=
  forall dx du i, (i < r)%nat ->
    derivable_pt_lim (fun t => f (shift x t dx) (shift u t du) i) 0 (mv n Jx dx i + mv m Ju du i).

(** physics: 3-vectors, sums over the active contacts *)
Definition cross (a b : vec) : vec := fun k =>
  match k with
  | 0%nat => a 1%nat * b 2%nat - a 2%nat * b 1%nat
  | 1%nat => a 2%nat * b 0%nat - a 0%nat * b 2%nat
  | 2%nat => a 0%nat * b 1%nat - a 1%nat * b 0%nat
  | _ => 0
  end.
Definition seg (v : vec) (o : nat) : vec := fun k => v (o + k)%nat.
Definition over (c : cfwd) (g : nat -> R) : R :=
  rsum (cm_size (cf_map c)) (fun i => if cm_state (cf_map c) i then g i else 0).
(** sum of the forces of the active contacts *)
Definition net_force (c : cfwd) (f : vec) : vec := fun k => over c (fun i => seg f (i * cf_fs c) k).
(** sum of their moments about the centre of mass, with the contact torques of 6D contacts *)
Definition net_moment (c : cfwd) (com f : vec) : vec := fun k =>
  over c (fun i => cross (fun l => cm_pose (cf_map c) i l - com l) (seg f (i * cf_fs c)) k
                   + (if Nat.eqb (cf_fs c) 6 then seg f (i * cf_fs c + 3) k else 0)).
(** Newton-Euler: c' = h / m, h' = m g + sum f, L' = sum of moments; x = (c, h, L) *)
Definition newton_euler (c : cfwd) (x f : vec) : vec := fun k =>
  if Nat.ltb k 3 then x (3 + k)%nat / cf_mass c
  else if Nat.ltb k 6 then cf_mass c * cf_gravity c (k - 3)%nat + net_force c f (k - 3)%nat
  else net_moment c x f (k - 6)%nat.
(** the same with the forces in the state, x = (c, h, L, f), f' = u *)
Definition newton_euler_rate (c : cfwd) (x u : vec) : vec := fun k =>
  if Nat.ltb k 9 then newton_euler c x (seg x 9) k else u (k - 9)%nat.

(** data after any calls *)
Inductive sreach (s : sres) : sdata -> Prop :=
| SR0 : sreach s sdata0
| SR1 x u d : sreach s d -> sreach s (r_eval s x u d)
| SR2 x u d : sreach s d -> sreach s (r_jac s x u d).
(** from any reachable data the residual has value [f] and Jacobians its derivative *)
Definition computes (r n m : nat) (s : sres) (f : vec -> vec -> vec) : Prop :=
  forall d x u, sreach s d ->
    (forall i, (i < r)%nat -> s_value (r_eval s x u d) i = f x u i) /\
    is_derivative r n m f x u (s_Jx (r_jac s x u d)) (s_Ju (r_jac s x u d)).
Inductive wreach (s : sres) (n m nr : nat) : wdata -> Prop :=
| WR0 : wreach s n m nr wdata0
| WR1 z d : wreach s n m nr d -> wreach s n m nr (w_eval s n z d)
| WR2 z d : wreach s n m nr d -> wreach s n m nr (w_jac s n m nr z d).

(** ** Proofs *)
(** *** sums *)
Lemma rsum_ext n f g : (forall i, (i < n)%nat -> f i = g i) -> rsum n f = rsum n g.
Proof. induction n; intros H; simpl; auto. rewrite IHn by (intros; apply H; lia). now rewrite H by lia. Qed.
Lemma rsum_plus n f g : rsum n (fun i => f i + g i) = rsum n f + rsum n g.
Proof. induction n; simpl; [ring|]. rewrite IHn. ring. Qed.
Lemma rsum_scale n a f : rsum n (fun i => a * f i) = a * rsum n f.
Proof. induction n; simpl; [ring|]. rewrite IHn. ring. Qed.
Lemma rsum_zero n f : (forall i, (i < n)%nat -> f i = 0) -> rsum n f = 0.
Proof. induction n; intros H; simpl; auto. rewrite IHn by (intros; apply H; lia). rewrite H by lia. ring. Qed.
Lemma rsum_app a b f : rsum (a + b) f = rsum a f + rsum b (fun i => f (a + i)%nat).
Proof.
  induction b; simpl; [rewrite Nat.add_0_r; ring|].
  replace (a + S b)%nat with (S (a + b)) by lia. simpl. rewrite IHb. ring.
Qed.
Lemma rsum_mul n w f : rsum (n * w) f = rsum n (fun l => rsum w (fun k => f (l * w + k)%nat)).
Proof.
  induction n; simpl; auto. replace (w + n * w)%nat with (n * w + w)%nat by lia. now rewrite rsum_app, IHn.
Qed.
Lemma rsum_le n m f : (n <= m)%nat -> (forall i, (n <= i < m)%nat -> f i = 0) -> rsum m f = rsum n f.
Proof.
  intros H Z. replace m with (n + (m - n))%nat by lia. rewrite rsum_app.
  rewrite (rsum_zero (m - n)); [ring|]. intros; apply Z; lia.
Qed.
Lemma rsum3 w f : (3 <= w)%nat -> (forall i, (3 <= i < w)%nat -> f i = 0) -> rsum w f = f 0%nat + f 1%nat + f 2%nat.
Proof. intros H Z. rewrite (rsum_le 3 w) by auto. simpl. ring. Qed.

(** *** loops: pointwise *)
Lemma for_ext D (P : nat -> D -> Prop) body d n : P 0%nat d -> (forall i e, P i e -> P (S i) (body i e)) -> P n (for_n n body d).
Proof. intros H0 HS. induction n; simpl; auto. Qed.

(** derivative of a polynomial of degree two *)
Lemma poly_deriv f a b c : (forall t, f t = a + t * b + t * t * c) -> derivable_pt_lim f 0 b.
Proof.
  intros E e He. exists (mkposreal (e / (Rabs c + 1)) ltac:(apply Rdiv_lt_0_compat; [assumption|pose proof (Rabs_pos c); lra])).
  intros h h0 hd. simpl in hd. rewrite !E.
  replace ((a + (0 + h) * b + (0 + h) * (0 + h) * c - (a + 0 * b + 0 * 0 * c)) / h - b) with (c * h) by (field; assumption).
  rewrite Rabs_mult. pose proof (Rabs_pos c). pose proof (Rabs_pos h).
  apply (Rmult_lt_compat_r (Rabs c + 1)) in hd; [|lra]. unfold Rdiv in hd. rewrite Rmult_assoc, Rinv_l in hd by lra. lra.
Qed.

(** *** the sums over contacts *)
Definition overn (c : cfwd) (n : nat) (g : nat -> R) : R := rsum n (fun i => if cm_state (cf_map c) i then g i else 0).
Lemma overn_S c n g : overn c (S n) g = overn c n g + (if cm_state (cf_map c) n then g n else 0).
Proof. reflexivity. Qed.
Lemma overn_ext c n g h : (forall i, (i < n)%nat -> g i = h i) -> overn c n g = overn c n h.
Proof. intros H. apply rsum_ext. intros i Hi. now rewrite H. Qed.
Lemma overn_poly c n g a b q t : (forall i, (i < n)%nat -> g i = a i + t * b i + t * t * q i) ->
  overn c n g = overn c n a + t * overn c n b + t * t * overn c n q.
Proof.
  intros H. unfold overn. rewrite <- !rsum_scale, <- !rsum_plus. apply rsum_ext. intros i Hi. rewrite (H i Hi).
  destruct (cm_state (cf_map c) i); ring.
Qed.

Ltac seg_cases := unfold in_seg;
  repeat match goal with
  | |- context [Nat.leb ?a ?b] => destruct (Nat.leb_spec a b)
  | |- context [Nat.ltb ?a ?b] => destruct (Nat.ltb_spec a b)
  | |- context [Nat.eqb ?a ?b] => destruct (Nat.eqb_spec a b)
  end; simpl; try lia.

(** one contact's contribution to rows 6 + k *)
Definition moment1 (c : cfwd) (x f : vec) (off i k : nat) : R :=
  cross (fun l => cm_pose (cf_map c) i l - x l) (seg f (off + i * cf_fs c)) k
  + (if Nat.eqb (cf_fs c) 6 then seg f (off + i * cf_fs c + 3) k else 0).
Lemma fwd_body_val c off x f i v k :
  fwd_body c off x f i v k = v k +
    (if cm_state (cf_map c) i then
       if Nat.ltb k 3 then 0 else if Nat.ltb k 6 then f (off + i * cf_fs c + (k - 3))%nat
       else if Nat.ltb k 9 then moment1 c x f off i (k - 6) else 0
     else 0).
Proof.
  unfold fwd_body. destruct (cm_state (cf_map c) i); [|ring].
  unfold moment1, seg.
  destruct (Nat.lt_ge_cases k 9) as [H|H].
  - do 9 (destruct k as [|k]; [unfold sadd, sset, vadd, vset, in_seg, cross; simpl; rewrite ?Nat.add_0_r;
      destruct (Nat.eqb (cf_fs c) 6); simpl; rewrite ?Nat.add_0_r, <- ?Nat.add_assoc; simpl; ring|]). lia.
  - replace k with (9 + (k - 9))%nat by lia. generalize (k - 9)%nat as l. intros l.
    destruct (Nat.eqb (cf_fs c) 6); unfold sadd, sset, vadd, vset, in_seg; simpl; ring.
Qed.
Lemma fwd_loop c off x f n v k :
  for_n n (fwd_body c off x f) v k = v k +
    (if Nat.ltb k 3 then 0 else if Nat.ltb k 6 then overn c n (fun i => f (off + i * cf_fs c + (k - 3))%nat)
     else if Nat.ltb k 9 then overn c n (fun i => moment1 c x f off i (k - 6)) else 0).
Proof.
  induction n.
  - unfold overn. simpl. repeat destruct (Nat.ltb _ _); ring.
  - cbn [for_n]. rewrite fwd_body_val, IHn, !overn_S.
    destruct (cm_state (cf_map c) n); repeat destruct (Nat.ltb _ _); ring.
Qed.
Lemma head_val c x v k : fwd_head c x v k =
  if Nat.ltb k 3 then 1 / cf_mass c * x (3 + k)%nat
  else if Nat.ltb k 6 then cf_mass c * cf_gravity c (k - 3)%nat else if Nat.ltb k 9 then 0 else v k.
Proof. unfold fwd_head, sset. seg_cases; rewrite ?Nat.sub_0_r; reflexivity. Qed.

Lemma forward_val c off x f n v k : (k < 9)%nat -> n = cm_size (cf_map c) ->
  for_n n (fwd_body c off x f) (fwd_head c x v) k = newton_euler c x (seg f off) k.
Proof.
  intros H ->. rewrite fwd_loop, head_val. unfold newton_euler, net_force, net_moment, over, overn, moment1, seg.
  destruct (Nat.ltb k 3); [unfold Rdiv; ring|]. destruct (Nat.ltb k 6).
  - f_equal. apply rsum_ext. intros i Hi. destruct (cm_state _ i); auto. f_equal. lia.
  - destruct (Nat.ltb_spec k 9); [|lia]. rewrite Rplus_0_l. apply rsum_ext. intros i Hi.
    destruct (cm_state _ i); auto. f_equal.
    + destruct (k - 6)%nat as [|[|[|]]]; simpl; auto; rewrite ?Nat.add_assoc; reflexivity.
    + destruct (Nat.eqb _ 6); auto. rewrite !Nat.add_assoc. reflexivity.
Qed.

(** *** the Jacobian's shape *)
(** entry (row, col) of one contact's Ju block, rows relative to the full state *)
Definition cblock (c : cfwd) (x : vec) (l i k : nat) : R :=
  if Nat.eqb (cf_fs c) 6 && (in_seg 6 3 i && in_seg 3 3 k) then ident (i - 6)%nat (k - 3)%nat
  else if in_seg 3 3 i && in_seg 0 3 k then ident (i - 3)%nat k
  else if in_seg 6 3 i && in_seg 0 3 k then jtemp (cm_pose (cf_map c) l) x (i - 6)%nat k else 0.
Definition dcross (f : vec) (o k l : nat) : R :=
  m3 0 (- f (o + 2)%nat) (f (o + 1)%nat) (f (o + 2)%nat) 0 (- f o) (- f (o + 1)%nat) (f o) 0 k l.

(** columns of contact l *)
Lemma col_split w n j : (3 <= w)%nat -> (n * w <= j < n * w + w)%nat -> (j / w = n)%nat /\ (j mod w = j - n * w)%nat.
Proof.
  intros H Hj. assert (E : (j = w * n + (j - n * w))%nat) by lia.
  assert (Q : (n = j / w)%nat) by (apply Nat.div_unique with (j - n * w)%nat; lia).
  assert (M : (j - n * w = j mod w)%nat) by (apply Nat.mod_unique with n; lia). lia.
Qed.
Lemma in_seg_shift o a w j : (o <= j)%nat -> in_seg (o + a) w j = in_seg a w (j - o).
Proof. intros. unfold in_seg. seg_cases. Qed.
Lemma in_seg_lt o a w j : (j < o)%nat -> in_seg (o + a) w j = false.
Proof. intros. unfold in_seg. seg_cases. Qed.
Lemma ju_body_val c off x n J i j :
  (forall l, (off + n * cf_fs c <= l)%nat -> J i l = 0) ->
  ju_body c off x n J i j =
    if Nat.ltb j (off + n * cf_fs c) then J i j else cblock c x n i (j - (off + n * cf_fs c)).
Proof.
  intros Z. unfold ju_body. rewrite (Nat.mul_comm (cf_fs c) n).
  set (o := (off + n * cf_fs c)%nat) in *.
  assert (S0 : forall w, in_seg o w j = in_seg (o + 0) w j) by (intros; now rewrite Nat.add_0_r).
  destruct (Nat.ltb_spec j o) as [L|L].
  - destruct (Nat.eqb (cf_fs c) 6); unfold bset; rewrite !S0, !in_seg_lt, !andb_false_r by assumption; reflexivity.
  - unfold cblock. replace (j - (o + 3))%nat with (j - o - 3)%nat by lia. 
    destruct (Nat.eqb (cf_fs c) 6); unfold bset; rewrite !S0, !in_seg_shift by assumption;
      rewrite (Z j L); rewrite ?Nat.sub_add_distr; reflexivity.
Qed.
Lemma cblock_out c x l i k : (3 <= cf_fs c)%nat -> (cf_fs c <= k)%nat -> cblock c x l i k = 0.
Proof.
  intros H K. unfold cblock. destruct (Nat.eqb_spec (cf_fs c) 6); simpl.
  - replace (in_seg 3 3 k) with false by (unfold in_seg; seg_cases). 
    replace (in_seg 0 3 k) with false by (unfold in_seg; seg_cases). now rewrite !andb_false_r.
  - replace (in_seg 0 3 k) with false by (unfold in_seg; seg_cases). now rewrite !andb_false_r.
Qed.

(** *** the loops of dForward *)
Lemma jx_body_val r f o J i j : (r = 6 \/ r = 0)%nat ->
  jx_body r f o J i j = J i j + (if in_seg r 3 i && Nat.ltb j 3 then dcross f o (i - r) j else 0).
Proof.
  intros [-> | ->]; unfold jx_body, madd, in_seg, dcross, m3; cbn [Nat.add].
  - do 9 (destruct i as [|i]; [destruct j as [|[|[|j]]]; simpl; ring|]). simpl. ring.
  - do 3 (destruct i as [|i]; [destruct j as [|[|[|j]]]; simpl; ring|]). simpl. ring.
Qed.
Definition colval (c : cfwd) (B : nat -> mtx) (n i j : nat) : R :=
  if Nat.ltb j (n * cf_fs c) then if cm_state (cf_map c) (j / cf_fs c) then B (j / cf_fs c)%nat i (j mod cf_fs c) else 0 else 0.
Lemma colval_S c B n i j : (3 <= cf_fs c)%nat -> (forall l i k, (cf_fs c <= k)%nat -> B l i k = 0) ->
  (if Nat.ltb j (n * cf_fs c) then colval c B n i j
   else if cm_state (cf_map c) n then B n i (j - n * cf_fs c)%nat else 0) = colval c B (S n) i j.
Proof.
  intros H Ho. unfold colval. cbn [Nat.mul].
  destruct (Nat.ltb_spec j (n * cf_fs c)) as [L|L].
  - destruct (Nat.ltb_spec j (cf_fs c + n * cf_fs c)); [reflexivity|lia].
  - destruct (Nat.ltb_spec j (cf_fs c + n * cf_fs c)).
    + destruct (col_split (cf_fs c) n j H) as [-> ->]; [lia|reflexivity].
    + rewrite Ho by lia. now destruct (cm_state _ n).
Qed.
Definition jxval (c : cfwd) (f : vec) (off r n i j : nat) : R :=
  overn c n (fun l => if in_seg r 3 i && Nat.ltb j 3 then dcross f (off + l * cf_fs c) (i - r) j else 0).

Definition df_body (c : cfwd) (x u : vec) (i : nat) (J : mtx * mtx) : mtx * mtx :=
  if cm_state (cf_map c) i then (jx_body 6 u (i * cf_fs c) (fst J), ju_body c 0 x i (snd J)) else J.
Lemma df_loop c x u n J0 : (3 <= cf_fs c)%nat ->
  let J := for_n n (df_body c x u) (J0, mzero) in
  forall i j, fst J i j = J0 i j + jxval c u 0 6 n i j /\ snd J i j = colval c (cblock c x) n i j.
Proof.
  intros H. induction n; intros J i j.
  - unfold J, jxval, overn, colval; simpl. split; [ring|]. unfold mzero. now destruct (Nat.ltb_spec j 0).
  - unfold J. cbn [for_n]. unfold df_body at 1 3. rewrite <- colval_S by (auto using cblock_out). unfold jxval. rewrite overn_S. fold (jxval c u 0 6 n i j).
    destruct (IHn i j) as [E1 E2]. set (K := for_n n (df_body c x u) (J0, mzero)) in *.
    destruct (cm_state (cf_map c) n); cbn [fst snd].
    + rewrite jx_body_val by auto. rewrite E1. split; [cbn [Nat.add]; ring|].
      rewrite ju_body_val; cbn [Nat.add]; [destruct (Nat.ltb j (n * cf_fs c)); auto|].
      intros l Hl. destruct (IHn i l) as [_ ->]. unfold colval. destruct (Nat.ltb_spec l (n * cf_fs c)); [lia|reflexivity].
    + rewrite E1, E2. split; [ring|]. unfold colval. now destruct (Nat.ltb j (n * cf_fs c)).
Qed.

(** *** products *)
Lemma colval_sum c B m n du i : (3 <= cf_fs c)%nat -> (n * cf_fs c <= m)%nat ->
  rsum m (fun j => colval c B n i j * du j) =
  overn c n (fun l => rsum (cf_fs c) (fun k => B l i k * du (l * cf_fs c + k)%nat)).
Proof.
  intros H Hm. rewrite (rsum_le (n * cf_fs c) m) by
    (auto; intros j Hj; unfold colval; destruct (Nat.ltb_spec j (n * cf_fs c)); try lia; ring).
  rewrite rsum_mul. apply rsum_ext. intros l Hl.
  assert (E : forall k, (k < cf_fs c)%nat -> colval c B n i (l * cf_fs c + k) =
    if cm_state (cf_map c) l then B l i k else 0).
  { intros k Hk. unfold colval.
    assert (l * cf_fs c + cf_fs c <= n * cf_fs c)%nat by (replace (l * cf_fs c + cf_fs c)%nat with (S l * cf_fs c)%nat by (simpl; lia); apply Nat.mul_le_mono_r; lia).
    destruct (Nat.ltb_spec (l * cf_fs c + k) (n * cf_fs c)); [|lia].
    destruct (col_split (cf_fs c) l (l * cf_fs c + k) H) as [-> ->]; [lia|].
    replace (l * cf_fs c + k - l * cf_fs c)%nat with k by lia. reflexivity. }
  destruct (cm_state (cf_map c) l).
  - apply rsum_ext. intros k Hk. now rewrite E.
  - apply rsum_zero. intros k Hk. rewrite E by assumption. ring.
Qed.
(** one contact's block times its six (or three) entries *)
Lemma cblock_sum c x l i v : (3 <= cf_fs c)%nat -> (i < 9)%nat ->
  rsum (cf_fs c) (fun k => cblock c x l i k * v k) =
    if Nat.ltb i 3 then 0 else if Nat.ltb i 6 then v (i - 3)%nat
    else cross (fun k => cm_pose (cf_map c) l k - x k) v (i - 6)%nat + (if Nat.eqb (cf_fs c) 6 then v (3 + (i - 6))%nat else 0).
Proof.
  intros H Hi. unfold cblock. destruct (Nat.eqb_spec (cf_fs c) 6) as [E|E].
  - rewrite E. do 9 (destruct i as [|i]; [cbv [rsum in_seg Nat.leb Nat.ltb andb Nat.add Nat.sub ident Nat.eqb jtemp m3 cross]; ring|]). lia.
  - rewrite rsum3; auto.
    + do 9 (destruct i as [|i]; [cbv [rsum in_seg Nat.leb Nat.ltb andb Nat.add Nat.sub ident Nat.eqb jtemp m3 cross]; ring|]). lia.
    + intros k Hk. replace (in_seg 0 3 k) with false by (unfold in_seg; seg_cases). rewrite !andb_false_r. simpl. ring.
Qed.
Lemma dcross_sum c f off n dx i : (6 <= i < 9)%nat ->
  rsum 3 (fun j => jxval c f off 6 n i j * dx j) =
  overn c n (fun l => cross (fun k => - dx k) (seg f (off + l * cf_fs c)) (i - 6)%nat).
Proof.
  intros Hi. unfold jxval, overn. cbn [rsum]. rewrite Rplus_0_l.
  rewrite !(Rmult_comm (rsum _ _)), <- !rsum_scale, <- !rsum_plus.
  apply rsum_ext. intros l _. destruct (cm_state _ l); [|ring].
  assert (Hc : (i = 6 \/ i = 7 \/ i = 8)%nat) by lia.
  destruct Hc as [-> | [-> | ->]]; unfold seg; cbv [in_seg Nat.leb Nat.ltb andb Nat.sub dcross m3 cross];
    change (0 + 1)%nat with 1%nat; cbn [Nat.add]; rewrite ?Nat.add_0_r; ring.
Qed.
Lemma jxval_out c f off r n i j : in_seg r 3 i && Nat.ltb j 3 = false -> jxval c f off r n i j = 0.
Proof. intros E. unfold jxval, overn. apply rsum_zero. intros l _. rewrite E. now destruct (cm_state _ l). Qed.

(** the constant block of Jx *)
Lemma jx0_val m k l : let J := bset mzero 0 3 3 3 ident in
  bset J 0 3 3 3 (fun k l => J k (3 + l)%nat / m) k l =
  if Nat.ltb k 3 && Nat.eqb l (3 + k) then 1 / m else 0.
Proof.
  intros J. unfold J, bset, mzero, ident, in_seg. 
  destruct k as [|[|[|k]]]; destruct l as [|[|[|[|[|[|l]]]]]]; simpl; unfold Rdiv; try ring; reflexivity.
Qed.

(** the derivative of Newton-Euler, in the form of sums *)
Lemma newton_euler_poly c x f dx df t i : (i < 9)%nat ->
  newton_euler c (shift x t dx) (shift f t df) i =
  newton_euler c x f i
  + t * (if Nat.ltb i 3 then dx (3 + i)%nat / cf_mass c
         else if Nat.ltb i 6 then net_force c df (i - 3)%nat
         else over c (fun l => cross (fun k => - dx k) (seg f (l * cf_fs c)) (i - 6)%nat)
              + net_moment c x df (i - 6)%nat)
  + t * t * (if Nat.ltb i 6 then 0 else over c (fun l => cross (fun k => - dx k) (seg df (l * cf_fs c)) (i - 6)%nat)).
Proof.
  intros Hi. unfold newton_euler.
  destruct (Nat.ltb_spec i 3).
  - destruct (Nat.ltb_spec i 6); [|lia]. unfold shift, Rdiv. ring.
  - destruct (Nat.ltb_spec i 6).
    + unfold net_force, over. change rsum with rsum.
      fold (overn c (cm_size (cf_map c)) (fun l => seg (shift f t df) (l * cf_fs c) (i - 3)%nat)).
      rewrite (overn_poly _ _ _ (fun l => seg f (l * cf_fs c) (i - 3)%nat) (fun l => seg df (l * cf_fs c) (i - 3)%nat) (fun _ => 0) t)
        by (intros; unfold seg, shift; ring).
      unfold overn at 3. rewrite (rsum_zero _ (fun i0 => if cm_state (cf_map c) i0 then 0 else 0)) by (intros l _; now destruct (cm_state _ l)).
      unfold overn. ring.
    + unfold net_moment, over.
      assert (P := overn_poly c (cm_size (cf_map c))
        (fun l => cross (fun k => cm_pose (cf_map c) l k - shift x t dx k) (seg (shift f t df) (l * cf_fs c)) (i - 6)%nat
                  + (if Nat.eqb (cf_fs c) 6 then seg (shift f t df) (l * cf_fs c + 3) (i - 6)%nat else 0))
        (fun l => cross (fun k => cm_pose (cf_map c) l k - x k) (seg f (l * cf_fs c)) (i - 6)%nat
                  + (if Nat.eqb (cf_fs c) 6 then seg f (l * cf_fs c + 3) (i - 6)%nat else 0))
        (fun l => cross (fun k => - dx k) (seg f (l * cf_fs c)) (i - 6)%nat
                  + (cross (fun k => cm_pose (cf_map c) l k - x k) (seg df (l * cf_fs c)) (i - 6)%nat
                     + (if Nat.eqb (cf_fs c) 6 then seg df (l * cf_fs c + 3) (i - 6)%nat else 0)))
        (fun l => cross (fun k => - dx k) (seg df (l * cf_fs c)) (i - 6)%nat) t).
      unfold overn in P. rewrite P.
      * rewrite <- rsum_plus. f_equal. f_equal. f_equal. apply rsum_ext. intros l _. destruct (cm_state _ l); ring.
      * intros l _. unfold seg, shift, cross.
        destruct (i - 6)%nat as [|[|[|]]]; destruct (Nat.eqb _ 6); ring.
Qed.

Lemma jx_rows c f off n dx i J : (i < 9)%nat ->
  (forall j, (j < 9)%nat -> J i j = (if Nat.ltb i 3 && Nat.eqb j (3 + i) then 1 / cf_mass c else 0) + jxval c f off 6 n i j) ->
  rsum 9 (fun j => J i j * dx j) =
  if Nat.ltb i 3 then dx (3 + i)%nat / cf_mass c else if Nat.ltb i 6 then 0
  else overn c n (fun l => cross (fun k => - dx k) (seg f (off + l * cf_fs c)) (i - 6)%nat).
Proof.
  intros Hi E. destruct (Nat.ltb_spec i 6).
  - rewrite (rsum_ext 9 _ (fun j => (if Nat.ltb i 3 && Nat.eqb j (3 + i) then 1 / cf_mass c else 0) * dx j)).
    + do 6 (destruct i as [|i]; [simpl; unfold Rdiv; ring|]). lia.
    + intros j Hj. rewrite (E j Hj), jxval_out; [ring|]. unfold in_seg.
      replace (Nat.leb 6 i) with false by (symmetry; apply Nat.leb_gt; lia). reflexivity.
  - destruct (Nat.ltb_spec i 3); [lia|].
    rewrite (rsum_le 3 9) by (try lia; intros j Hj; rewrite E by lia; simpl;
      rewrite jxval_out by (rewrite andb_false_iff; right; apply Nat.ltb_ge; lia); ring).
    rewrite <- dcross_sum by lia. apply rsum_ext. intros j Hj. rewrite E by lia. simpl. ring.
Qed.
Lemma ju_rows c x n v i : (3 <= cf_fs c)%nat -> (i < 9)%nat ->
  overn c n (fun l => rsum (cf_fs c) (fun k => cblock c x l i k * v (l * cf_fs c + k)%nat)) =
  if Nat.ltb i 3 then 0 else if Nat.ltb i 6 then overn c n (fun l => seg v (l * cf_fs c) (i - 3)%nat)
  else overn c n (fun l => cross (fun k => cm_pose (cf_map c) l k - x k) (seg v (l * cf_fs c)) (i - 6)%nat
                  + (if Nat.eqb (cf_fs c) 6 then seg v (l * cf_fs c + 3) (i - 6)%nat else 0)).
Proof.
  intros H Hi.
  rewrite (overn_ext c n _ (fun l => if Nat.ltb i 3 then 0 else if Nat.ltb i 6 then seg v (l * cf_fs c) (i - 3)%nat
     else cross (fun k => cm_pose (cf_map c) l k - x k) (seg v (l * cf_fs c)) (i - 6)%nat
          + (if Nat.eqb (cf_fs c) 6 then seg v (l * cf_fs c + 3) (i - 6)%nat else 0))).
  - destruct (Nat.ltb i 3); [apply rsum_zero; intros l _; now destruct (cm_state _ l)|]. now destruct (Nat.ltb i 6).
  - intros l Hl. rewrite (cblock_sum c x l i (fun k => v (l * cf_fs c + k)%nat)) by assumption.
    destruct (Nat.ltb i 3); auto. destruct (Nat.ltb i 6); auto. unfold seg at 2. rewrite <- Nat.add_assoc. reflexivity.
Qed.

(** CentroidalFwdDynamics: from any data, [forward] gives Newton-Euler, for every number
    of contacts and contact pattern, and [dForward] its derivative. *)
Theorem C45_forward : forall c d x u, (3 <= cf_fs c)%nat ->
  (forall i, (i < 9)%nat -> cf_xdot (cf_forward c x u d) i = newton_euler c x u i) /\
  is_derivative 9 9 (cm_size (cf_map c) * cf_fs c) (newton_euler c) x u
    (cf_Jx (cf_dforward c x u d)) (cf_Ju (cf_dforward c x u d)).
Proof.
  intros c d x u H. split.
  - intros i Hi. apply (forward_val c 0); auto.
  - intros dx du i Hi.
    unfold cf_dforward. fold (df_body c x u).
    set (J0 := bset (bset mzero 0 3 3 3 ident) 0 3 3 3 (fun k l => bset mzero 0 3 3 3 ident k (3 + l)%nat / cf_mass c)).
    assert (L := df_loop c x u (cm_size (cf_map c)) J0 H). cbv zeta in L.
    change (fun (i0 : nat) (J : mtx * mtx) => if cm_state (cf_map c) i0 then
      (jx_body 6 u (i0 * cf_fs c) (fst J), ju_body c 0 x i0 (snd J)) else J) with (df_body c x u).
    destruct (for_n (cm_size (cf_map c)) (df_body c x u) (J0, mzero)) as [Jx Ju]. cbn [fst snd cf_Jx cf_Ju] in *.
    assert (EJ : mv 9 Jx dx i + mv (cm_size (cf_map c) * cf_fs c) Ju du i =
       if Nat.ltb i 3 then dx (3 + i)%nat / cf_mass c
       else if Nat.ltb i 6 then net_force c du (i - 3)%nat
       else over c (fun l => cross (fun k => - dx k) (seg u (l * cf_fs c)) (i - 6)%nat) + net_moment c x du (i - 6)%nat).
    { unfold mv. rewrite (jx_rows c u 0 (cm_size (cf_map c))); auto.
      2: { intros j Hj. destruct (L i j) as [-> _]. unfold J0. now rewrite jx0_val. }
      rewrite (rsum_ext _ (fun j => Ju i j * du j) (fun j => colval c (cblock c x) (cm_size (cf_map c)) i j * du j))
        by (intros j _; now rewrite (proj2 (L i j))).
      rewrite colval_sum, ju_rows by auto.
      unfold net_force, net_moment, over, overn. destruct (Nat.ltb i 3); [ring|]. destruct (Nat.ltb i 6); [ring|]. reflexivity. }
    rewrite EJ. eapply poly_deriv. intros t. rewrite newton_euler_poly by assumption. reflexivity.
Qed.

(** *** forces in the state *)
Definition dc_body (c : cfwd) (x : vec) (i : nat) (J : mtx) : mtx :=
  if cm_state (cf_map c) i then ju_body c 9 x i (jx_body 6 x (9 + i * cf_fs c) J) else J.
Lemma dc_loop c x n J0 : (3 <= cf_fs c)%nat -> (forall i j, (9 <= j)%nat -> J0 i j = 0) ->
  forall i j, for_n n (dc_body c x) J0 i j =
    if Nat.ltb j 9 then J0 i j + jxval c x 9 6 n i j else colval c (cblock c x) n i (j - 9).
Proof.
  intros H Z. induction n; intros i j.
  - unfold jxval, overn, colval; simpl for_n. destruct (Nat.ltb_spec j 9); [simpl; ring|].
    rewrite Z by assumption. now destruct (Nat.ltb_spec (j - 9) (0 * cf_fs c)).
  - cbn [for_n]. unfold dc_body at 1. set (K := for_n n (dc_body c x) J0) in *.
    rewrite <- colval_S by (auto using cblock_out). unfold jxval. rewrite overn_S. fold (jxval c x 9 6 n i j).
    assert (B : forall i j, jx_body 6 x (9 + n * cf_fs c) K i j =
       K i j + (if in_seg 6 3 i && Nat.ltb j 3 then dcross x (9 + n * cf_fs c) (i - 6) j else 0))
      by (intros; apply jx_body_val; auto).
    destruct (cm_state (cf_map c) n).
    + rewrite ju_body_val.
      * rewrite B, IHn. destruct (Nat.ltb_spec j 9).
        -- destruct (Nat.ltb_spec j (9 + n * cf_fs c)); [ring|lia].
        -- replace (Nat.ltb j 3) with false by (symmetry; apply Nat.ltb_ge; lia). rewrite andb_false_r, Rplus_0_r.
           destruct (Nat.ltb_spec j (9 + n * cf_fs c)); destruct (Nat.ltb_spec (j - 9) (n * cf_fs c)); try lia; auto.
           f_equal. lia.
      * intros l Hl. rewrite B, IHn. destruct (Nat.ltb_spec l 9); [lia|].
        replace (Nat.ltb l 3) with false by (symmetry; apply Nat.ltb_ge; lia). rewrite andb_false_r, Rplus_0_r.
        unfold colval. destruct (Nat.ltb_spec (l - 9) (n * cf_fs c)); [lia|reflexivity].
    + rewrite IHn. destruct (Nat.ltb j 9); [ring|]. unfold colval. now destruct (Nat.ltb (j - 9) (n * cf_fs c)).
Qed.
Lemma dc_rows c x i k l : (9 <= i)%nat -> cblock c x l i k = 0.
Proof.
  intros H. unfold cblock, in_seg. replace (Nat.ltb i (6 + 3)) with false by (symmetry; apply Nat.ltb_ge; lia).
  replace (Nat.ltb i (3 + 3)) with false by (symmetry; apply Nat.ltb_ge; lia). now rewrite !andb_false_r.
Qed.
Lemma rsum_delta n a f : (a < n)%nat -> rsum n (fun j => (if Nat.eqb a j then 1 else 0) * f j) = f a.
Proof.
  induction n; intros H; [lia|]. simpl. destruct (Nat.eqb_spec a n) as [->|N].
  - rewrite rsum_zero; [ring|]. intros i Hi. destruct (Nat.eqb_spec n i); [lia|ring].
  - rewrite IHn by lia. ring.
Qed.

(** ContinuousCentroidalFwdDynamics *)
Theorem C45_continuous : forall c d x u, (3 <= cf_fs c)%nat ->
  let nu := (cm_size (cf_map c) * cf_fs c)%nat in
  (forall i, (i < 9 + nu)%nat -> cf_xdot (cc_forward c x u d) i = newton_euler_rate c x u i) /\
  is_derivative (9 + nu) (9 + nu) nu (newton_euler_rate c) x u
    (cf_Jx (cc_dforward c x d)) (cf_Ju (cc_dforward c x d)).
Proof.
  intros c d x u H nu. split.
  - intros i Hi. unfold cc_forward, newton_euler_rate, sset, in_seg. cbn [cf_xdot].
    destruct (Nat.ltb_spec i 9).
    + replace (Nat.leb 9 i) with false by (symmetry; apply Nat.leb_gt; lia). simpl andb. now apply forward_val.
    + replace (Nat.leb 9 i) with true by (symmetry; apply Nat.leb_le; lia).
      replace (Nat.ltb i (9 + cc_nu c)) with true by (symmetry; apply Nat.ltb_lt; exact Hi). reflexivity.
  - intros dx du i Hi. unfold cc_dforward. cbn [cf_Jx cf_Ju].
    change (fun (i0 : nat) (J : mtx) => if cm_state (cf_map c) i0 then
      ju_body c 9 x i0 (jx_body 6 x (9 + i0 * cf_fs c) J) else J) with (dc_body c x).
    set (J0 := bset (bset mzero 0 3 3 3 ident) 0 3 3 3 (fun k l => bset mzero 0 3 3 3 ident k (3 + l)%nat / cf_mass c)).
    assert (Z : forall i j, (9 <= j)%nat -> J0 i j = 0).
    { intros a b Hb. unfold J0. rewrite jx0_val. destruct (Nat.ltb_spec a 3); cbn [andb]; auto.
      destruct (Nat.eqb_spec b (3 + a)); [lia|reflexivity]. }
    assert (L := dc_loop c x (cm_size (cf_map c)) J0 H Z).
    set (Jx := for_n (cm_size (cf_map c)) (dc_body c x) J0) in *.
    assert (EX : mv (9 + nu) Jx dx i = rsum 9 (fun j => Jx i j * dx j) +
       overn c (cm_size (cf_map c)) (fun l => rsum (cf_fs c) (fun k => cblock c x l i k * seg dx 9 (l * cf_fs c + k)%nat))).
    { unfold mv. rewrite rsum_app. f_equal. rewrite <- (colval_sum c (cblock c x) nu) by auto.
      apply rsum_ext. intros j _. rewrite L. destruct (Nat.ltb_spec (9 + j) 9); [lia|].
      replace (9 + j - 9)%nat with j by lia. reflexivity. }
    rewrite EX. destruct (Nat.lt_ge_cases i 9) as [H9|H9].
    + rewrite (jx_rows c x 9 (cm_size (cf_map c))), ju_rows; auto.
      2: { intros j Hj. rewrite L. destruct (Nat.ltb_spec j 9); [|lia]. unfold J0. now rewrite jx0_val. }
      unfold mv. rewrite (rsum_zero nu).
      2: { intros j Hj. unfold bset, in_seg. replace (Nat.leb 9 i) with false by (symmetry; apply Nat.leb_gt; lia). simpl. unfold mzero. ring. }
      eapply poly_deriv. intros t. unfold newton_euler_rate.
      replace (Nat.ltb i 9) with true by (symmetry; apply Nat.ltb_lt; lia).
      change (seg (shift x t dx) 9) with (shift (seg x 9) t (seg dx 9)).
      rewrite newton_euler_poly by assumption. f_equal. f_equal. f_equal.
      unfold net_force, net_moment, over, overn.
      destruct (Nat.ltb i 3); [ring|]. destruct (Nat.ltb i 6); [ring|]. rewrite Rplus_0_r. f_equal.
    + rewrite (rsum_zero 9).
      2: { intros j Hj. rewrite L. destruct (Nat.ltb_spec j 9); [|lia]. unfold J0. rewrite jx0_val, jxval_out.
           - replace (Nat.ltb i 3) with false by (symmetry; apply Nat.ltb_ge; lia). simpl. ring.
           - unfold in_seg. replace (Nat.ltb i (6 + 3)) with false by (symmetry; apply Nat.ltb_ge; lia). now rewrite andb_false_r. }
      rewrite (overn_ext c _ _ (fun _ => 0)) by (intros l _; apply rsum_zero; intros k _; rewrite dc_rows by assumption; ring).
      unfold overn. rewrite (rsum_zero (cm_size (cf_map c))) by (intros l _; now destruct (cm_state _ l)).
      rewrite !Rplus_0_l. unfold mv.
      rewrite (rsum_ext nu _ (fun j => (if Nat.eqb (i - 9) j then 1 else 0) * du j)).
      2: { intros j Hj. unfold bset, in_seg, ident. change (cc_nu c) with nu.
           replace (Nat.leb 9 i) with true by (symmetry; apply Nat.leb_le; lia).
           replace (Nat.ltb i (9 + nu)) with true by (symmetry; apply Nat.ltb_lt; lia).
           replace (Nat.ltb j (0 + nu)) with true by (symmetry; apply Nat.ltb_lt; lia). simpl.
           rewrite Nat.sub_0_r. reflexivity. }
      rewrite rsum_delta by (unfold nu in *; lia).
      eapply (poly_deriv _ (u (i - 9)%nat) _ 0). intros t. unfold newton_euler_rate, shift.
      replace (Nat.ltb i 9) with false by (symmetry; apply Nat.ltb_ge; lia). ring.
Qed.

(** *** residuals *)
(** the data only matters through the entries not rewritten; the three reference
    residuals keep a zero Ju and one identity block *)
Lemma aa_body_val c x u i v k : (k < 3)%nat ->
  aa_body c x u i v k = v k + (if cm_state (cf_map c) i then moment1 c x u 0 i k else 0).
Proof.
  intros H. unfold aa_body. destruct (cm_state (cf_map c) i); [|ring]. unfold moment1, seg.
  do 3 (destruct k as [|k]; [unfold sadd, sset, vadd, vset, in_seg, cross; simpl; rewrite ?Nat.add_0_r;
      destruct (Nat.eqb (cf_fs c) 6); simpl; rewrite ?Nat.add_0_r, <- ?Nat.add_assoc; simpl; ring|]). lia.
Qed.
Lemma aa_loop c x u n v k : (k < 3)%nat ->
  for_n n (aa_body c x u) v k = v k + overn c n (fun i => moment1 c x u 0 i k).
Proof.
  intros H. induction n; [unfold overn; simpl; ring|]. cbn [for_n]. rewrite aa_body_val, IHn, overn_S by assumption. ring.
Qed.
Lemma aa_ju_val c x n J i j :
  (forall l, (n * cf_fs c <= l)%nat -> J i l = 0) ->
  aa_ju c x n J i j = if Nat.ltb j (n * cf_fs c) then J i j else cblock c x n (6 + i) (j - n * cf_fs c).
Proof.
  intros Z. unfold aa_ju. rewrite (Nat.mul_comm (cf_fs c) n).
  set (o := (n * cf_fs c)%nat) in *.
  assert (S0 : forall w, in_seg o w j = in_seg (o + 0) w j) by (intros; now rewrite Nat.add_0_r).
  destruct (Nat.ltb_spec j o) as [L|L].
  - destruct (Nat.eqb (cf_fs c) 6); unfold bset; rewrite !S0, !in_seg_lt, !andb_false_r by assumption; reflexivity.
  - unfold cblock. replace (in_seg 3 3 (6 + i)) with false by (unfold in_seg; simpl; seg_cases).
    replace (in_seg 6 3 (6 + i)) with (in_seg 0 3 i) by (unfold in_seg; seg_cases).
    replace (6 + i - 6)%nat with i by lia. cbn [andb].
    destruct (Nat.eqb (cf_fs c) 6); unfold bset; rewrite !S0, !in_seg_shift by assumption;
      rewrite (Z j L); rewrite ?Nat.sub_add_distr, ?Nat.sub_0_r; reflexivity.
Qed.
Lemma aa_jac_loop c x u n : (3 <= cf_fs c)%nat ->
  let J := for_n n (fun i J => if cm_state (cf_map c) i
                     then (jx_body 0 u (i * cf_fs c) (fst J), aa_ju c x i (snd J)) else J) (mzero, mzero) in
  forall i j, fst J i j = jxval c u 0 6 n (6 + i) j /\ snd J i j = colval c (cblock c x) n (6 + i) j.
Proof.
  intros H. induction n; intros J i j.
  - unfold J, jxval, overn, colval; simpl. split; [reflexivity|]. unfold mzero. now destruct (Nat.ltb_spec j 0).
  - unfold J. cbn [for_n]. rewrite <- colval_S by (auto using cblock_out). unfold jxval. rewrite overn_S.
    fold (jxval c u 0 6 n (6 + i) j).
    destruct (IHn i j) as [E1 E2]. set (K := for_n n _ (mzero, mzero)) in *.
    destruct (cm_state (cf_map c) n); cbn [fst snd].
    + rewrite jx_body_val by auto. rewrite E1. split.
      * replace (in_seg 6 3 (6 + i)) with (in_seg 0 3 i) by (unfold in_seg; seg_cases).
        replace (6 + i - 6)%nat with (i - 0)%nat by lia. reflexivity.
      * rewrite aa_ju_val; [destruct (Nat.ltb j (n * cf_fs c)); auto|].
        intros l Hl. destruct (IHn i l) as [_ ->]. unfold colval. destruct (Nat.ltb_spec l (n * cf_fs c)); [lia|reflexivity].
    + rewrite E1, E2. split; [ring|]. unfold colval. now destruct (Nat.ltb j (n * cf_fs c)).
Qed.
(** the moment as rows 6..8 of Newton-Euler *)
Lemma moment_row c x f k : (k < 3)%nat -> newton_euler c x f (6 + k)%nat = net_moment c x f k.
Proof. intros H. unfold newton_euler. destruct k as [|[|[|]]]; auto; lia. Qed.

(** AngularAccelerationResidual, states of any size at least 3 and controls that may be
    longer than the forces *)
Theorem C45_angular_acceleration : forall c n m, (3 <= cf_fs c)%nat -> (3 <= n)%nat -> (cm_size (cf_map c) * cf_fs c <= m)%nat ->
  computes 3 n m (angular_acceleration c) (net_moment c).
Proof.
  intros c n m H Hn Hm d x u _. split.
  - intros i Hi. cbn [angular_acceleration r_eval s_value]. rewrite aa_loop by assumption. unfold vzero, net_moment, over, overn.
    rewrite Rplus_0_l. reflexivity.
  - intros dx du i Hi. cbn [angular_acceleration r_jac].
    assert (L := aa_jac_loop c x u (cm_size (cf_map c)) H). cbv zeta in L.
    destruct (for_n (cm_size (cf_map c)) _ (mzero, mzero)) as [Jx Ju]. cbn [fst snd s_Jx s_Ju] in *.
    assert (EJ : mv n Jx dx i + mv m Ju du i =
        over c (fun l => cross (fun k => - dx k) (seg u (l * cf_fs c)) i) + net_moment c x du i).
    { unfold mv. rewrite (rsum_le 3 n).
      2: assumption. 2: { intros j Hj. rewrite (proj1 (L i j)), jxval_out; [ring|]. rewrite andb_false_iff. right. apply Nat.ltb_ge. lia. }
      rewrite (rsum_ext 3 _ (fun j => jxval c u 0 6 (cm_size (cf_map c)) (6 + i) j * dx j)) by (intros j _; now rewrite (proj1 (L i j))).
      rewrite dcross_sum by lia.
      rewrite (rsum_ext m _ (fun j => colval c (cblock c x) (cm_size (cf_map c)) (6 + i) j * du j)) by (intros j _; now rewrite (proj2 (L i j))).
      rewrite colval_sum, ju_rows by (auto; lia).
      replace (Nat.ltb (6 + i) 3) with false by (symmetry; apply Nat.ltb_ge; lia).
      replace (Nat.ltb (6 + i) 6) with false by (symmetry; apply Nat.ltb_ge; lia).
      replace (6 + i - 6)%nat with i by lia. reflexivity. }
    rewrite EJ. eapply poly_deriv. intros t. rewrite <- (moment_row c (shift x t dx)) by assumption. rewrite newton_euler_poly by lia.
    replace (Nat.ltb (6 + i) 3) with false by (symmetry; apply Nat.ltb_ge; lia).
    replace (Nat.ltb (6 + i) 6) with false by (symmetry; apply Nat.ltb_ge; lia).
    replace (6 + i - 6)%nat with i by lia. rewrite moment_row by assumption. reflexivity.
Qed.

(** CentroidalAccelerationResidual: g + (sum of forces) / m *)
Definition acceleration (c : cfwd) (x u : vec) : vec := fun k => net_force c u k / cf_mass c + cf_gravity c k.
Definition ablock (c : cfwd) (l i k : nat) : R := if in_seg 0 3 i && in_seg 0 3 k then ident i k * (1 / cf_mass c) else 0.
Lemma ca_loop c n i j : (3 <= cf_fs c)%nat ->
  for_n n (fun i J => if cm_state (cf_map c) i then
            let J := bset J 0 (i * cf_fs c) 3 3 ident in
            bset J 0 (i * cf_fs c) 3 3 (fun k l => J k (i * cf_fs c + l)%nat * (1 / cf_mass c)) else J) mzero i j
  = colval c (ablock c) n i j.
Proof.
  intros H. revert i j. induction n; intros i j.
  - unfold colval; simpl. unfold mzero. now destruct (Nat.ltb_spec j 0).
  - cbn [for_n]. set (K := for_n n _ mzero) in *. rewrite <- colval_S; auto.
    2: { intros l a k Hk. unfold ablock. replace (in_seg 0 3 k) with false by (unfold in_seg; seg_cases). now rewrite andb_false_r. }
    assert (S0 : forall w k, in_seg (n * cf_fs c) w k = in_seg (n * cf_fs c + 0) w k) by (intros; now rewrite Nat.add_0_r).
    destruct (cm_state (cf_map c) n).
    + unfold bset at 1. destruct (Nat.ltb_spec j (n * cf_fs c)) as [L|L].
      * rewrite S0, in_seg_lt, andb_false_r by assumption. unfold bset. rewrite S0, in_seg_lt, andb_false_r by assumption. apply IHn.
      * unfold ablock. rewrite !S0, !in_seg_shift, Nat.sub_0_r by assumption.
        destruct (in_seg 0 3 i && in_seg 0 3 (j - n * cf_fs c)) eqn:E.
        -- unfold bset. replace (n * cf_fs c + (j - n * cf_fs c))%nat with j by lia. rewrite S0, in_seg_shift, E by assumption.
           rewrite Nat.sub_0_r. reflexivity.
        -- unfold bset. rewrite S0, in_seg_shift, E by assumption. rewrite IHn. unfold colval.
           destruct (Nat.ltb_spec j (n * cf_fs c)); [lia|reflexivity].
    + rewrite IHn. unfold colval. now destruct (Nat.ltb j (n * cf_fs c)).
Qed.
Lemma jx_zero_ca c d : sreach (centroidal_acceleration c) d -> forall i j, s_Jx d i j = 0.
Proof. induction 1; auto. Qed.
Lemma ca_val c u n v k : (k < 3)%nat ->
  for_n n (fun i v => if cm_state (cf_map c) i then sadd v 0 3 (fun k => u (i * cf_fs c + k)%nat) else v) v k =
  v k + overn c n (fun i => seg u (i * cf_fs c) k).
Proof.
  intros Hk. induction n; [unfold overn; simpl; ring|]. cbn [for_n]. rewrite overn_S. 
  destruct (cm_state (cf_map c) n); [|rewrite IHn; ring].
  unfold sadd at 1, sset. replace (in_seg 0 3 k) with true by (unfold in_seg; seg_cases).
  rewrite Nat.sub_0_r. cbn [Nat.add]. rewrite IHn. unfold seg. ring.
Qed.
Theorem C45_centroidal_acceleration : forall c n m, (3 <= cf_fs c)%nat -> (cm_size (cf_map c) * cf_fs c <= m)%nat ->
  computes 3 n m (centroidal_acceleration c) (acceleration c).
Proof.
  intros c n m H Hm d x u Hd. split.
  - intros i Hi. cbn [centroidal_acceleration r_eval s_value]. rewrite ca_val by assumption. unfold vzero, acceleration, net_force, over, overn.
    rewrite Rplus_0_l. reflexivity.
  - intros dx du i Hi. cbn [centroidal_acceleration r_jac s_Jx s_Ju].
    assert (EJ : forall J, (forall j, J i j = colval c (ablock c) (cm_size (cf_map c)) i j) ->
      mv n (s_Jx d) dx i + mv m J du i = net_force c du i / cf_mass c).
    { intros J EJ. unfold mv. rewrite (rsum_zero n) by (intros j _; rewrite (jx_zero_ca c d Hd); ring).
      rewrite (rsum_ext m _ (fun j => colval c (ablock c) (cm_size (cf_map c)) i j * du j)) by (intros j _; now rewrite EJ).
      rewrite colval_sum by assumption. unfold net_force, over, Rdiv. rewrite Rplus_0_l, Rmult_comm, <- rsum_scale.
      apply rsum_ext. intros l _. destruct (cm_state _ l); [|ring].
      rewrite rsum3; auto.
      - unfold ablock, seg. do 3 (destruct i as [|i]; [cbv [in_seg Nat.leb Nat.ltb andb Nat.add ident Nat.eqb]; rewrite ?Nat.add_0_r; unfold Rdiv; ring|]). lia.
      - intros k Hk. unfold ablock. replace (in_seg 0 3 k) with false by (unfold in_seg; seg_cases). rewrite andb_false_r. ring. }
    rewrite EJ by (intros j; now apply ca_loop).
    apply (poly_deriv _ (acceleration c x u i) _ 0). intros t. unfold acceleration, net_force, over.
    assert (P := overn_poly c (cm_size (cf_map c)) (fun l => seg (shift u t du) (l * cf_fs c) i)
      (fun l => seg u (l * cf_fs c) i) (fun l => seg du (l * cf_fs c) i) (fun _ => 0) t). unfold overn in P.
    rewrite P by (intros; unfold seg, shift; ring).
    rewrite (rsum_zero _ (fun i0 => if cm_state (cf_map c) i0 then 0 else 0)) by (intros l _; now destruct (cm_state _ l)).
    unfold Rdiv. ring.
Qed.

(** CentroidalCoM, LinearMomentum and AngularMomentum residuals: x[o .. o+2] - ref *)
Definition part (o : nat) (ref : vec) (x u : vec) : vec := fun k => x (o + k)%nat - ref k.
Lemma part_derivative o n m ref x u Jx Ju : (o + 3 <= n)%nat -> (forall i j, Ju i j = 0) ->
  (forall i j, (i < 3)%nat -> Jx i j = if Nat.eqb (o + i) j then 1 else 0) -> is_derivative 3 n m (part o ref) x u Jx Ju.
Proof.
  intros Hn Hu Hx dx du i Hi. unfold mv. rewrite (rsum_zero m) by (intros j _; rewrite Hu; ring).
  rewrite (rsum_ext n _ (fun j => (if Nat.eqb (o + i) j then 1 else 0) * dx j)) by (intros j _; now rewrite Hx).
  rewrite rsum_delta by lia. apply (poly_deriv _ (part o ref x u i) _ 0). intros t. unfold part, shift. ring.
Qed.
Lemma part_block o J i j : (i < 3)%nat -> (forall i j, J i j = 0 \/ J i j = bset mzero 0 o 3 3 ident i j) ->
  bset J 0 o 3 3 ident i j = if Nat.eqb (o + i) j then 1 else 0.
Proof.
  intros Hi HJ. unfold bset, ident. rewrite Nat.sub_0_r. replace (in_seg 0 3 i) with true by (unfold in_seg; seg_cases).
  cbn [andb]. specialize (HJ i j). unfold bset, mzero in HJ.
  destruct (in_seg o 3 j) eqn:E.
  - unfold in_seg in E. apply andb_prop in E. destruct E as [E1 E2]. apply Nat.leb_le in E1.
    destruct (Nat.eqb_spec i (j - o)); destruct (Nat.eqb_spec (o + i) j); lia || reflexivity.
  - rewrite andb_false_r in HJ. destruct (Nat.eqb_spec (o + i) j) as [<-|]; [|now destruct HJ].
    unfold in_seg in E. destruct (Nat.leb_spec o (o + i)); destruct (Nat.ltb_spec (o + i) (o + 3)); simpl in E; try discriminate; lia.
Qed.
Lemma part_inv (s : sres) o :
  (forall x u d, s_Jx (r_eval s x u d) = s_Jx d /\ s_Ju (r_eval s x u d) = s_Ju d) ->
  (forall x u d, s_Jx (r_jac s x u d) = bset (s_Jx d) 0 o 3 3 ident /\ s_Ju (r_jac s x u d) = s_Ju d) ->
  forall d, sreach s d -> (forall i j, s_Ju d i j = 0) /\ (forall i j, s_Jx d i j = 0 \/ s_Jx d i j = bset mzero 0 o 3 3 ident i j).
Proof.
  intros He Hj. induction 1 as [|x u d _ [I1 I2]|x u d _ [I1 I2]].
  - split; [reflexivity|left; reflexivity].
  - destruct (He x u d) as [-> ->]. auto.
  - destruct (Hj x u d) as [-> ->]. split; auto. intros i j. specialize (I2 i j). unfold bset in *.
    destruct (in_seg 0 3 i && in_seg o 3 j); [right; reflexivity|]. unfold mzero in *. now destruct I2; auto.
Qed.
Theorem C45_com : forall ref n m, (3 <= n)%nat -> computes 3 n m (centroidal_com ref) (part 0 ref).
Proof.
  intros ref n m Hn d x u Hd. split; [reflexivity|].
  destruct (part_inv (centroidal_com ref) 0) with (d := d) as [Z B]; auto.
  apply part_derivative; auto. intros i j Hi. cbn [centroidal_com r_jac s_Jx]. now apply part_block.
Qed.
Theorem C45_linear_momentum : forall ref n m, (6 <= n)%nat -> computes 3 n m (linear_momentum ref) (part 3 ref).
Proof.
  intros ref n m Hn d x u Hd. split; [reflexivity|].
  destruct (part_inv (linear_momentum ref) 3) with (d := d) as [Z B]; auto.
  apply part_derivative; auto. intros i j Hi. cbn [linear_momentum r_jac s_Jx]. now apply part_block.
Qed.
(** correct on the documented state (c, h, L), ndx = 9 ... *)
Theorem C45_angular_momentum : forall ref m, computes 3 9 m (angular_momentum 9 ref) (part 6 ref).
Proof.
  intros ref m d x u Hd. split; [reflexivity|].
  destruct (part_inv (angular_momentum 9 ref) 6) with (d := d) as [Z B]; auto.
  apply part_derivative; auto. intros i j Hi. cbn [angular_momentum r_jac s_Jx]. now apply part_block.
Qed.
(** ... and only there: on a longer state (such as the one with the forces appended) the
    value reads x[6..8] but the Jacobian selects the last three columns. *)
Theorem C45_angular_momentum_refuted : forall ref n m, (9 < n)%nat ->
  ~ computes 3 n m (angular_momentum n ref) (part 6 ref).
Proof.
  intros ref n m Hn C. destruct (C sdata0 vzero vzero (SR0 _)) as [_ D].
  specialize (D (fun k => if Nat.eqb k 6 then 1 else 0) vzero 0%nat ltac:(lia)).
  assert (E : derivable_pt_lim (fun t => part 6 ref (shift vzero t (fun k => if Nat.eqb k 6 then 1 else 0)) (shift vzero t vzero) 0%nat) 0 1).
  { apply (poly_deriv _ (- ref 0%nat) _ 0). intros t. unfold part, shift, vzero. simpl. ring. }
  assert (F := uniqueness_limite _ _ _ _ D E). clear D E.
  unfold mv in F. rewrite !rsum_zero in F; [lra| |].
  - intros j _. unfold vzero. ring.
  - intros j Hj. cbn [angular_momentum r_jac s_Jx sdata0]. unfold bset, mzero, in_seg, ident.
    destruct (Nat.leb_spec (n - 3) j); destruct (Nat.ltb_spec j (n - 3 + 3)); destruct (Nat.eqb_spec j 6);
      destruct (Nat.eqb_spec (0 - 0) (j - (n - 3))); simpl; try lia; ring.
Qed.

(** CentroidalWrapperResidual: if the wrapped residual computes f, the wrapper computes
    f(x, u) on the state (x, u), from any reachable data. *)
Theorem C45_wrapper : forall s f r n m k, computes r n m s f -> forall d z v, wreach s n m r d ->
  (forall i, (i < r)%nat -> s_value (w_outer (w_eval s n z d)) i = f z (seg z n) i) /\
  is_derivative r (n + m) k (fun z _ => f z (seg z n)) z v
    (s_Jx (w_outer (w_jac s n m r z d))) (s_Ju (w_outer (w_jac s n m r z d))).
Proof.
  intros s f r n m k C d z v Hd.
  assert (I : sreach s (w_inner d)) by (induction Hd; cbn; constructor; assumption).
  destruct (C (w_inner d) z (seg z n) I) as [V D].
  split; [exact V|]. intros dz dv i Hi. cbn [w_jac w_outer s_Jx s_Ju].
  change (fun k0 : nat => z (n + k0)%nat) with (seg z n).
  unfold mv. rewrite (rsum_zero k) by (intros; unfold mzero; ring). rewrite rsum_app, Rplus_0_r.
  rewrite (rsum_ext n _ (fun j => s_Jx (r_jac s z (seg z n) (w_inner d)) i j * dz j)).
  2: { intros j Hj. unfold bset, in_seg. replace (Nat.ltb i (0 + r)) with true by (symmetry; apply Nat.ltb_lt; lia).
       replace (Nat.leb n j) with false by (symmetry; apply Nat.leb_gt; lia).
       replace (Nat.ltb j (0 + n)) with true by (symmetry; apply Nat.ltb_lt; lia). simpl. now rewrite !Nat.sub_0_r. }
  rewrite (rsum_ext m _ (fun j => s_Ju (r_jac s z (seg z n) (w_inner d)) i j * seg dz n j)).
  2: { intros j Hj. unfold bset, in_seg. replace (Nat.ltb i (0 + r)) with true by (symmetry; apply Nat.ltb_lt; lia).
       replace (Nat.leb n (n + j)) with true by (symmetry; apply Nat.leb_le; lia).
       replace (Nat.ltb (n + j) (n + m)) with true by (symmetry; apply Nat.ltb_lt; lia). simpl. rewrite Nat.sub_0_r.
       replace (n + j - n)%nat with j by lia. reflexivity. }
  exact (D dz (seg dz n) i Hi).
Qed.

(** ** Examples *)
(** three 6D contacts of which the middle one is inactive *)
Definition ex_map : cmap := CMap 3 (fun i => negb (Nat.eqb i 1)) (fun i k => INR (i + k)).
Definition ex_c : cfwd := CFwd 2 (fun k => if Nat.eqb k 2 then -10 else 0) ex_map 6.
Definition ex_x : vec := fun k => INR k.
Definition ex_u : vec := fun k => 1.
Example C45_example :
  newton_euler ex_c ex_x ex_u 0%nat = 3 / 2 /\ newton_euler ex_c ex_x ex_u 5%nat = - 18 /\ newton_euler ex_c ex_x ex_u 6%nat = 2 /\
  cf_Jx (cf_dforward ex_c ex_x ex_u cfdata0) 6%nat 1%nat = - 2 /\
  cf_Ju (cf_dforward ex_c ex_x ex_u cfdata0) 6%nat 13%nat = - 2 /\ cf_Ju (cf_dforward ex_c ex_x ex_u cfdata0) 6%nat 7%nat = 0.
Proof. repeat split; cbv -[Rplus Rmult Rminus Ropp Rdiv Rinv IZR]; lra. Qed.
Example C45_example_force :
  is_derivative 9 9 18 (newton_euler ex_c) ex_x ex_u
    (cf_Jx (cf_dforward ex_c ex_x ex_u cfdata0)) (cf_Ju (cf_dforward ex_c ex_x ex_u cfdata0)) /\
  computes 3 9 18 (angular_acceleration ex_c) (net_moment ex_c).
Proof.
  split; [apply (C45_forward ex_c cfdata0 ex_x ex_u); simpl; lia|].
  apply C45_angular_acceleration; simpl; lia.
Qed.
Example C45_example_wrapper :
  is_derivative 3 27 0 (fun z _ => acceleration ex_c z (seg z 9)) ex_x vzero
    (s_Jx (w_outer (w_jac (centroidal_acceleration ex_c) 9 18 3 ex_x wdata0)))
    (s_Ju (w_outer (w_jac (centroidal_acceleration ex_c) 9 18 3 ex_x wdata0))).
Proof.
  apply (C45_wrapper (centroidal_acceleration ex_c) (acceleration ex_c) 3 9 18).
  - apply C45_centroidal_acceleration; simpl; lia.
  - constructor.
Qed.

Print Assumptions C45_forward.
Print Assumptions C45_continuous.
Print Assumptions C45_angular_acceleration.
Print Assumptions C45_centroidal_acceleration.
Print Assumptions C45_com.
Print Assumptions C45_linear_momentum.
Print Assumptions C45_angular_momentum.
Print Assumptions C45_angular_momentum_refuted.
Print Assumptions C45_wrapper.
