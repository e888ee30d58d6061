(** C60: Q-function storage behaves as a value, and its views are the blocks of its own storage. *)
Require Import Reals Lra Lia Arith Bool List.
Require Import Verif.ViewModel.
Import ListNotations.
Open Scope R_scope.

(** ** Specification: plain values *)
Record aval := AVal { a_ndx : nat; a_nu : nat; a_ndy : nat; a_q : R; a_grad : nat -> R; a_hess : nat -> nat -> R }.
Definition a_n (x : aval) : nat := (a_ndx x + a_nu x + a_ndy x)%nat.
Definition azero (ndx nu ndy : nat) : aval := AVal ndx nu ndy 0 (fun _ => 0) (fun _ _ => 0).

(** where each block lies: in the gradient or not, first row, first column, rows, columns *)
Definition in_grad (w : which) : bool := match w with Qx | Qu => true | _ => false end.
Definition row0 (x : aval) (w : which) : nat :=
  match w with Qx | Qxx | Qxu | Qxy => 0 | Qu | Quu | Quy => a_ndx x | Qyy => a_ndx x + a_nu x end%nat.
Definition col0 (x : aval) (w : which) : nat :=
  match w with Qx | Qu | Qxx => 0 | Qxu | Quu => a_ndx x | Qxy | Quy | Qyy => a_ndx x + a_nu x end%nat.
Definition nrow (x : aval) (w : which) : nat :=
  match w with Qx | Qxx | Qxu | Qxy => a_ndx x | Qu | Quu | Quy => a_nu x | Qyy => a_ndy x end.
Definition ncol (x : aval) (w : which) : nat :=
  match w with Qx | Qu => 1 | Qxx => a_ndx x | Qxu | Quu => a_nu x | Qxy | Quy | Qyy => a_ndy x end%nat.
(** the coefficient (i, j) of a block, and the value in which it is replaced *)
Definition entry (x : aval) (w : which) (i j : nat) : R :=
  if in_grad w then a_grad x (row0 x w + i)%nat else a_hess x (row0 x w + i)%nat (col0 x w + j)%nat.
Definition with_entry (x : aval) (w : which) (i j : nat) (a : R) : aval :=
  if in_grad w
  then AVal (a_ndx x) (a_nu x) (a_ndy x) (a_q x) (fun k => if Nat.eqb k (row0 x w + i) then a else a_grad x k) (a_hess x)
  else AVal (a_ndx x) (a_nu x) (a_ndy x) (a_q x) (a_grad x)
         (fun k l => if Nat.eqb k (row0 x w + i) && Nat.eqb l (col0 x w + j) then a else a_hess x k l).

Definition ast := nat -> option aval.
Definition aset (f : ast) (v : nat) (x : option aval) : ast := fun k => if Nat.eqb k v then x else f k.
Definition aexch (f : ast) (v w : nat) : option ast :=
  match f v, f w with Some x, Some y => Some (aset (aset f v (Some y)) w (Some x)) | _, _ => None end.

Definition astep (f : ast) (o : op) : option ast :=
  match o with
  | Make v ndx nu ndy => match f v with None => Some (aset f v (Some (azero ndx nu ndy))) | Some _ => None end
  | CopyC v w => match f v, f w with None, Some y => Some (aset f v (Some y)) | _, _ => None end
  | MoveC v w => match f v, f w with None, Some y => Some (aset (aset f v (Some y)) w (Some (azero 0 0 0))) | _, _ => None end
  | Assign v w => match f v, f w with Some _, Some y => Some (aset f v (Some y)) | _, _ => None end
  | MoveA v w | Swap v w => aexch f v w
  | Destroy v => match f v with Some _ => Some (aset f v None) | None => None end
  | Write v w i j a =>
      match f v with
      | Some x => if Nat.ltb i (nrow x w) && Nat.ltb j (ncol x w) then Some (aset f v (Some (with_entry x w i j a))) else None
      | None => None end
  | SetQ v a => match f v with Some x => Some (aset f v (Some (AVal (a_ndx x) (a_nu x) (a_ndy x) a (a_grad x) (a_hess x)))) | None => None end
  end.
Fixpoint arun (f : ast) (p : list op) : option ast :=
  match p with [] => Some f | o :: p => match astep f o with Some f' => arun f' p | None => None end end.
Definition a0 : ast := fun _ => None.

(** ** Heap facts *)
Definition holds (h : heap) (m : mat) (r c : nat) (F : nat -> nat -> R) : Prop :=
  m_rows m = r /\ m_cols m = c /\ exists d, h_buf h (m_ptr m) = Some ((r * c)%nat, d) /\
  forall i j, (i < r)%nat -> (j < c)%nat -> d (i + j * r)%nat = F i j.

Lemma idx_lt r c i j : (i < r)%nat -> (j < c)%nat -> (i + j * r < r * c)%nat.
Proof. intros. assert (j * r + r <= c * r)%nat by (replace (j * r + r)%nat with (S j * r)%nat by lia; apply Nat.mul_le_mono_r; lia). lia. Qed.
Lemma idx_inj r i j i' j' : (i < r)%nat -> (i' < r)%nat -> (i + j * r = i' + j' * r)%nat -> i = i' /\ j = j'.
Proof.
  intros H H' E. destruct (Nat.div_mod_unique r j j' i i' H H') as [A B]; [rewrite !(Nat.mul_comm r); lia|]. auto.
Qed.

Lemma block_get h m r c F bi bj br bc : holds h m r c F -> (bi + br <= r)%nat -> (bj + bc <= c)%nat ->
  forall i j, vget h (block m bi bj br bc) i j = if Nat.ltb i br && Nat.ltb j bc then Some (F (bi + i) (bj + j))%nat else None.
Proof.
  intros (E1 & E2 & d & Hd & HF) L1 L2 i j. unfold vget, block, idx. cbn [v_rows v_cols v_ptr v_off v_ld].
  destruct (Nat.ltb_spec i br) as [Li|]; [|reflexivity]. destruct (Nat.ltb_spec j bc) as [Lj|]; [|reflexivity]. cbn [andb].
  rewrite Hd, E1. replace (bi + bj * r + i + j * r)%nat with ((bi + i) + (bj + j) * r)%nat by lia.
  rewrite (proj2 (Nat.ltb_lt _ _)) by (apply idx_lt; lia). now rewrite HF by lia.
Qed.

Lemma block_put h m r c F bi bj br bc i j a : holds h m r c F -> (bi + br <= r)%nat -> (bj + bc <= c)%nat ->
  (i < br)%nat -> (j < bc)%nat ->
  exists h', vput h (block m bi bj br bc) i j a = Some h' /\
    holds h' m r c (fun k l => if Nat.eqb k (bi + i) && Nat.eqb l (bj + j) then a else F k l) /\
    h_next h' = h_next h /\ forall p, p <> m_ptr m -> h_buf h' p = h_buf h p.
Proof.
  intros (E1 & E2 & d & Hd & HF) L1 L2 Hi Hj. unfold vput, block, idx. cbn [v_rows v_cols v_ptr v_off v_ld].
  rewrite (proj2 (Nat.ltb_lt i br)), (proj2 (Nat.ltb_lt j bc)) by auto. cbn [andb].
  rewrite Hd, E1. replace (bi + bj * r + i + j * r)%nat with ((bi + i) + (bj + j) * r)%nat by lia.
  rewrite (proj2 (Nat.ltb_lt _ _)) by (apply idx_lt; lia). eexists. split; [reflexivity|]. split; [|split; [reflexivity|]].
  - split; [exact E1|]. split; [exact E2|]. cbn [set_buf h_buf]. rewrite Nat.eqb_refl. eexists. split; [reflexivity|].
    intros k l Hk Hl. cbv beta. destruct (Nat.eqb_spec (k + l * r) (bi + i + (bj + j) * r)) as [E|N].
    + destruct (idx_inj r k l (bi + i) (bj + j) Hk ltac:(lia) E) as [-> ->]. now rewrite !Nat.eqb_refl.
    + rewrite HF by auto. destruct (Nat.eqb_spec k (bi + i)) as [->|]; [|reflexivity].
      destruct (Nat.eqb_spec l (bj + j)) as [->|]; [|reflexivity]. contradiction.
  - intros p Hp. cbn [set_buf h_buf]. now rewrite (proj2 (Nat.eqb_neq _ _) Hp).
Qed.

Lemma holds_frame h h' m r c F : holds h m r c F -> h_buf h' (m_ptr m) = h_buf h (m_ptr m) -> holds h' m r c F.
Proof. intros (A & B & d & C & D) E. split; [auto|]. split; [auto|]. exists d. now rewrite E. Qed.
Lemma holds_ext h m r c F G : holds h m r c F -> (forall i j, (i < r)%nat -> (j < c)%nat -> F i j = G i j) -> holds h m r c G.
Proof. intros (A & B & d & C & D) E. split; [auto|]. split; [auto|]. exists d. split; [auto|]. intros. rewrite D; auto. Qed.

Definition fresh (h : heap) : Prop := forall p, (h_next h <= p)%nat -> h_buf h p = None.
Lemma holds_live h m r c F : fresh h -> holds h m r c F -> (m_ptr m < h_next h)%nat.
Proof. intros Hf (_ & _ & d & E & _). destruct (Nat.lt_ge_cases (m_ptr m) (h_next h)); [auto|]. rewrite Hf in E by auto. discriminate. Qed.

Section Junk.
Variable junk : nat -> nat -> R.

Lemma assign_spec h m s r c F r0 c0 F0 : fresh h -> holds h m r0 c0 F0 -> holds h s r c F ->
  exists h' m', mat_assign junk h m s = Some (h', m') /\ holds h' m' r c F /\ fresh h' /\
    ((m_ptr m' = m_ptr m /\ h_next h' = h_next h) \/
     (m_ptr m' = h_next h /\ h_next h' = S (h_next h) /\ h_buf h' (m_ptr m) = None)) /\
    forall p, p <> m_ptr m -> p <> m_ptr m' -> h_buf h' p = h_buf h p.
Proof.
  intros Hf Hm Hs. pose proof (holds_live _ _ _ _ _ Hf Hm) as Lm. pose proof (holds_live _ _ _ _ _ Hf Hs) as Ls.
  destruct Hm as (A & B & d & C & D). destruct Hs as (A' & B' & d' & C' & D').
  unfold mat_assign, mat_resize. rewrite A', B', A, B.
  destruct (Nat.eqb_spec (r * c) (r0 * c0)) as [E|N].
  - cbn [m_ptr]. rewrite C', C. eexists. eexists. split; [reflexivity|]. split; [|split; [|split]].
    + split; [reflexivity|]. split; [reflexivity|]. exists d'. cbn [set_buf h_buf m_ptr]. rewrite Nat.eqb_refl, E. auto.
    + intros p Hp. cbn [set_buf h_buf h_next] in *. destruct (Nat.eqb_spec p (m_ptr m)); [lia|]. now apply Hf.
    + left. split; reflexivity.
    + intros p Hp _. cbn [set_buf h_buf]. now rewrite (proj2 (Nat.eqb_neq _ _) Hp).
  - assert (NP : m_ptr s <> m_ptr m). { intros E. rewrite E in C'. rewrite C in C'. injection C' as E' _. lia. }
    unfold free. rewrite C. unfold mat_make, alloc. cbn [m_ptr set_buf h_next h_buf].
    rewrite Nat.eqb_refl. rewrite (proj2 (Nat.eqb_neq (m_ptr s) (h_next h))) by lia.
    rewrite (proj2 (Nat.eqb_neq _ _) NP). rewrite C'.
    eexists. eexists. split; [reflexivity|]. split; [|split; [|split]].
    + split; [reflexivity|]. split; [reflexivity|]. exists d'. cbn [set_buf h_buf m_ptr]. rewrite Nat.eqb_refl. auto.
    + intros p Hp. cbn [set_buf h_buf h_next] in *.
      repeat match goal with |- context [Nat.eqb ?a ?b] => destruct (Nat.eqb_spec a b); [lia|] end. apply Hf. lia.
    + right. cbn [m_ptr set_buf h_next h_buf]. split; [reflexivity|]. split; [reflexivity|].
      rewrite !(proj2 (Nat.eqb_neq (m_ptr m) (h_next h))) by lia. now rewrite Nat.eqb_refl.
    + intros p Hp Hp'. cbn [set_buf h_buf m_ptr] in *. rewrite !(proj2 (Nat.eqb_neq _ _) Hp'). now rewrite (proj2 (Nat.eqb_neq _ _) Hp).
Qed.

(** ** The invariant *)
Definition own_mat (q : qfun) (k : bool) : mat := if k then q_grad q else q_hess q.
Definition ptr (q : qfun) (k : bool) : nat := m_ptr (own_mat q k).
Definition agrees (h : heap) (q : qfun) (x : aval) : Prop :=
  q_ndx q = a_ndx x /\ q_nu q = a_nu x /\ q_ndy q = a_ndy x /\ q_q q = a_q x /\
  holds h (q_grad q) (a_ndx x + a_nu x) 1 (fun i _ => a_grad x i) /\
  holds h (q_hess q) (a_n x) (a_n x) (a_hess x) /\
  forall w, q_ref q w = block (own_mat q (in_grad w)) (row0 x w) (if in_grad w then 0 else col0 x w)%nat (nrow x w) (ncol x w).

Lemma agrees_frame h h' q x : agrees h q x -> (forall k, h_buf h' (ptr q k) = h_buf h (ptr q k)) -> agrees h' q x.
Proof.
  intros (A & B & C & D & G & H & I) E. do 4 (split; [auto|]).
  split; [apply (holds_frame h); [auto|exact (E true)]|]. split; [apply (holds_frame h); [auto|exact (E false)]|auto].
Qed.

Definition inv (s : st) (a : ast) : Prop :=
  (forall v, match s_v s v, a v with Some q, Some x => agrees (s_h s) q x | None, None => True | _, _ => False end) /\
  (forall v v' k k' q q', s_v s v = Some q -> s_v s v' = Some q' -> ptr q k = ptr q' k' -> v = v' /\ k = k') /\
  fresh (s_h s) /\
  (forall p, h_buf (s_h s) p <> None -> exists v q k, s_v s v = Some q /\ ptr q k = p).

Definition owned (s : st) (v p : nat) : Prop := exists q k, s_v s v = Some q /\ ptr q k = p.

Lemma agrees_live h q x k : fresh h -> agrees h q x -> (ptr q k < h_next h)%nat /\ h_buf h (ptr q k) <> None.
Proof.
  intros Hf (_ & _ & _ & _ & G & H & _). destruct k; unfold ptr; cbn [own_mat].
  - split; [eapply holds_live; eassumption|]. destruct G as (_ & _ & d & -> & _). discriminate.
  - split; [eapply holds_live; eassumption|]. destruct H as (_ & _ & d & -> & _). discriminate.
Qed.

Lemma inv_val s a v q : inv s a -> s_v s v = Some q -> exists x, a v = Some x /\ agrees (s_h s) q x.
Proof. intros (I & _) E. specialize (I v). rewrite E in I. destruct (a v) as [x|]; [|contradiction]. now exists x. Qed.
Lemma inv_live s a v p : inv s a -> owned s v p -> (p < h_next (s_h s))%nat /\ h_buf (s_h s) p <> None.
Proof.
  intros I (q & k & E & <-). destruct (inv_val _ _ _ _ I E) as (x & _ & A). apply (agrees_live _ _ _ _ (proj1 (proj2 (proj2 I))) A).
Qed.
Lemma inv_own s a v v' p : inv s a -> owned s v p -> owned s v' p -> v = v'.
Proof. intros (_ & S & _) (q & k & E & P) (q' & k' & E' & P'). apply (S v v' k k' q q' E E'). congruence. Qed.

(** one variable gets a new object, whose memory is its own former memory or fresh *)
Lemma inv_upd s a v h' f' a' q' x' : inv s a ->
  (forall k, f' k = if Nat.eqb k v then Some q' else s_v s k) -> (forall k, a' k = if Nat.eqb k v then Some x' else a k) ->
  (forall p, (p < h_next (s_h s))%nat -> ~ owned s v p -> h_buf h' p = h_buf (s_h s) p) ->
  (h_next (s_h s) <= h_next h')%nat -> fresh h' -> agrees h' q' x' -> ptr q' true <> ptr q' false ->
  (forall k, owned s v (ptr q' k) \/ (h_next (s_h s) <= ptr q' k)%nat) ->
  (forall p, h_buf h' p <> None -> owned s v p \/ (h_next (s_h s) <= p)%nat -> exists k, ptr q' k = p) ->
  inv (St h' f') a'.
Proof.
  intros I Ef Ea Fr Ln Hf Ag Hd Ho Hl. pose proof I as (I1 & I2 & I3 & I4). unfold inv. cbn [s_v s_h].
  assert (OT : forall v' p, v' <> v -> owned s v' p -> (p < h_next (s_h s))%nat /\ ~ owned s v p).
  { intros v' p Hv O. split; [apply (inv_live _ _ _ _ I O)|]. intros O'. apply Hv. now apply (inv_own s a v' v p I). }
  split; [|split; [|split]].
  - intros w. rewrite Ef, Ea. destruct (Nat.eqb_spec w v) as [->|N]; [exact Ag|]. specialize (I1 w).
    destruct (s_v s w) as [q|] eqn:E; destruct (a w) as [x|]; auto.
    apply (agrees_frame (s_h s)); [auto|]. intros k.
    destruct (OT w (ptr q k) N (ex_intro _ q (ex_intro _ k (conj E eq_refl)))) as [P1 P2]. now apply Fr.
  - assert (X : forall w k k' q, w <> v -> s_v s w = Some q -> ptr q k = ptr q' k' -> False).
    { intros w k k' q N E P. destruct (OT w (ptr q k) N (ex_intro _ q (ex_intro _ k (conj E eq_refl)))) as [P1 P2].
      destruct (Ho k') as [O|O]; rewrite <- P in O; [contradiction|lia]. }
    intros u w k k' q q1. rewrite !Ef. destruct (Nat.eqb_spec u v) as [->|N], (Nat.eqb_spec w v) as [->|N']; intros E E' P.
    + injection E as <-. injection E' as <-. split; [reflexivity|]. destruct k, k'; congruence.
    + injection E as <-. exfalso. eapply X; [exact N'|exact E'|symmetry; exact P].
    + injection E' as <-. exfalso. eapply X; [exact N|exact E|exact P].
    + eapply I2; eassumption.
  - exact Hf.
  - intros p Hp. destruct (Nat.lt_ge_cases p (h_next (s_h s))) as [L|L].
    + destruct (h_buf (s_h s) p) as [b|] eqn:B.
      * destruct (I4 p ltac:(congruence)) as (w & q & k & E & P). destruct (Nat.eq_dec w v) as [->|N].
        -- destruct (Hl p Hp (or_introl (ex_intro _ q (ex_intro _ k (conj E P))))) as (k' & P').
           exists v, q', k'. split; [|exact P']. rewrite Ef. now rewrite Nat.eqb_refl.
        -- exists w, q, k. split; [|exact P]. rewrite Ef. now rewrite (proj2 (Nat.eqb_neq _ _) N).
      * (* a buffer which was free: it belongs to the object *)
        assert (NO : ~ owned s v p). { intros O. apply (inv_live _ _ _ _ I) in O. destruct O as [_ O]. congruence. }
        rewrite (Fr p L NO) in Hp. congruence.
    + destruct (Hl p Hp (or_intror L)) as (k' & P'). exists v, q', k'. split; [|exact P']. rewrite Ef. now rewrite Nat.eqb_refl.
Qed.

Lemma inv_del s a v h' f' a' : inv s a ->
  (forall k, f' k = if Nat.eqb k v then None else s_v s k) -> (forall k, a' k = if Nat.eqb k v then None else a k) ->
  h_next h' = h_next (s_h s) ->
  (forall p, ~ owned s v p -> h_buf h' p = h_buf (s_h s) p) -> (forall p, owned s v p -> h_buf h' p = None) ->
  inv (St h' f') a'.
Proof.
  intros I Ef Ea Ln Fr Dl. pose proof I as (I1 & I2 & I3 & I4). unfold inv. cbn [s_v s_h].
  assert (OT : forall v' p, v' <> v -> owned s v' p -> ~ owned s v p).
  { intros v' p Hv O O'. apply Hv. now apply (inv_own s a v' v p I). }
  split; [|split; [|split]].
  - intros w. rewrite Ef, Ea. destruct (Nat.eqb_spec w v) as [->|N]; [exact Logic.I|]. specialize (I1 w).
    destruct (s_v s w) as [q|] eqn:E; destruct (a w) as [x|]; auto.
    apply (agrees_frame (s_h s)); [auto|]. intros k. apply Fr. apply (OT w); [auto|]. exists q, k. auto.
  - intros u w k k' q q1. rewrite !Ef. destruct (Nat.eqb_spec u v) as [->|N], (Nat.eqb_spec w v) as [->|N']; intros E E' P; try discriminate.
    eapply I2; eassumption.
  - intros p Hp. rewrite Ln in Hp. rewrite Fr; [now apply I3|]. intros O. apply (inv_live _ _ _ _ I) in O. lia.
  - intros p Hp. destruct (h_buf (s_h s) p) as [b|] eqn:B.
    + destruct (I4 p ltac:(congruence)) as (w & q & k & E & P). destruct (Nat.eq_dec w v) as [->|N].
      * rewrite (Dl p) in Hp by (exists q, k; auto). congruence.
      * exists w, q, k. split; [|exact P]. rewrite Ef. now rewrite (proj2 (Nat.eqb_neq _ _) N).
    + assert (NO : ~ owned s v p). { intros O. apply (inv_live _ _ _ _ I) in O. destruct O as [_ O]. congruence. }
      rewrite (Fr p NO) in Hp. congruence.
Qed.

(** redefining the views of an object whose matrices have the right sizes *)
Lemma redef_ok h g H x r : holds h g (a_ndx x + a_nu x) 1 (fun i _ => a_grad x i) -> holds h H (a_n x) (a_n x) (a_hess x) ->
  agrees h (redef_refs (QFun (a_ndx x) (a_nu x) (a_ndy x) (a_q x) g H r)) x.
Proof.
  intros Hg HH. unfold agrees, redef_refs. cbn [q_ndx q_nu q_ndy q_q q_grad q_hess q_ref].
  do 4 (split; [reflexivity|]). split; [auto|]. split; [auto|].
  intros w. destruct w; unfold own_mat; cbn [q_grad q_hess in_grad row0 col0 nrow ncol];
    unfold head, seg, topLeft, topRight, bottomRight; try reflexivity.
  - destruct HH as (_ & -> & _). unfold a_n. f_equal. lia.
  - destruct HH as (-> & -> & _). unfold a_n. f_equal; lia.
Qed.

Lemma make_spec h ndx nu ndy : fresh h ->
  exists h' q, q_make junk h ndx nu ndy = Some (h', q) /\ agrees h' q (azero ndx nu ndy) /\ fresh h' /\
    h_next h' = S (S (h_next h)) /\ ptr q true = h_next h /\ ptr q false = S (h_next h) /\
    forall p, (p < h_next h)%nat -> h_buf h' p = h_buf h p.
Proof.
  intros Hf. unfold q_make, mat_make, alloc, mat_zero. cbn [m_ptr h_next h_buf set_buf].
  assert (X1 : Nat.eqb (h_next h) (S (h_next h)) = false) by (apply Nat.eqb_neq; lia).
  assert (X2 : Nat.eqb (S (h_next h)) (h_next h) = false) by (apply Nat.eqb_neq; lia).
  repeat (rewrite ?Nat.eqb_refl, ?X1, ?X2; cbn [h_buf h_next set_buf m_ptr]).
  eexists. eexists. split; [reflexivity|]. split; [|split; [|split; [|split; [|split]]]].
  - unfold agrees. cbn [q_ndx q_nu q_ndy q_q q_grad q_hess q_ref azero a_ndx a_nu a_ndy a_q a_grad a_hess].
    do 4 (split; [reflexivity|]). unfold a_n. cbn [azero a_ndx a_nu a_ndy]. split; [|split].
    + split; [reflexivity|]. split; [reflexivity|]. cbn [m_ptr h_buf set_buf].
      rewrite ?Nat.eqb_refl. rewrite ?(proj2 (Nat.eqb_neq (h_next h) (S (h_next h)))) by lia. eexists. split; [reflexivity|]. reflexivity.
    + split; [reflexivity|]. split; [reflexivity|]. cbn [m_ptr h_buf set_buf].
      rewrite ?Nat.eqb_refl. eexists. split; [reflexivity|]. reflexivity.
    + intros w. destruct w; unfold own_mat; cbn [q_grad q_hess in_grad row0 col0 nrow ncol a_ndx a_nu a_ndy];
        unfold head, seg, topLeft, topRight, bottomRight; cbn [m_rows m_cols]; try reflexivity; f_equal; cbn; lia.
  - intros p Hp. cbn [h_next h_buf set_buf] in *.
    repeat match goal with |- context [Nat.eqb ?a ?b] => destruct (Nat.eqb_spec a b); [lia|] end. apply Hf. lia.
  - reflexivity.
  - reflexivity.
  - reflexivity.
  - intros p Hp. cbn [h_buf set_buf].
    repeat match goal with |- context [Nat.eqb ?a ?b] => destruct (Nat.eqb_spec a b); [lia|] end. reflexivity.
Qed.

Lemma qassign_spec h q s x y : fresh h -> agrees h q x -> agrees h s y ->
  ptr q true <> ptr q false -> ptr s false <> ptr q true ->
  exists h' q', q_assign junk h q s = Some (h', q') /\ agrees h' q' y /\ fresh h' /\ (h_next h <= h_next h')%nat /\
    ptr q' true <> ptr q' false /\ (forall k, ptr q' k = ptr q k \/ (h_next h <= ptr q' k)%nat) /\
    (forall p, (p < h_next h)%nat -> (forall k, ptr q k <> p) -> h_buf h' p = h_buf h p) /\
    (forall p, h_buf h' p <> None -> (exists k, ptr q k = p) \/ (h_next h <= p)%nat -> exists k, ptr q' k = p).
Proof.
  intros Hf Aq As Dq Ds.
  pose proof (agrees_live _ _ _ true Hf Aq) as [Lg _]. pose proof (agrees_live _ _ _ false Hf Aq) as [Lh _].
  pose proof (agrees_live _ _ _ false Hf As) as [Lsh _].
  destruct Aq as (_ & _ & _ & _ & Gq & Hq & _). pose proof As as (S1 & S2 & S3 & S4 & Gs & Hs & _).
  unfold ptr, own_mat in *. unfold q_assign.
  destruct (assign_spec h (q_grad q) (q_grad s) _ _ _ _ _ _ Hf Gq Gs) as (h1 & g & E1 & Hg & F1 & P1 & Fr1). rewrite E1.
  assert (K1 : h_buf h1 (m_ptr (q_hess q)) = h_buf h (m_ptr (q_hess q))).
  { apply Fr1; [auto|]. destruct P1 as [(-> & _)|(-> & _)]; [auto|lia]. }
  assert (K2 : h_buf h1 (m_ptr (q_hess s)) = h_buf h (m_ptr (q_hess s))).
  { apply Fr1; [auto|]. destruct P1 as [(-> & _)|(-> & _)]; [auto|lia]. }
  destruct (assign_spec h1 (q_hess q) (q_hess s) _ _ _ _ _ _ F1 (holds_frame _ _ _ _ _ _ Hq K1) (holds_frame _ _ _ _ _ _ Hs K2))
    as (h2 & H & E2 & HH & F2 & P2 & Fr2). rewrite E2.
  pose proof (holds_live _ _ _ _ _ F1 Hg) as Lg1.
  assert (Ngh : m_ptr g <> m_ptr (q_hess q)) by (destruct P1 as [(-> & _)|(-> & _)]; [auto|lia]).
  assert (NgH : m_ptr g <> m_ptr H) by (destruct P2 as [(-> & _)|(-> & _)]; [auto|lia]).
  assert (Ng : (h_next h <= h_next h1)%nat) by (destruct P1 as [(_ & ->)|(_ & -> & _)]; lia).
  assert (Ng2 : (h_next h1 <= h_next h2)%nat) by (destruct P2 as [(_ & ->)|(_ & -> & _)]; lia).
  eexists. eexists. split; [reflexivity|]. split; [|split; [exact F2|split; [lia|split; [|split; [|split]]]]].
  - rewrite S1, S2, S3, S4. apply redef_ok; [|exact HH]. apply (holds_frame h1); [exact Hg|]. apply Fr2; auto.
  - cbn [redef_refs q_grad q_hess]. exact NgH.
  - intros k. destruct k; cbn [redef_refs q_grad q_hess].
    + destruct P1 as [(-> & _)|(-> & _)]; [left; reflexivity|right; lia].
    + destruct P2 as [(-> & _)|(-> & _)]; [left; reflexivity|right; lia].
  - intros p Lp Np. pose proof (Np true) as N1. pose proof (Np false) as N2. cbn [own_mat] in N1, N2.
    rewrite Fr2.
    + apply Fr1; [auto|]. destruct P1 as [(-> & _)|(-> & _)]; [auto|lia].
    + auto.
    + destruct P2 as [(-> & _)|(-> & _)]; [auto|lia].
  - intros p Bp Hp.
    destruct (Nat.eq_dec p (m_ptr H)) as [->|NH]; [exists false; reflexivity|].
    destruct (Nat.eq_dec p (m_ptr g)) as [->|NG]; [exists true; reflexivity|]. exfalso.
    destruct (Nat.eq_dec p (m_ptr (q_hess q))) as [->|NQ].
    { destruct P2 as [(E & _)|(_ & _ & E)]; [now rewrite E in NH|now rewrite E in Bp]. }
    rewrite (Fr2 p NQ NH) in Bp.
    destruct (Nat.eq_dec p (m_ptr (q_grad q))) as [->|NQ2].
    { destruct P1 as [(E & _)|(_ & _ & E)]; [now rewrite E in NG|now rewrite E in Bp]. }
    rewrite (Fr1 p NQ2 NG) in Bp. destruct Hp as [[k Hk]|Hp]; [destruct k; cbn [own_mat] in Hk; congruence|].
    apply Bp. now apply Hf.
Qed.

(** ** Every step follows the values *)
Lemma sim_make s a v ndx nu ndy : inv s a -> s_v s v = None ->
  exists h q, q_make junk (s_h s) ndx nu ndy = Some (h, q) /\
    inv (St h (set_v (s_v s) v (Some q))) (aset a v (Some (azero ndx nu ndy))).
Proof.
  intros I E. destruct (make_spec (s_h s) ndx nu ndy (proj1 (proj2 (proj2 I)))) as (h & q & M & Ag & F & N & P1 & P2 & Fr).
  exists h, q. split; [exact M|].
  assert (NO : forall p, ~ owned s v p) by (intros p (q0 & k & E0 & _); congruence).
  apply (inv_upd s a v h _ _ q (azero ndx nu ndy) I); try reflexivity; auto.
  - lia.
  - rewrite P1, P2. lia.
  - intros [|]; right; lia.
  - intros p Hp [O|L]; [now apply NO in O|]. destruct (Nat.eq_dec p (h_next (s_h s))) as [->|]; [now exists true|].
    destruct (Nat.eq_dec p (S (h_next (s_h s)))) as [->|]; [now exists false|]. exfalso. apply Hp. apply F. lia.
Qed.

Lemma sim_assign s a v w q r y : inv s a -> s_v s v = Some q -> s_v s w = Some r -> a w = Some y ->
  exists h q', q_assign junk (s_h s) q r = Some (h, q') /\ inv (St h (set_v (s_v s) v (Some q'))) (aset a v (Some y)).
Proof.
  intros I E E' Ay. pose proof I as (I1 & I2 & I3 & I4).
  destruct (inv_val _ _ _ _ I E) as (x & Ax & Ag). destruct (inv_val _ _ _ _ I E') as (y' & Ay' & Ag').
  rewrite Ay in Ay'. injection Ay' as <-.
  assert (D1 : ptr q true <> ptr q false). { intros P. destruct (I2 v v true false q q E E P). discriminate. }
  assert (D2 : ptr r false <> ptr q true). { intros P. destruct (I2 w v false true r q E' E P). discriminate. }
  destruct (qassign_spec (s_h s) q r x y I3 Ag Ag' D1 D2) as (h & q' & M & A' & F & N & D & O & Fr & Lk).
  exists h, q'. split; [exact M|].
  apply (inv_upd s a v h _ _ q' y I); try reflexivity; auto.
  - intros p Lp No. apply Fr; [exact Lp|]. intros k Hk. apply No. exists q, k. auto.
  - intros k. destruct (O k) as [->|L]; [left; exists q, k; auto|right; exact L].
  - intros p Hp [(q0 & k & E0 & P)|L]; apply Lk; auto. left. exists k. congruence.
Qed.

Lemma sim_swap s a v w : inv s a ->
  match swap_vars s v w, aexch a v w with Some s', Some a' => inv s' a' | None, None => True | _, _ => False end.
Proof.
  intros I. pose proof I as (I1 & I2 & I3 & I4). unfold swap_vars, aexch. pose proof (I1 v) as V. pose proof (I1 w) as W.
  destruct (s_v s v) as [q|] eqn:E; destruct (a v) as [x|] eqn:Ax; try contradiction; [|exact Logic.I].
  destruct (s_v s w) as [r|] eqn:E'; destruct (a w) as [y|] eqn:Ay; try contradiction; [|exact Logic.I].
  unfold q_swap.
  assert (Q : forall h q x, agrees h q x -> forall rf, agrees h (redef_refs (QFun (q_ndx q) (q_nu q) (q_ndy q) (q_q q) (q_grad q) (q_hess q) rf)) x).
  { intros h q0 x0 (B1 & B2 & B3 & B4 & B5 & B6 & _) rf. rewrite B1, B2, B3, B4. now apply redef_ok. }
  unfold inv. cbn [s_v s_h]. unfold set_v, aset. split; [|split; [|split]].
  - intros u. destruct (Nat.eqb_spec u w) as [->|N].
    + now apply Q.
    + destruct (Nat.eqb_spec u v) as [->|N']; [now apply Q|apply I1].
  - assert (X : forall u k q1, (if Nat.eqb u w then Some (redef_refs (QFun (q_ndx q) (q_nu q) (q_ndy q) (q_q q) (q_grad q) (q_hess q) (q_ref r)))
        else if Nat.eqb u v then Some (redef_refs (QFun (q_ndx r) (q_nu r) (q_ndy r) (q_q r) (q_grad r) (q_hess r) (q_ref q))) else s_v s u) = Some q1 ->
        exists q2, s_v s (if Nat.eqb u w then v else if Nat.eqb u v then w else u) = Some q2 /\ ptr q1 k = ptr q2 k).
    { intros u k q1. destruct (Nat.eqb_spec u w) as [->|N]; [|destruct (Nat.eqb_spec u v) as [->|N']].
      - intros H. injection H as <-. exists q. split; [exact E|]. destruct k; reflexivity.
      - intros H. injection H as <-. exists r. split; [exact E'|]. destruct k; reflexivity.
      - intros H. exists q1. auto. }
    intros u u' k k' q1 q2 H1 H2 P. destruct (X u k q1 H1) as (p1 & S1 & P1). destruct (X u' k' q2 H2) as (p2 & S2 & P2).
    destruct (I2 _ _ k k' p1 p2 S1 S2 ltac:(congruence)) as [U K]. split; [|exact K].
    destruct (Nat.eqb_spec u w), (Nat.eqb_spec u v), (Nat.eqb_spec u' w), (Nat.eqb_spec u' v); congruence.
  - exact I3.
  - intros p Hp. destruct (I4 p Hp) as (u & q1 & k & S1 & P).
    destruct (Nat.eq_dec u w) as [->|N].
    + rewrite E' in S1. injection S1 as <-. exists v. destruct (Nat.eqb_spec v w) as [->|Nv].
      * eexists. exists k. split; [reflexivity|]. rewrite E in E'. injection E' as <-. destruct k; exact P.
      * rewrite Nat.eqb_refl. eexists. exists k. split; [reflexivity|]. destruct k; exact P.
    + destruct (Nat.eq_dec u v) as [->|N'].
      * rewrite E in S1. injection S1 as <-. exists w. rewrite Nat.eqb_refl. eexists. exists k. split; [reflexivity|]. destruct k; exact P.
      * exists u, q1, k. rewrite (proj2 (Nat.eqb_neq _ _) N), (proj2 (Nat.eqb_neq _ _) N'). auto.
Qed.

Lemma with_agrees h h' q x w i j a : agrees h q x -> fresh h -> ptr q true <> ptr q false ->
  holds h' (own_mat q (in_grad w)) (if in_grad w then a_ndx x + a_nu x else a_n x)%nat (if in_grad w then 1 else a_n x)%nat
    (fun k l => if Nat.eqb k (row0 x w + i) && Nat.eqb l ((if in_grad w then 0 else col0 x w) + j) then a
                else if in_grad w then a_grad x k else a_hess x k l) ->
  (j < ncol x w)%nat ->
  (forall p, p <> ptr q (in_grad w) -> h_buf h' p = h_buf h p) -> agrees h' q (with_entry x w i j a).
Proof.
  intros (A & B & C & D & G & H & V) Hf Nd Hm Lj Fr. unfold with_entry. destruct (in_grad w) eqn:W; cbn [own_mat] in Hm.
  - unfold agrees. cbn [a_ndx a_nu a_ndy a_q a_grad a_hess]. do 4 (split; [auto|]). unfold a_n in *. cbn [a_ndx a_nu a_ndy]. split; [|split].
    + eapply holds_ext; [exact Hm|]. intros k l _ Hl. cbv beta. replace l with 0%nat by lia.
      assert (j = 0)%nat by (destruct w; try discriminate; cbn in Lj; lia). subst j. cbn [Nat.add Nat.eqb]. now rewrite andb_true_r.
    + apply (holds_frame h); [exact H|]. apply Fr. exact (not_eq_sym Nd).
    + exact V.
  - unfold agrees. cbn [a_ndx a_nu a_ndy a_q a_grad a_hess]. do 4 (split; [auto|]). unfold a_n in *. cbn [a_ndx a_nu a_ndy]. split; [|split].
    + apply (holds_frame h); [exact G|]. apply Fr. exact Nd.
    + eapply holds_ext; [exact Hm|]. reflexivity.
    + exact V.
Qed.

Lemma view_in x w : (row0 x w + nrow x w <= (if in_grad w then a_ndx x + a_nu x else a_n x))%nat /\
  ((if in_grad w then 0 else col0 x w) + ncol x w <= (if in_grad w then 1 else a_n x))%nat.
Proof. unfold a_n. destruct w; cbn; lia. Qed.
Lemma agrees_holds h q x w : agrees h q x ->
  holds h (own_mat q (in_grad w)) (if in_grad w then a_ndx x + a_nu x else a_n x)%nat (if in_grad w then 1 else a_n x)%nat
    (fun k l => if in_grad w then a_grad x k else a_hess x k l).
Proof. intros (_ & _ & _ & _ & G & H & _). destruct w; cbn; auto. Qed.

(** what a view shows *)
Lemma view_get h q x w i j : agrees h q x ->
  vget h (q_ref q w) i j = if Nat.ltb i (nrow x w) && Nat.ltb j (ncol x w) then Some (entry x w i j) else None.
Proof.
  intros A. pose proof (agrees_holds h q x w A) as Hm. destruct A as (_ & _ & _ & _ & _ & _ & V). rewrite V.
  rewrite (block_get _ _ _ _ _ _ _ _ _ Hm) by apply view_in. unfold entry. destruct (in_grad w); reflexivity.
Qed.

Lemma sim_step s a o : inv s a ->
  match step junk s o, astep a o with Some s', Some a' => inv s' a' | None, None => True | _, _ => False end.
Proof.
  intros I. pose proof I as (I1 & I2 & I3 & I4). destruct o as [v ndx nu ndy|v w|v w|v w|v w|v w|v|v w i j x|v x]; cbn [step astep].
  - pose proof (I1 v) as V. destruct (s_v s v) as [q|] eqn:E; destruct (a v) as [y|] eqn:Ay; try contradiction; [exact Logic.I|].
    destruct (sim_make s a v ndx nu ndy I E) as (h & q & -> & J). exact J.
  - pose proof (I1 v) as V. destruct (s_v s v) as [q|] eqn:E; destruct (a v) as [y|] eqn:Ay; try contradiction; [exact Logic.I|].
    pose proof (I1 w) as W. destruct (s_v s w) as [r|] eqn:E'; destruct (a w) as [z|] eqn:Az; try contradiction; [|exact Logic.I].
    unfold q_copy. destruct (sim_make s a v (q_ndx r) (q_nu r) (q_ndy r) I E) as (h & q & -> & J).
    assert (Nvw : w <> v) by congruence.
    destruct (sim_assign _ _ v w q r z J) as (h' & q' & M & J').
    { cbn [s_v]. unfold set_v. now rewrite Nat.eqb_refl. }
    { cbn [s_v]. unfold set_v. now rewrite (proj2 (Nat.eqb_neq _ _) Nvw). }
    { unfold aset. now rewrite (proj2 (Nat.eqb_neq _ _) Nvw). }
    cbn [s_h] in M. rewrite M. cbn [s_v] in J'. destruct J' as (K1 & K2 & K3 & K4). cbn [s_v s_h] in *.
    assert (X : forall k, set_v (set_v (s_v s) v (Some q)) v (Some q') k = set_v (s_v s) v (Some q') k)
      by (intros k; unfold set_v; destruct (Nat.eqb k v); reflexivity).
    assert (Y : forall k, aset (aset a v (Some (azero (q_ndx r) (q_nu r) (q_ndy r)))) v (Some z) k = aset a v (Some z) k)
      by (intros k; unfold aset; destruct (Nat.eqb k v); reflexivity).
    unfold inv. cbn [s_v s_h]. split; [|split; [|split]].
    + intros u. specialize (K1 u). rewrite X, Y in K1. exact K1.
    + intros u u' k k' q1 q2 H1 H2. rewrite <- X in H1, H2. eapply K2; eassumption.
    + exact K3.
    + intros p Hp. destruct (K4 p Hp) as (u & q1 & k & S1 & P). exists u, q1, k. rewrite <- X. auto.
  - pose proof (I1 v) as V. destruct (s_v s v) as [q|] eqn:E; destruct (a v) as [y|] eqn:Ay; try contradiction; [exact Logic.I|].
    pose proof (I1 w) as W. destruct (s_v s w) as [r|] eqn:E'; destruct (a w) as [z|] eqn:Az; try contradiction; [|exact Logic.I].
    destruct (sim_make s a v 0 0 0 I E) as (h & q & -> & J).
    assert (Nvw : w <> v) by congruence.
    assert (AE : aexch (aset a v (Some (azero 0 0 0))) v w =
                 Some (aset (aset (aset a v (Some (azero 0 0 0))) v (Some z)) w (Some (azero 0 0 0)))).
    { unfold aexch. replace (aset a v (Some (azero 0 0 0)) v) with (Some (azero 0 0 0)) by (unfold aset; now rewrite Nat.eqb_refl).
      replace (aset a v (Some (azero 0 0 0)) w) with (Some z); [reflexivity|]. unfold aset. now rewrite (proj2 (Nat.eqb_neq _ _) Nvw), Az. }
    pose proof (sim_swap _ _ v w J) as Sw. rewrite AE in Sw.
    destruct (swap_vars {| s_h := h; s_v := set_v (s_v s) v (Some q) |} v w) as [s'|]; [|exact Sw].
    destruct Sw as (K1 & K2 & K3 & K4). split; [|auto]. intros u. specialize (K1 u).
    replace (aset (aset a v (Some z)) w (Some (azero 0 0 0)) u) with (aset (aset (aset a v (Some (azero 0 0 0))) v (Some z)) w (Some (azero 0 0 0)) u); [exact K1|].
    unfold aset. destruct (Nat.eqb u w); [reflexivity|]. destruct (Nat.eqb u v); reflexivity.
  - pose proof (I1 v) as V. destruct (s_v s v) as [q|] eqn:E; destruct (a v) as [y|] eqn:Ay; try contradiction; [|exact Logic.I].
    pose proof (I1 w) as W. destruct (s_v s w) as [r|] eqn:E'; destruct (a w) as [z|] eqn:Az; try contradiction; [|exact Logic.I].
    destruct (sim_assign s a v w q r z I E E' Az) as (h & q' & -> & J). exact J.
  - apply (sim_swap s a v w I).
  - apply (sim_swap s a v w I).
  - pose proof (I1 v) as V. destruct (s_v s v) as [q|] eqn:E; destruct (a v) as [y|] eqn:Ay; try contradiction; [|exact Logic.I].
    assert (D1 : ptr q true <> ptr q false). { intros P. destruct (I2 v v true false q q E E P). discriminate. }
    destruct (agrees_live _ _ _ true I3 V) as [L1 B1]. destruct (agrees_live _ _ _ false I3 V) as [L2 B2].
    unfold ptr, own_mat in *. unfold q_destroy, free.
    destruct (h_buf (s_h s) (m_ptr (q_grad q))) as [b|] eqn:Eg; [|congruence]. cbn [set_buf h_buf].
    rewrite (proj2 (Nat.eqb_neq (m_ptr (q_hess q)) (m_ptr (q_grad q)))) by auto.
    destruct (h_buf (s_h s) (m_ptr (q_hess q))) as [b'|] eqn:Eh; [|congruence].
    apply (inv_del s a v _ _ _ I); try reflexivity.
    + intros p No. cbn [set_buf h_buf]. destruct (Nat.eqb_spec p (m_ptr (q_hess q))) as [->|]; [exfalso; apply No; exists q, false; auto|].
      destruct (Nat.eqb_spec p (m_ptr (q_grad q))) as [->|]; [exfalso; apply No; exists q, true; auto|]. reflexivity.
    + intros p (q0 & k & E0 & P). rewrite E in E0. injection E0 as <-. subst p. cbn [set_buf h_buf].
      destruct k; cbn [ptr own_mat].
      * unfold ptr, own_mat. rewrite Nat.eqb_refl. now destruct (Nat.eqb _ _).
      * unfold ptr, own_mat. now rewrite Nat.eqb_refl.
  - pose proof (I1 v) as V. destruct (s_v s v) as [q|] eqn:E; destruct (a v) as [y|] eqn:Ay; try contradiction; [|exact Logic.I].
    assert (D1 : ptr q true <> ptr q false). { intros P. destruct (I2 v v true false q q E E P). discriminate. }
    pose proof (agrees_holds _ _ _ w V) as Hm. pose proof V as (_ & _ & _ & _ & _ & _ & Vw). rewrite Vw.
    destruct (Nat.ltb i (nrow y w) && Nat.ltb j (ncol y w)) eqn:B.
    + apply andb_true_iff in B. rewrite !Nat.ltb_lt in B. destruct B as [Bi Bj].
      destruct (block_put _ _ _ _ _ _ _ _ _ i j x Hm (proj1 (view_in y w)) (proj2 (view_in y w)) Bi Bj) as (h & -> & Hm' & Nx & Fr).
      apply (inv_upd s a v h _ _ q (with_entry y w i j x) I).
      * intros k. destruct (Nat.eqb_spec k v) as [->|]; auto.
      * reflexivity.
      * intros p _ No. apply Fr. intros ->. apply No. exists q, (in_grad w). auto.
      * lia.
      * intros p Hp. rewrite Nx in Hp. rewrite Fr; [now apply I3|]. intros ->.
        pose proof (agrees_live _ _ _ (in_grad w) I3 V) as [L _]. unfold ptr in L. lia.
      * eapply with_agrees; eauto.
      * exact D1.
      * intros k. left. exists q, k. auto.
      * intros p Hp [(q0 & k & E0 & P)|L]; [exists k; congruence|]. exfalso. apply Hp. rewrite Fr; [now apply I3|]. intros ->.
        pose proof (agrees_live _ _ _ (in_grad w) I3 V) as [L' _]. unfold ptr in L'. lia.
    + unfold vput, block. cbn [v_rows v_cols]. now rewrite B.
  - pose proof (I1 v) as V. destruct (s_v s v) as [q|] eqn:E; destruct (a v) as [y|] eqn:Ay; try contradiction; [|exact Logic.I].
    assert (D1 : ptr q true <> ptr q false). { intros P. destruct (I2 v v true false q q E E P). discriminate. }
    apply (inv_upd s a v (s_h s) _ _ (QFun (q_ndx q) (q_nu q) (q_ndy q) x (q_grad q) (q_hess q) (q_ref q))
             (AVal (a_ndx y) (a_nu y) (a_ndy y) x (a_grad y) (a_hess y)) I); try reflexivity; auto.
    + destruct V as (B1 & B2 & B3 & B4 & B5 & B6 & B7). unfold agrees. cbn. auto 10.
    + intros k. left. exists q, k. auto.
    + intros p Hp [(q0 & k & E0 & P)|L]; [exists k; rewrite E in E0; injection E0 as <-; exact P|]. exfalso. apply Hp. now apply I3.
Qed.

Lemma inv0 : inv st0 a0.
Proof.
  split; [intros v; exact Logic.I|]. split; [intros v v' k k' q q' E; discriminate|]. split; [intros p _; reflexivity|].
  intros p H. exfalso. now apply H.
Qed.

Lemma sim_run p : forall s a, inv s a ->
  match run junk s p, arun a p with Some s', Some a' => inv s' a' | None, None => True | _, _ => False end.
Proof.
  induction p as [|o p IH]; intros s a I; [exact I|]. cbn [run arun]. pose proof (sim_step s a o I) as S.
  destruct (step junk s o) as [s'|]; destruct (astep a o) as [a'|]; try contradiction; [now apply IH|exact Logic.I].
Qed.
End Junk.

(** ** Theorems on QFunctionTpl *)
(** any program of constructions, copies, moves, assignments, swaps, destructions and writes
    through the views runs exactly when it makes sense for plain values, and then every object has
    the value expected: sizes, q, both matrices, and each view shows its block of them *)
Theorem C60_values : forall junk p,
  (run junk st0 p = None <-> arun a0 p = None) /\
  forall s a, run junk st0 p = Some s -> arun a0 p = Some a -> forall v,
    match s_v s v, a v with
    | None, None => True
    | Some q, Some x =>
        q_ndx q = a_ndx x /\ q_nu q = a_nu x /\ q_ndy q = a_ndy x /\ q_q q = a_q x /\
        (forall i, (i < a_ndx x + a_nu x)%nat -> vget (s_h s) (head (q_grad q) (a_ndx x + a_nu x)) i 0 = Some (a_grad x i)) /\
        (forall i j, (i < a_n x)%nat -> (j < a_n x)%nat -> vget (s_h s) (topLeft (q_hess q) (a_n x) (a_n x)) i j = Some (a_hess x i j)) /\
        forall w i j, vget (s_h s) (q_ref q w) i j = if Nat.ltb i (nrow x w) && Nat.ltb j (ncol x w) then Some (entry x w i j) else None
    | _, _ => False
    end.
Proof.
  intros junk p. pose proof (sim_run junk p st0 a0 inv0) as S. split.
  - destruct (run junk st0 p), (arun a0 p); try contradiction; split; congruence.
  - intros s a E E'. rewrite E, E' in S. intros v. destruct S as (I1 & _). specialize (I1 v).
    destruct (s_v s v) as [q|], (a v) as [x|]; auto. pose proof I1 as (A & B & C & D & G & H & V).
    do 4 (split; [auto|]). split; [|split].
    + intros i Hi. unfold head. rewrite (block_get _ _ _ _ _ 0 0 _ _ G) by lia. now rewrite (proj2 (Nat.ltb_lt _ _) Hi).
    + intros i j Hi Hj. unfold topLeft. rewrite (block_get _ _ _ _ _ 0 0 _ _ H) by lia.
      now rewrite (proj2 (Nat.ltb_lt _ _) Hi), (proj2 (Nat.ltb_lt _ _) Hj).
    + intros w i j. now apply view_get.
Qed.

(** memory: at any time the live buffers are exactly the two of each object, nothing is shared
    and nothing leaks *)
Theorem C60_memory : forall junk p s, run junk st0 p = Some s ->
  (forall b, h_buf (s_h s) b <> None <-> exists v q k, s_v s v = Some q /\ ptr q k = b) /\
  (forall v v' k k' q q', s_v s v = Some q -> s_v s v' = Some q' -> ptr q k = ptr q' k' -> v = v' /\ k = k') /\
  (forall v q, s_v s v = Some q -> forall w, v_ptr (q_ref q w) = ptr q (in_grad w)).
Proof.
  intros junk p s E. pose proof (sim_run junk p st0 a0 inv0) as S. rewrite E in S.
  destruct (arun a0 p) as [a|]; [|contradiction]. pose proof S as (I1 & I2 & I3 & I4). split; [|split; [exact I2|]].
  - intros b. split; [apply I4|]. intros (v & q & k & Ev & <-). destruct (inv_val s a v q S Ev) as (x & _ & A).
    apply (agrees_live _ _ _ k I3 A).
  - intros v q Ev w. destruct (inv_val s a v q S Ev) as (x & _ & (_ & _ & _ & _ & _ & _ & V)). now rewrite V.
Qed.

(** the views of the gradient cover it once, those of the Hessian cover its block upper triangle
    once and nothing else *)
Definition inside (x : aval) (w : which) (i j : nat) : Prop :=
  (row0 x w <= i < row0 x w + nrow x w)%nat /\ (col0 x w <= j < col0 x w + ncol x w)%nat.
Theorem C60_tiling : forall x,
  (forall i, (i < a_ndx x + a_nu x)%nat -> exists! w, in_grad w = true /\ inside x w i 0) /\
  (forall i j, (i < a_n x)%nat -> (j < a_n x)%nat ->
     let lower := ((a_ndx x <= i)%nat /\ (j < a_ndx x)%nat) \/ ((a_ndx x + a_nu x <= i)%nat /\ (j < a_ndx x + a_nu x)%nat) in
     (~ lower -> exists! w, in_grad w = false /\ inside x w i j) /\
     (lower -> forall w, in_grad w = false -> ~ inside x w i j)).
Proof.
  intros x. unfold inside, a_n. split.
  - intros i Hi. destruct (Nat.lt_ge_cases i (a_ndx x)).
    + exists Qx. split; [cbn; repeat split; lia|]. intros w [A B]. destruct w; try discriminate; cbn in B; [reflexivity|lia].
    + exists Qu. split; [cbn; repeat split; lia|]. intros w [A B]. destruct w; try discriminate; cbn in B; [lia|reflexivity].
  - intros i j Hi Hj. split.
    + intros NL.
      destruct (Nat.lt_ge_cases i (a_ndx x)); [|destruct (Nat.lt_ge_cases i (a_ndx x + a_nu x))];
        (destruct (Nat.lt_ge_cases j (a_ndx x)); [|destruct (Nat.lt_ge_cases j (a_ndx x + a_nu x))]); try (exfalso; lia);
        [exists Qxx|exists Qxu|exists Qxy|exists Quu|exists Quy|exists Qyy];
        (split; [cbn; repeat split; lia|intros w [A B]; destruct w; try discriminate; cbn in B; solve [reflexivity|lia]]).
    + intros L w Hw [A B]. destruct w; try discriminate; cbn in A, B; lia.
Qed.

(** the receding-horizon rotation of the stage models moves every value one place to the left *)
Lemma arun_app p r a : arun a (p ++ r) = match arun a p with Some b => arun b r | None => None end.
Proof. revert a. induction p as [|o p IH]; intros a; [reflexivity|]. cbn. now destruct (astep a o). Qed.

Lemma rotate_values n : forall first a (f : nat -> aval), (forall k, (k <= n)%nat -> a (first + k)%nat = Some (f k)) ->
  exists a', arun a (rotate first (S n)) = Some a' /\
    (forall k, (k < n)%nat -> a' (first + k)%nat = Some (f (S k))) /\ a' (first + n)%nat = Some (f 0%nat) /\
    forall u, (u < first \/ first + n < u)%nat -> a' u = a u.
Proof.
  induction n as [|n IH]; intros first a f H.
  - exists a. cbn. split; [reflexivity|]. split; [lia|]. split; [apply H; lia|auto].
  - unfold rotate. cbn [Nat.sub seq map arun astep]. unfold aexch.
    pose proof (H 0%nat ltac:(lia)) as H0. rewrite Nat.add_0_r in H0. pose proof (H 1%nat ltac:(lia)) as H1. rewrite Nat.add_1_r in H1.
    rewrite H0, H1.
    set (a1 := aset (aset a first (Some (f 1%nat))) (S first) (Some (f 0%nat))).
    destruct (IH (S first) a1 (fun k => match k with 0%nat => f 0%nat | S k => f (S (S k)) end)) as (a' & R & R1 & R2 & R3).
    { intros k Hk. unfold a1, aset. destruct k as [|k].
      - rewrite Nat.add_0_r, Nat.eqb_refl. reflexivity.
      - rewrite (proj2 (Nat.eqb_neq (S first + S k) (S first))), (proj2 (Nat.eqb_neq (S first + S k) first)) by lia.
        rewrite <- (H (S (S k))) by lia. f_equal. lia. }
    exists a'. split.
    { rewrite <- R. unfold rotate. cbn [Nat.sub]. now rewrite ?Nat.sub_0_r. }
    split; [|split].
    + intros k Hk. destruct k as [|k].
      * rewrite Nat.add_0_r. rewrite R3 by lia. unfold a1, aset.
        rewrite (proj2 (Nat.eqb_neq first (S first))) by lia. now rewrite Nat.eqb_refl.
      * replace (first + S k)%nat with (S first + k)%nat by lia. rewrite R1 by lia. reflexivity.
    + replace (first + S n)%nat with (S first + n)%nat by lia. exact R2.
    + intros u Hu. rewrite R3 by lia. unfold a1, aset.
      rewrite (proj2 (Nat.eqb_neq u (S first))), (proj2 (Nat.eqb_neq u first)) by lia. reflexivity.
Qed.

Definition same_value (h : heap) (q : qfun) (h' : heap) (q' : qfun) : Prop :=
  q_ndx q' = q_ndx q /\ q_nu q' = q_nu q /\ q_ndy q' = q_ndy q /\ q_q q' = q_q q /\
  forall w i j, vget h' (q_ref q' w) i j = vget h (q_ref q w) i j.
Lemma agrees_same h q h' q' x : agrees h q x -> agrees h' q' x -> same_value h q h' q'.
Proof.
  intros A A'. pose proof A as (B1 & B2 & B3 & B4 & _). pose proof A' as (C1 & C2 & C3 & C4 & _).
  do 4 (split; [congruence|]). intros w i j. now rewrite (view_get h' q' x), (view_get h q x).
Qed.

Theorem C60_rotate : forall junk p s first n, run junk st0 p = Some s -> (0 < n)%nat ->
  (forall k, (k < n)%nat -> s_v s (first + k)%nat <> None) ->
  exists s', run junk s (rotate first n) = Some s' /\
  (forall k, (k < n)%nat -> exists q q', s_v s (first + (if Nat.eqb (S k) n then 0 else S k))%nat = Some q /\
     s_v s' (first + k)%nat = Some q' /\ same_value (s_h s) q (s_h s') q') /\
  forall u q, (u < first \/ first + n <= u)%nat -> s_v s u = Some q ->
    exists q', s_v s' u = Some q' /\ same_value (s_h s) q (s_h s') q'.
Proof.
  intros junk p s first n E Hn HL. destruct n as [|n]; [lia|].
  pose proof (sim_run junk p st0 a0 inv0) as S0. rewrite E in S0. destruct (arun a0 p) as [a|]; [|contradiction].
  assert (HA : exists f : nat -> aval, forall k, (k <= n)%nat -> a (first + k)%nat = Some (f k)).
  { exists (fun k => match a (first + k)%nat with Some x => x | None => azero 0 0 0 end). intros k Hk.
    specialize (HL k ltac:(lia)). destruct (s_v s (first + k)%nat) as [q|] eqn:Eq; [|congruence].
    destruct (inv_val _ _ _ _ S0 Eq) as (x & -> & _). reflexivity. }
  destruct HA as (f & HA). destruct (rotate_values n first a f HA) as (a' & R & R1 & R2 & R3).
  pose proof (sim_run junk (rotate first (S n)) s a S0) as S1. rewrite R in S1.
  destruct (run junk s (rotate first (S n))) as [s'|]; [|contradiction]. exists s'. split; [reflexivity|].
  assert (V : forall v v' x, a v = Some x -> a' v' = Some x -> exists q q', s_v s v = Some q /\ s_v s' v' = Some q' /\ same_value (s_h s) q (s_h s') q').
  { intros v v' x A A'. destruct S0 as (I & _). destruct S1 as (I' & _). specialize (I v). specialize (I' v'). rewrite A in I. rewrite A' in I'.
    destruct (s_v s v) as [q|]; [|contradiction]. destruct (s_v s' v') as [q'|]; [|contradiction].
    exists q, q'. split; [reflexivity|]. split; [reflexivity|]. eapply agrees_same; eassumption. }
  split.
  - intros k Hk. destruct (Nat.eqb_spec (S k) (S n)) as [Ek|Nk].
    + injection Ek as ->. apply (V _ _ (f 0%nat)); [apply HA; lia|exact R2].
    + apply (V _ _ (f (S k))); [apply HA; lia|apply R1; lia].
  - intros u q Hu Eq. destruct (inv_val _ _ _ _ S0 Eq) as (x & Ax & _).
    destruct (V u u x Ax) as (q1 & q' & E1 & E2 & Sv); [rewrite R3 by lia; exact Ax|]. rewrite Eq in E1. injection E1 as <-.
    exists q'. auto.
Qed.

(** ** CostDataAbstractTpl *)
Definition c_in_grad (w : cwhich) : bool := match w with Lx | Lu => true | _ => false end.
Definition c_row (ndx : nat) (w : cwhich) : nat := match w with Lx | Lxx | Lxu => 0%nat | _ => ndx end.
Definition c_col (ndx : nat) (w : cwhich) : nat := match w with Lxu | Luu => ndx | _ => 0%nat end.
Definition c_rows (ndx nu : nat) (w : cwhich) : nat := match w with Lx | Lxx | Lxu => ndx | _ => nu end.
Definition c_cols (ndx nu : nat) (w : cwhich) : nat := match w with Lx | Lu => 1 | Lxx | Lux => ndx | _ => nu end%nat.
Definition c_mat (d : cdata) (k : bool) : mat := if k then c_grad d else c_hess d.

(** the data holds the gradient g and the Hessian H, and its views are blocks of its own matrices *)
Definition cholds (h : heap) (d : cdata) (ndx nu : nat) (g : nat -> R) (H : nat -> nat -> R) : Prop :=
  c_ndx d = ndx /\ c_nu d = nu /\ m_ptr (c_grad d) <> m_ptr (c_hess d) /\
  holds h (c_grad d) (ndx + nu) 1 (fun i _ => g i) /\ holds h (c_hess d) (ndx + nu) (ndx + nu) H /\
  forall w, c_ref d w = block (c_mat d (c_in_grad w)) (c_row ndx w) (c_col ndx w) (c_rows ndx nu w) (c_cols ndx nu w).

Lemma c_make_spec junk h ndx nu : fresh h ->
  exists h' d, c_make junk h ndx nu = Some (h', d) /\ cholds h' d ndx nu (fun _ => 0) (fun _ _ => 0) /\ fresh h' /\
    (forall k, (h_next h <= m_ptr (c_mat d k))%nat) /\ (h_next h <= h_next h')%nat /\
    (forall p, (p < h_next h)%nat -> h_buf h' p = h_buf h p) /\ c_value d = 0.
Proof.
  intros Hf. unfold c_make, mat_make, alloc, mat_zero. cbn [m_ptr h_next h_buf set_buf].
  assert (X1 : Nat.eqb (h_next h) (S (h_next h)) = false) by (apply Nat.eqb_neq; lia).
  assert (X2 : Nat.eqb (S (h_next h)) (h_next h) = false) by (apply Nat.eqb_neq; lia).
  repeat (rewrite ?Nat.eqb_refl, ?X1, ?X2; cbn [h_buf h_next set_buf m_ptr]).
  eexists. eexists. split; [reflexivity|]. split; [|split; [|split; [|split; [|split; [|reflexivity]]]]].
  - unfold cholds. cbn [c_ndx c_nu c_grad c_hess c_ref m_ptr]. do 2 (split; [reflexivity|]). split; [lia|]. split; [|split].
    + split; [reflexivity|]. split; [reflexivity|]. cbn [m_ptr h_buf set_buf]. rewrite ?Nat.eqb_refl, ?X1, ?X2.
      eexists. split; [reflexivity|]. reflexivity.
    + split; [reflexivity|]. split; [reflexivity|]. cbn [m_ptr h_buf set_buf]. rewrite ?Nat.eqb_refl, ?X1, ?X2.
      eexists. split; [reflexivity|]. reflexivity.
    + intros w. destruct w; unfold c_mat; cbn [c_grad c_hess c_in_grad c_row c_col c_rows c_cols];
        unfold head, tail, topLeft, topRight, bottomLeft, bottomRight; cbn [m_rows m_cols]; try reflexivity; f_equal; lia.
  - intros p Hp. cbn [h_next h_buf set_buf] in *.
    repeat match goal with |- context [Nat.eqb ?a ?b] => destruct (Nat.eqb_spec a b); [lia|] end. apply Hf. lia.
  - intros [|]; cbn; lia.
  - cbn. lia.
  - intros p Hp. cbn [h_buf set_buf].
    repeat match goal with |- context [Nat.eqb ?a ?b] => destruct (Nat.eqb_spec a b); [lia|] end. reflexivity.
Qed.

(** after construction, each view is its block, and the six views cover both matrices once *)
Theorem C60_cost_make : forall junk h ndx nu, fresh h ->
  exists h' d, c_make junk h ndx nu = Some (h', d) /\ cholds h' d ndx nu (fun _ => 0) (fun _ _ => 0) /\
  (forall i, (i < ndx + nu)%nat -> exists! w, c_in_grad w = true /\ (c_row ndx w <= i < c_row ndx w + c_rows ndx nu w)%nat) /\
  (forall i j, (i < ndx + nu)%nat -> (j < ndx + nu)%nat -> exists! w, c_in_grad w = false /\
     (c_row ndx w <= i < c_row ndx w + c_rows ndx nu w)%nat /\ (c_col ndx w <= j < c_col ndx w + c_cols ndx nu w)%nat).
Proof.
  intros junk h ndx nu Hf. destruct (c_make_spec junk h ndx nu Hf) as (h' & d & E & C & _). exists h', d.
  split; [exact E|]. split; [exact C|]. split.
  - intros i Hi. destruct (Nat.lt_ge_cases i ndx); [exists Lx|exists Lu];
      (split; [cbn; repeat split; lia|intros w [A B]; destruct w; try discriminate; cbn in B; solve [reflexivity|lia]]).
  - intros i j Hi Hj. destruct (Nat.lt_ge_cases i ndx), (Nat.lt_ge_cases j ndx); [exists Lxx|exists Lxu|exists Lux|exists Luu];
      (split; [cbn; repeat split; lia|intros w [A B]; destruct w; try discriminate; cbn in B; solve [reflexivity|lia]]).
Qed.

(** assignment between data of the same sizes: the destination holds the values of the source, in
    its own storage, and the source is unchanged *)
Lemma ref_assign_same h m s r c F bi bj br bc : holds h m r c F -> holds h s r c F -> m_ptr m <> m_ptr s ->
  (bi + br <= r)%nat -> (bj + bc <= c)%nat ->
  exists h', ref_assign h (block m bi bj br bc) (block s bi bj br bc) = Some h' /\ holds h' m r c F /\ h_next h' = h_next h /\
    forall p, p <> m_ptr m -> h_buf h' p = h_buf h p.
Proof.
  intros Hm Hs N L1 L2. unfold ref_assign. cbn [block v_rows v_cols]. rewrite !Nat.eqb_refl. cbn [andb].
  assert (X : forall l h0, (forall ij, In ij l -> (fst ij < br)%nat /\ (snd ij < bc)%nat) -> holds h0 m r c F -> holds h0 s r c F ->
    exists h', fold_left (fun o ij => match o with
        | Some h => match vget h (block s bi bj br bc) (fst ij) (snd ij) with Some a => vput h (block m bi bj br bc) (fst ij) (snd ij) a | None => None end
        | None => None end) l (Some h0) = Some h' /\ holds h' m r c F /\ h_next h' = h_next h0 /\
      forall p, p <> m_ptr m -> h_buf h' p = h_buf h0 p).
  { induction l as [|[i j] l IH]; intros h0 Hl Hm0 Hs0.
    - exists h0. cbn. auto.
    - cbn [fold_left]. destruct (Hl (i, j) (or_introl eq_refl)) as [Hi Hj]. cbn [fst snd] in *.
      rewrite (block_get _ _ _ _ _ _ _ _ _ Hs0) by lia.
      rewrite (proj2 (Nat.ltb_lt i br)), (proj2 (Nat.ltb_lt j bc)) by auto. cbn [andb].
      destruct (block_put _ _ _ _ _ _ _ _ _ i j (F (bi + i) (bj + j))%nat Hm0 L1 L2 Hi Hj) as (h1 & -> & Hm1 & Nx & Fr).
      assert (Hm1' : holds h1 m r c F).
      { eapply holds_ext; [exact Hm1|]. intros k l0 _ _. cbv beta.
        destruct (Nat.eqb_spec k (bi + i)) as [->|]; [|reflexivity]. destruct (Nat.eqb_spec l0 (bj + j)) as [->|]; reflexivity. }
      destruct (IH h1 (fun ij H => Hl ij (or_intror H)) Hm1') as (h' & E & H' & Nx' & Fr').
      { apply (holds_frame h0); [exact Hs0|]. apply Fr. auto. }
      exists h'. split; [exact E|]. split; [exact H'|]. split; [congruence|]. intros p Hp. rewrite Fr', Fr by auto. reflexivity. }
  apply X; auto. intros [i j] H. apply in_prod_iff in H. rewrite !in_seq in H. cbn. lia.
Qed.

Theorem C60_cost_assign : forall junk h d s ndx nu g H g0 H0, fresh h ->
  cholds h d ndx nu g0 H0 -> cholds h s ndx nu g H ->
  (forall k k', m_ptr (c_mat d k) <> m_ptr (c_mat s k')) ->
  exists h' d', c_assign junk h d s = Some (h', d') /\ cholds h' d' ndx nu g H /\ c_value d' = c_value s /\
    cholds h' s ndx nu g H /\ c_grad d' = c_grad d /\ c_hess d' = c_hess d.
Proof.
  intros junk h d s ndx nu g H g0 H0 Hf (D1 & D2 & Dn & Dg & Dh & Dr) (S1 & S2 & Sn & Sg & Sh & Sr) Sep.
  pose proof (Sep true true) as P1. pose proof (Sep true false) as P2. pose proof (Sep false true) as P3. pose proof (Sep false false) as P4.
  cbn [c_mat] in P1, P2, P3, P4. unfold c_assign.
  assert (AE : forall h m s' r c F F0, fresh h -> holds h m r c F0 -> holds h s' r c F ->
    exists h', mat_assign junk h m s' = Some (h', m) /\ holds h' m r c F /\ fresh h' /\ forall p, p <> m_ptr m -> h_buf h' p = h_buf h p).
  { clear. intros h m s r c F F0 Hf Hm Hs. destruct (assign_spec junk h m s r c F r c F0 Hf Hm Hs) as (h' & m' & E & H' & F' & _ & Fr).
    assert (m' = m).
    { unfold mat_assign, mat_resize in E. destruct Hm as (M1 & M2 & dm & Bm & _). destruct Hs as (M1' & M2' & ds & Bs & _).
      rewrite M1, M2, M1', M2', Nat.eqb_refl in E. cbn [m_ptr] in E. rewrite Bs, Bm in E. injection E as _ <-.
      destruct m; cbn in *; congruence. }
    subst m'. exists h'. split; [exact E|]. split; [exact H'|]. split; [exact F'|]. intros p Hp. now apply Fr. }
  destruct (AE h (c_grad d) (c_grad s) _ _ _ _ Hf Dg Sg) as (h1 & -> & G1 & F1 & Fr1).
  destruct (AE h1 (c_hess d) (c_hess s) (ndx + nu)%nat (ndx + nu)%nat H H0 F1) as (h2 & -> & H2 & F2 & Fr2).
  { apply (holds_frame h); [exact Dh|]. apply Fr1. auto. }
  { apply (holds_frame h); [exact Sh|]. apply Fr1. auto. }
  assert (G2 : holds h2 (c_grad d) (ndx + nu) 1 (fun i _ => g i)) by (apply (holds_frame h1); [exact G1|apply Fr2; auto]).
  assert (Sg2 : holds h2 (c_grad s) (ndx + nu) 1 (fun i _ => g i)) by (apply (holds_frame h); [exact Sg|rewrite Fr2, Fr1; auto]).
  assert (Sh2 : holds h2 (c_hess s) (ndx + nu) (ndx + nu) H) by (apply (holds_frame h); [exact Sh|rewrite Fr2, Fr1; auto]).
  (* one view *)
  assert (ST : forall w h, holds h (c_grad d) (ndx + nu) 1 (fun i _ => g i) -> holds h (c_hess d) (ndx + nu) (ndx + nu) H ->
    holds h (c_grad s) (ndx + nu) 1 (fun i _ => g i) -> holds h (c_hess s) (ndx + nu) (ndx + nu) H ->
    exists h', ref_assign h (c_ref d w) (c_ref s w) = Some h' /\
      holds h' (c_grad d) (ndx + nu) 1 (fun i _ => g i) /\ holds h' (c_hess d) (ndx + nu) (ndx + nu) H /\
      holds h' (c_grad s) (ndx + nu) 1 (fun i _ => g i) /\ holds h' (c_hess s) (ndx + nu) (ndx + nu) H).
  { clear - Dr Sr Dn P1 P2 P3 P4. intros w h A1 A2 A3 A4. rewrite Dr, Sr. destruct (c_in_grad w) eqn:W; cbn [c_mat].
    - destruct (ref_assign_same h (c_grad d) (c_grad s) _ _ _ (c_row ndx w) (c_col ndx w) (c_rows ndx nu w) (c_cols ndx nu w) A1 A3 P1)
        as (h' & -> & B1 & _ & Fr); [destruct w; cbn; try discriminate; lia|destruct w; cbn; try discriminate; lia|].
      exists h'. split; [reflexivity|]. split; [exact B1|]. repeat split; try (eapply holds_frame; [eassumption|apply Fr; auto]).
      all: first [apply (holds_frame h); [eassumption|apply Fr; auto]].
    - destruct (ref_assign_same h (c_hess d) (c_hess s) _ _ _ (c_row ndx w) (c_col ndx w) (c_rows ndx nu w) (c_cols ndx nu w) A2 A4 P4)
        as (h' & -> & B1 & _ & Fr); [destruct w; cbn; try discriminate; lia|destruct w; cbn; try discriminate; lia|].
      exists h'. split; [reflexivity|]. split; [apply (holds_frame h); [eassumption|apply Fr; auto]|]. split; [exact B1|].
      split; apply (holds_frame h); try eassumption; apply Fr; auto. }
  destruct (ST Lx h2 G2 H2 Sg2 Sh2) as (k1 & E1 & U1 & U2 & U3 & U4).
  destruct (ST Lu k1 U1 U2 U3 U4) as (k2 & E2 & V1 & V2 & V3 & V4).
  destruct (ST Lxx k2 V1 V2 V3 V4) as (k3 & E3 & W1 & W2 & W3 & W4).
  destruct (ST Lxu k3 W1 W2 W3 W4) as (k4 & E4 & X1 & X2 & X3 & X4).
  destruct (ST Lux k4 X1 X2 X3 X4) as (k5 & E5 & Y1 & Y2 & Y3 & Y4).
  destruct (ST Luu k5 Y1 Y2 Y3 Y4) as (k6 & E6 & Z1 & Z2 & Z3 & Z4).
  cbn [fold_left]. rewrite E1, E2, E3, E4, E5, E6.
  eexists. eexists. split; [reflexivity|]. split; [|split; [reflexivity|split; [|split; reflexivity]]].
  - unfold cholds. cbn [c_ndx c_nu c_grad c_hess c_ref]. repeat (split; [assumption|]). intros w. rewrite Dr. destruct w; reflexivity.
  - unfold cholds. repeat (split; [assumption|]). exact Sr.
Qed.

(** assignment between data of different sizes is never valid *)
Theorem C60_cost_assign_sizes : forall junk h d s ndx nu ndx' nu' g H g' H', fresh h ->
  cholds h d ndx nu g H -> cholds h s ndx' nu' g' H' -> (ndx <> ndx' \/ nu <> nu') -> c_assign junk h d s = None.
Proof.
  intros junk h d s ndx nu ndx' nu' g H g' H' Hf (_ & _ & _ & _ & _ & Dr) (_ & _ & _ & _ & _ & Sr) N. unfold c_assign.
  destruct (mat_assign junk h _ _) as [[h1 g1]|]; [|reflexivity]. destruct (mat_assign junk h1 _ _) as [[h2 H2]|]; [|reflexivity].
  cbn [fold_left].
  assert (E : match ref_assign h2 (c_ref d Lx) (c_ref s Lx) with Some h => ref_assign h (c_ref d Lu) (c_ref s Lu) | None => None end = None).
  { destruct (Nat.eq_dec ndx ndx') as [->|N1].
    - assert (N2 : nu <> nu') by (destruct N; congruence). destruct (ref_assign h2 _ _) as [h3|]; [|reflexivity].
      unfold ref_assign. rewrite (Dr Lu), (Sr Lu). cbn [block v_rows c_rows]. now rewrite (proj2 (Nat.eqb_neq _ _) N2).
    - replace (ref_assign h2 (c_ref d Lx) (c_ref s Lx)) with (@None heap); [reflexivity|]. symmetry.
      unfold ref_assign. rewrite (Dr Lx), (Sr Lx). cbn [block v_rows c_rows]. now rewrite (proj2 (Nat.eqb_neq _ _) N1). }
  rewrite E. reflexivity.
Qed.

(** the copy constructor generated by the compiler: the views of the copy are those of the original,
    so a write through them changes the original and not the copy, and after the original is gone
    they show freed memory *)
Theorem C60_cost_copy : forall junk h d ndx nu g H, fresh h -> cholds h d ndx nu g H ->
  exists h' e, c_copy junk h d = Some (h', e) /\ c_ref e = c_ref d /\ fresh h' /\ cholds h' d ndx nu g H /\
  (c_ndx e = ndx /\ c_nu e = nu /\ c_value e = c_value d /\
   holds h' (c_grad e) (ndx + nu) 1 (fun i _ => g i) /\ holds h' (c_hess e) (ndx + nu) (ndx + nu) H) /\
  (forall k k', m_ptr (c_mat e k) <> m_ptr (c_mat d k')) /\
  (forall w i j a, (i < c_rows ndx nu w)%nat -> (j < c_cols ndx nu w)%nat -> exists h'',
     vput h' (c_ref e w) i j a = Some h'' /\ vget h'' (c_ref d w) i j = Some a /\
     forall k p, h_buf h'' (m_ptr (c_mat e k)) = h_buf h' (m_ptr (c_mat e k)) /\ (p <> m_ptr (c_mat d (c_in_grad w)) -> h_buf h'' p = h_buf h' p)) /\
  forall h'', c_destroy h' d = Some h'' -> forall w i j, vget h'' (c_ref e w) i j = None.
Proof.
  intros junk h d ndx nu g H Hf Cd. pose proof Cd as (D1 & D2 & Dn & Dg & Dh & Dr).
  pose proof (holds_live _ _ _ _ _ Hf Dg) as Lg. pose proof (holds_live _ _ _ _ _ Hf Dh) as Lh.
  pose proof Dg as (A1 & A2 & cg & Bg & Vg). pose proof Dh as (A3 & A4 & ch & Bh & Vh).
  unfold c_copy, mat_copy. rewrite Bg. unfold mat_make, alloc. cbn [m_ptr set_buf h_buf h_next].
  rewrite !(proj2 (Nat.eqb_neq (m_ptr (c_hess d)) (h_next h))) by lia. rewrite Bh.
  eexists. eexists. split; [reflexivity|]. split; [reflexivity|].
  set (h' := set_buf _ _ _).
  assert (FR : forall p, (p < h_next h)%nat -> h_buf h' p = h_buf h p).
  { intros p Hp. unfold h', set_buf. cbn [h_buf h_next].
    repeat match goal with |- context [Nat.eqb ?a ?b] => destruct (Nat.eqb_spec a b); [lia|] end. reflexivity. }
  assert (Cd' : cholds h' d ndx nu g H).
  { do 3 (split; [assumption|]). split; [apply (holds_frame h); [exact Dg|now apply FR]|]. split; [apply (holds_frame h); [exact Dh|now apply FR]|exact Dr]. }
  assert (SEP : forall k k', m_ptr (c_mat (CDat (c_ndx d) (c_nu d) (c_value d) (Mat (h_next h) (m_rows (c_grad d)) (m_cols (c_grad d)))
     (Mat (S (h_next h)) (m_rows (c_hess d)) (m_cols (c_hess d))) (c_ref d)) k) <> m_ptr (c_mat d k')) by (intros [|] [|]; cbn; lia).
  split; [|split; [exact Cd'|split; [|split; [exact SEP|split]]]].
  - intros p Hp. unfold h', set_buf in *. cbn [h_buf h_next] in *.
    repeat match goal with |- context [Nat.eqb ?a ?b] => destruct (Nat.eqb_spec a b); [lia|] end. apply Hf. lia.
  - cbn [c_ndx c_nu c_value]. split; [exact D1|]. split; [exact D2|]. split; [reflexivity|]. split.
    + cbn [c_grad]. split; [exact A1|]. split; [exact A2|]. unfold h', set_buf. cbn [h_buf h_next m_ptr].
      rewrite Nat.eqb_refl. rewrite !(proj2 (Nat.eqb_neq (h_next h) (S (h_next h)))) by lia. exists cg. auto.
    + cbn [c_hess]. split; [exact A3|]. split; [exact A4|]. unfold h', set_buf. cbn [h_buf h_next m_ptr].
      rewrite Nat.eqb_refl. exists ch. auto.
  - intros w i j a Hi Hj. pose proof Cd' as (_ & _ & _ & Dg' & Dh' & _). cbn [c_ref]. rewrite Dr.
    assert (Hm : holds h' (c_mat d (c_in_grad w)) (ndx + nu) (if c_in_grad w then 1 else ndx + nu)%nat (fun k l => if c_in_grad w then g k else H k l))
      by (destruct w; cbn; assumption).
    assert (I1 : (c_row ndx w + c_rows ndx nu w <= ndx + nu)%nat) by (destruct w; cbn; lia).
    assert (I2 : (c_col ndx w + c_cols ndx nu w <= (if c_in_grad w then 1 else ndx + nu))%nat) by (destruct w; cbn; lia).
    destruct (block_put _ _ _ _ _ _ _ _ _ i j a Hm I1 I2 Hi Hj) as (h'' & E & Hm' & _ & Fr).
    exists h''. split; [exact E|]. split.
    + rewrite (block_get _ _ _ _ _ _ _ _ _ Hm' I1 I2). rewrite (proj2 (Nat.ltb_lt _ _) Hi), (proj2 (Nat.ltb_lt _ _) Hj). cbn [andb].
      now rewrite !Nat.eqb_refl.
    + intros k p. split; [apply Fr; apply SEP|apply Fr].
  - intros h'' Ed w i j. cbn [c_ref]. rewrite Dr. unfold c_destroy, free in Ed.
    destruct (h_buf h' (m_ptr (c_grad d))) as [b|]; [|discriminate]. cbn [set_buf h_buf] in Ed.
    rewrite (proj2 (Nat.eqb_neq (m_ptr (c_hess d)) (m_ptr (c_grad d)))) in Ed by auto.
    destruct (h_buf h' (m_ptr (c_hess d))) as [b'|]; [|discriminate]. injection Ed as <-.
    unfold vget, block. cbn [v_rows v_cols v_ptr]. destruct (_ && _); [|reflexivity].
    destruct w; cbn [c_in_grad c_mat]; cbn [set_buf h_buf]; rewrite ?Nat.eqb_refl; try reflexivity.
    all: now rewrite (proj2 (Nat.eqb_neq (m_ptr (c_grad d)) (m_ptr (c_hess d)))) by auto.
Qed.

(** so a copy of cost data is not a value: *)
Theorem C60_cost_copy_refuted : ~ (forall junk h d h' e ndx nu g H, fresh h -> cholds h d ndx nu g H -> c_copy junk h d = Some (h', e) ->
  cholds h' e ndx nu g H).
Proof.
  intros X. destruct (c_make_spec (fun _ _ => 0) heap0 1 0 ltac:(intros p _; reflexivity)) as (h & d & _ & C & F & _).
  destruct (C60_cost_copy (fun _ _ => 0) h d 1 0 _ _ F C) as (h' & e & E & R & _ & _ & _ & S & _).
  pose proof (X _ _ _ _ _ _ _ _ _ F C E) as (_ & _ & _ & _ & _ & V). specialize (V Lx). rewrite R in V.
  destruct C as (_ & _ & _ & _ & _ & V'). rewrite V' in V. apply (S true true). cbn in V |- *. unfold block in V. congruence.
Qed.

(** ** Examples *)
(** two stages are filled, copied, moved and rotated, and a view of the copy is written *)
Definition ex_prog : list op :=
  [Make 0 2 1 0; Make 1 1 1 1; Write 0 Qxu 1 0 7; Write 1 Qu 0 0 3; CopyC 2 0; Write 2 Qxu 1 0 8; Assign 1 2; SetQ 1 5;
   Swap 0 1; MoveC 3 2; Write 3 Quu 0 0 4; Destroy 2].
Example C60_example : forall junk, exists s, run junk st0 ex_prog = Some s /\
  (exists q0 q1 q3, s_v s 0%nat = Some q0 /\ s_v s 1%nat = Some q1 /\ s_v s 2%nat = None /\ s_v s 3%nat = Some q3 /\
    q_q q0 = 5 /\ vget (s_h s) (q_ref q0 Qxu) 1 0 = Some 8 /\ vget (s_h s) (q_ref q1 Qxu) 1 0 = Some 7 /\
    vget (s_h s) (q_ref q3 Qxu) 1 0 = Some 8 /\ vget (s_h s) (q_ref q3 Quu) 0 0 = Some 4 /\ vget (s_h s) (q_ref q0 Quu) 0 0 = Some 0 /\
    vget (s_h s) (q_ref q0 Qyy) 0 0 = None).
Proof.
  intros junk. destruct (C60_values junk ex_prog) as [N V].
  assert (A : exists a, arun a0 ex_prog = Some a /\
    (exists x, a 0%nat = Some x /\ a_ndx x = 2%nat /\ a_nu x = 1%nat /\ a_ndy x = 0%nat /\ a_q x = 5 /\ entry x Qxu 1 0 = 8 /\ entry x Quu 0 0 = 0) /\
    (exists x, a 1%nat = Some x /\ a_ndx x = 2%nat /\ a_nu x = 1%nat /\ entry x Qxu 1 0 = 7) /\ a 2%nat = None /\
    (exists x, a 3%nat = Some x /\ a_ndx x = 2%nat /\ a_nu x = 1%nat /\ entry x Qxu 1 0 = 8 /\ entry x Quu 0 0 = 4)).
  { eexists. split; [reflexivity|]. repeat split; try (eexists; split; [reflexivity|]; repeat split). }
  destruct A as (a & A & (x0 & A0 & X1 & X2 & X3 & X4 & X5 & X6) & (x1 & A1 & Y1 & Y2 & Y3) & A2 & (x3 & A3 & Z1 & Z2 & Z3 & Z4)).
  destruct (run junk st0 ex_prog) as [s|]; [|rewrite (proj1 N eq_refl) in A; discriminate]. exists s. split; [reflexivity|].
  specialize (V s a eq_refl A). pose proof (V 0%nat) as V0. pose proof (V 1%nat) as V1. pose proof (V 2%nat) as V2. pose proof (V 3%nat) as V3.
  rewrite A0 in V0. rewrite A1 in V1. rewrite A2 in V2. rewrite A3 in V3.
  destruct (s_v s 0%nat) as [q0|]; [|contradiction]. destruct (s_v s 1%nat) as [q1|]; [|contradiction].
  destruct (s_v s 2%nat) as [q2|]; [contradiction|]. destruct (s_v s 3%nat) as [q3|]; [|contradiction].
  destruct V0 as (_ & _ & _ & Q0 & _ & _ & W0). destruct V1 as (_ & _ & _ & _ & _ & _ & W1). destruct V3 as (_ & _ & _ & _ & _ & _ & W3).
  exists q0, q1, q3. do 4 (split; [reflexivity|]). split; [congruence|]. rewrite !W0, W1, !W3. cbn [nrow ncol].
  rewrite X1, X2, X3, Y1, Y2, Z1, Z2, X5, X6, Y3, Z3, Z4. repeat split; reflexivity.
Qed.
Example C60_cost_example : exists h d e h' e', fresh h /\
  cholds h d 2 1 (fun _ => 0) (fun _ _ => 0) /\ cholds h e 2 1 (fun _ => 0) (fun _ _ => 0) /\
  c_assign (fun _ _ => 9) h d e = Some (h', e').
Proof.
  destruct (c_make_spec (fun _ _ => 9) heap0 2 1 ltac:(intros p _; reflexivity)) as (h1 & d & _ & C1 & F1 & _ & _ & _ & _).
  destruct (c_make_spec (fun _ _ => 9) h1 2 1 F1) as (h2 & e & _ & C2 & F2 & P & _ & Fr & _).
  pose proof C1 as (B1 & B2 & B3 & B4 & B5 & B6).
  pose proof (holds_live _ _ _ _ _ F1 B4) as L1. pose proof (holds_live _ _ _ _ _ F1 B5) as L2.
  assert (C1' : cholds h2 d 2 1 (fun _ => 0) (fun _ _ => 0)).
  { do 3 (split; [assumption|]). split; [apply (holds_frame h1); auto|]. split; [apply (holds_frame h1); auto|exact B6]. }
  destruct (C60_cost_assign (fun _ _ => 9) h2 d e 2 1 _ _ _ _ F2 C1' C2) as (h3 & d' & E & _).
  { intros k k'. specialize (P k'). destruct k; cbn [c_mat] in *; lia. }
  exists h2, d, e, h3, d'. auto.
Qed.
