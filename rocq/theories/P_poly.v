(** C64: xyz::polymorphic has value semantics, frees everything once and leaks nothing. *)
From Coq Require Import List Arith Bool Lia Permutation.
From Verif Require Import PolyModel.
Import ListNotations.

Section Spec.
Context {ty pay : Type}.
Variable tr : @traits ty pay.
Local Notation heap := (@heap ty pay).
Local Notation poly := (@poly).

(** ** Values *)
(** What a polymorphic holds: nothing, or an object of some dynamic type with its payload and
    its members, each with its allocator. *)
Inductive val := Null | Node (t : ty) (p : pay) (ks : list (nat * val)).
Fixpoint val_ind' (P : val -> Prop) (HN : P Null)
  (HK : forall t p ks, Forall (fun x => P (snd x)) ks -> P (Node t p ks)) (v : val) : P v :=
  match v with
  | Null => HN
  | Node t p ks => HK t p ks ((fix go l : Forall (fun x => P (snd x)) l :=
      match l with [] => Forall_nil _ | x :: r => Forall_cons x (val_ind' P HN HK (snd x)) (go r) end) ks)
  end.
Definition slots := list (nat * val).

(** copy: same types, payloads and structure; the allocators of the members are selected *)
Fixpoint cpv (v : val) : val :=
  match v with
  | Null => Null
  | Node t p ks => Node t p (map (fun x => (socc tr (fst x), cpv (snd x))) ks)
  end.
Definition cps (ks : slots) : slots := map (fun x => (socc tr (fst x), cpv (snd x))) ks.
Definition nulls (ks : slots) : slots := map (fun x => (fst x, Null)) ks.

(** the polymorphic at a path, and its replacement *)
Fixpoint look (pi : list nat) (V : slots) : option (nat * val) :=
  match pi with
  | [] => None
  | k :: r =>
      match nth_error V k with
      | None => None
      | Some (a, v) =>
          match r with
          | [] => Some (a, v)
          | _ => match v with Null => None | Node _ _ ks => look r ks end
          end
      end
  end.
Fixpoint upd (pi : list nat) (x : nat * val) (V : slots) : slots :=
  match pi with
  | [] => V
  | k :: r =>
      match nth_error V k with
      | None => V
      | Some (a, v) =>
          match r with
          | [] => setl V k x
          | _ => match v with Null => V | Node t p ks => setl V k (a, Node t p (upd r x ks)) end
          end
      end
  end.
Fixpoint eqp (p q : list nat) : bool :=
  match p, q with
  | [], [] => true
  | a :: p', b :: q' => (a =? b) && eqp p' q'
  | _, _ => false
  end.
(** [q] starts with [p] *)
Fixpoint prefix (p q : list nat) : bool :=
  match p, q with
  | [], _ => true
  | a :: p', b :: q' => (a =? b) && prefix p' q'
  | _, [] => false
  end.
Definition apart (p q : list nat) : bool := negb (prefix p q) && negb (prefix q p).

(** ** Specification of the operations on values *)
Fixpoint looks (l : list (list nat)) (V : slots) : option slots :=
  match l with
  | [] => Some []
  | pi :: t => match look pi V, looks t V with Some x, Some xs => Some (x :: xs) | _, _ => None end
  end.
(** None: not covered *)
Definition sstep (o : op) (V : slots) : option slots :=
  match o with
  | New il a t p args =>
      match il, looks args V with
      | None, Some ks => Some (V ++ [(a, Node t p (cps ks))])
      | _, _ => None
      end
  | CopyCtor oa s =>
      match look s V with
      | Some (a, v) => Some (V ++ [(match oa with Some b => b | None => socc tr a end, cpv v)])
      | None => None
      end
  | MoveCtor oa s =>
      match look s V with
      | Some (a, v) =>
          let b := match oa with Some b => b | None => a end in
          if b =? a then Some (upd s (a, Null) V ++ [(b, v)]) else
          if pocca tr then None else
          match v with
          | Null => Some (V ++ [(b, Null)])
          | Node t p ks => if movable tr t
                           then Some (upd s (a, Node t (moved tr p) (nulls ks)) V ++ [(b, v)])
                           else Some (V ++ [(b, cpv v)])
          end
      | None => None
      end
  | CopyAssign d s =>
      match look d V, look s V with
      | Some (a, _), Some (b, v) =>
          if eqp d s then Some V else
          if pocca tr && prefix d s then None else
          Some (upd d (if pocca tr then b else a, cpv v) V)
      | _, _ => None
      end
  | MoveAssign d s =>
      match look d V, look s V with
      | Some (a, _), Some (b, v) =>
          if eqp d s then Some V else
          if negb (apart d s) then None else
          match v with
          | Null => Some (upd d (if pocma tr then b else a, Null) V)
          | Node t p ks =>
              if a =? b then Some (upd d (a, v) (upd s (b, Null) V)) else
              if pocma tr then None else
              if movable tr t then Some (upd d (a, v) (upd s (b, Node t (moved tr p) (nulls ks)) V))
              else Some (upd d (a, cpv v) V)
          end
      | _, _ => None
      end
  | Swap s1 s2 =>
      match look s1 V, look s2 V with
      | Some (a, v), Some (b, w) =>
          if eqp s1 s2 then Some V else
          if negb (apart s1 s2) then None else
          if pocs tr then Some (upd s1 (b, w) (upd s2 (a, v) V)) else
          if a =? b then Some (upd s1 (a, w) (upd s2 (b, v) V)) else None
      | _, _ => None
      end
  | Poke s q =>
      match look s V with
      | Some (a, Node t p ks) => Some (upd s (a, Node t q ks) V)
      | _ => None
      end
  | Pop => match V with [] => None | _ => Some (removelast V) end
  end.

(** ** Memory that represents values *)
(** [c] points to [v], whose blocks are the cells [F] *)
Fixpoint repv (h : heap) (c : option nat) (a : nat) (v : val) (F : list nat) {struct v} : Prop :=
  match v with
  | Null => c = None /\ F = []
  | Node t p ks => exists n b F', c = Some n /\ F = n :: F' /\ get h n = Live b /\
      b_al b = a /\ b_ty b = t /\ b_pay b = p /\
      (fix reps (kids : list poly) (l : list (nat * val)) (G : list nat) {struct l} : Prop :=
         match l with
         | [] => kids = [] /\ G = []
         | x :: r => exists q kids' F1 F2, kids = q :: kids' /\ al q = fst x /\
             repv h (cb q) (fst x) (snd x) F1 /\ reps kids' r F2 /\ G = F1 ++ F2
         end) (b_kids b) ks F'
  end.
Fixpoint reps (h : heap) (kids : list poly) (l : slots) (G : list nat) {struct l} : Prop :=
  match l with
  | [] => kids = [] /\ G = []
  | x :: r => exists q kids' F1 F2, kids = q :: kids' /\ al q = fst x /\
      repv h (cb q) (fst x) (snd x) F1 /\ reps h kids' r F2 /\ G = F1 ++ F2
  end.
(** The variables hold [V]; every block has one owner and nothing else is allocated. *)
Definition good (h : heap) (V : slots) : Prop :=
  exists b F, get h 0 = Live b /\ reps h (b_kids b) V F /\ NoDup (0 :: F) /\
    forall n, get h n <> Freed -> n = 0 \/ In n F.

(** ** Lemmas on lists *)
Lemma setl_length {X} (l : list X) : forall n x, length (setl l n x) = length l.
Proof. induction l as [|y l IH]; intros [|n] x; simpl; auto. Qed.
Lemma nth_error_setl {X} (l : list X) : forall n x k, nth_error (setl l n x) k =
  if (k =? n) && (n <? length l) then Some x else nth_error l k.
Proof.
  induction l as [|y l IH]; intros [|n] x [|k]; simpl; auto.
  - now rewrite andb_false_r.
  - rewrite IH. reflexivity.
Qed.
Lemma setl_same {X} (l : list X) : forall n x, nth_error l n = Some x -> setl l n x = l.
Proof.
  induction l as [|y l IH]; intros [|n] x E; simpl in *; auto; try discriminate.
  - congruence.
  - now rewrite IH.
Qed.
Lemma setl_setl {X} (l : list X) : forall n x y, setl (setl l n x) n y = setl l n y.
Proof. induction l as [|z l IH]; intros [|n] x y; simpl; auto. now rewrite IH. Qed.
Lemma setl_comm {X} (l : list X) : forall n m x y, n <> m -> setl (setl l n x) m y = setl (setl l m y) n x.
Proof. induction l as [|z l IH]; intros [|n] [|m] x y H; simpl; auto; try congruence. rewrite IH; auto. Qed.
Lemma get_put (h : heap) n c q : get (put h n c) q = if (q =? n) && (n <? length h) then c else get h q.
Proof.
  unfold get, put. pose proof (nth_error_setl h n c q) as E.
  destruct ((q =? n) && (n <? length h)) eqn:B.
  - now rewrite (nth_error_nth _ _ Freed E).
  - destruct (nth_error h q) eqn:G.
    + rewrite (nth_error_nth _ _ Freed E). now rewrite (nth_error_nth _ _ Freed G).
    + rewrite !nth_overflow; auto.
      * now apply nth_error_None.
      * now apply nth_error_None.
Qed.
Lemma get_live_lt (h : heap) n : get h n <> Freed -> n < length h.
Proof. intros H. destruct (Nat.lt_ge_cases n (length h)); auto. unfold get in H. now rewrite nth_overflow in H. Qed.
Lemma get_put_same (h : heap) n c : get h n <> Freed -> get (put h n c) n = c.
Proof.
  intros H. apply get_live_lt in H. rewrite get_put, Nat.eqb_refl. simpl.
  apply Nat.ltb_lt in H. now rewrite H.
Qed.
Lemma get_put_other (h : heap) n c q : q <> n -> get (put h n c) q = get h q.
Proof. intros H. rewrite get_put. apply Nat.eqb_neq in H. now rewrite H. Qed.
Lemma put_length (h : heap) n c : length (put h n c) = length h.
Proof. apply setl_length. Qed.
Lemma get_app (h : heap) c q : get (h ++ [c]) q = if q =? length h then c else get h q.
Proof.
  unfold get. destruct (Nat.lt_trichotomy q (length h)) as [L|[-> |L]].
  - rewrite app_nth1 by auto. assert (E : q =? length h = false) by (apply Nat.eqb_neq; lia). now rewrite E.
  - now rewrite nth_middle, Nat.eqb_refl.
  - assert (E : q =? length h = false) by (apply Nat.eqb_neq; lia). rewrite E.
    rewrite !nth_overflow; auto; [lia|]. rewrite app_length. simpl. lia.
Qed.

Lemma nodup_app {X} (l1 : list X) : forall l2, NoDup (l1 ++ l2) <->
  NoDup l1 /\ NoDup l2 /\ (forall y, In y l1 -> ~ In y l2).
Proof.
  induction l1 as [|a l1 IH]; intros l2; simpl.
  - split; [intros N|tauto]. repeat split; auto using NoDup_nil.
  - rewrite !NoDup_cons_iff, IH, in_app_iff. split.
    + intros (A & B & C & D). repeat split; auto. intros y [<-|Y]; auto.
    + intros ((A & B) & C & D). repeat split; auto. intros [H|H]; auto. apply (D a); auto.
Qed.

(** ** Representation *)
Lemma repv_node h c a t p ks F : repv h c a (Node t p ks) F <->
  exists n b F', c = Some n /\ F = n :: F' /\ get h n = Live b /\
      b_al b = a /\ b_ty b = t /\ b_pay b = p /\ reps h (b_kids b) ks F'.
Proof.
  assert (E : forall l kids G,
    (fix reps (kids : list poly) (l : list (nat * val)) (G : list nat) {struct l} : Prop :=
         match l with
         | [] => kids = [] /\ G = []
         | x :: r => exists q kids' F1 F2, kids = q :: kids' /\ al q = fst x /\
             repv h (cb q) (fst x) (snd x) F1 /\ reps kids' r F2 /\ G = F1 ++ F2
         end) kids l G <-> reps h kids l G).
  { induction l as [|x r IH]; intros kids G; [reflexivity|]. simpl.
    split; intros (q & kids' & F1 & F2 & E1 & E2 & E3 & E4 & E5); exists q, kids', F1, F2;
      repeat (split; auto); now apply IH. }
  simpl. split; intros (n & b & F' & H1 & H2 & H3 & H4 & H5 & H6 & H7); exists n, b, F';
    repeat (split; auto); now apply E.
Qed.

Lemma rep_live v : forall h c a F, repv h c a v F -> Forall (fun q => get h q <> Freed) F.
Proof.
  induction v as [|t p ks IH] using val_ind'; intros h c a F R.
  - destruct R as [_ ->]. constructor.
  - apply repv_node in R. destruct R as (n & b & F' & -> & -> & Gn & _ & _ & _ & R).
    constructor; [now rewrite Gn|]. clear Gn. revert F' R. generalize (b_kids b).
    induction IH as [|x r H Hr IHr]; intros kids G R; simpl in R.
    + destruct R as [_ ->]. constructor.
    + destruct R as (q & kids' & F1 & F2 & -> & _ & R1 & R2 & ->). apply Forall_app. split; eauto.
Qed.
Lemma reps_live h ks : forall kids F, reps h kids ks F -> Forall (fun q => get h q <> Freed) F.
Proof.
  induction ks as [|x r IH]; intros kids F R; simpl in R.
  - destruct R as [_ ->]. constructor.
  - destruct R as (q & kids' & F1 & F2 & -> & _ & R1 & R2 & ->). apply Forall_app.
    split; [eapply rep_live|]; eauto.
Qed.
Lemma rep_frame v : forall h h' c a F, repv h c a v F -> (forall q, In q F -> get h' q = get h q) -> repv h' c a v F.
Proof.
  induction v as [|t p ks IH] using val_ind'; intros h h' c a F R A.
  - exact R.
  - apply repv_node in R. apply repv_node. destruct R as (n & b & F' & -> & -> & Gn & B1 & B2 & B3 & R).
    exists n, b, F'. rewrite A by (simpl; auto). repeat (split; auto).
    assert (A' : forall q, In q F' -> get h' q = get h q) by (intros; apply A; simpl; auto).
    clear - IH R A'. revert F' R A'. generalize (b_kids b).
    induction IH as [|x r H Hr IHr]; intros kids G R A; simpl in *; auto.
    destruct R as (q & kids' & F1 & F2 & -> & E & R1 & R2 & ->).
    exists q, kids', F1, F2. repeat (split; auto).
    + eapply H; eauto. intros; apply A, in_or_app; auto.
    + eapply IHr; eauto. intros; apply A, in_or_app; auto.
Qed.
Lemma reps_frame h h' ks : forall kids F, reps h kids ks F -> (forall q, In q F -> get h' q = get h q) -> reps h' kids ks F.
Proof.
  induction ks as [|x r IH]; intros kids F R A; simpl in *; auto.
  destruct R as (q & kids' & F1 & F2 & -> & E & R1 & R2 & ->).
  exists q, kids', F1, F2. repeat (split; auto).
  - eapply rep_frame; eauto. intros; apply A, in_or_app; auto.
  - eapply IH; eauto. intros; apply A, in_or_app; auto.
Qed.
Lemma reps_length h ks : forall kids F, reps h kids ks F -> length kids = length ks.
Proof.
  induction ks as [|x r IH]; intros kids F R; simpl in R.
  - destruct R as [-> _]. reflexivity.
  - destruct R as (q & kids' & F1 & F2 & -> & _ & _ & R2 & _). simpl. f_equal. eauto.
Qed.
Lemma reps_firstn h k : forall ks kids F, reps h kids ks F -> exists G, reps h (firstn k kids) (firstn k ks) G /\ incl G F.
Proof.
  induction k as [|k IH]; intros ks kids F R.
  - exists []. split; [now split|]. intros ? [].
  - destruct ks as [|x r]; simpl in R.
    + destruct R as [-> ->]. exists []. split; [now split|]. intros ? [].
    + destruct R as (q & kids' & F1 & F2 & -> & E & R1 & R2 & ->).
      destruct (IH r kids' F2 R2) as (G & RG & I). exists (F1 ++ G). split.
      * simpl. exists q, (firstn k kids'), F1, G. auto.
      * intros y Y. apply in_app_or in Y. apply in_or_app. destruct Y; auto.
Qed.
Lemma reps_app h k1 : forall l1 F1 k2 l2 F2, reps h k1 l1 F1 -> reps h k2 l2 F2 -> reps h (k1 ++ k2) (l1 ++ l2) (F1 ++ F2).
Proof.
  induction k1 as [|q k1 IH]; intros [|x l1] F1 k2 l2 F2 R1 R2; simpl in R1.
  - destruct R1 as [_ ->]. exact R2.
  - destruct R1 as (? & ? & ? & ? & ? & _). discriminate.
  - destruct R1 as [? _]. discriminate.
  - destruct R1 as (q' & kids' & G1 & G2 & E & Ea & R & R' & ->). injection E as <- <-.
    simpl. exists q, (k1 ++ k2), G1, (G2 ++ F2). repeat (split; auto). now rewrite app_assoc.
Qed.

Fixpoint height (v : val) : nat :=
  match v with Null => 0 | Node _ _ ks => S (fold_right Nat.max 0 (map (fun x => height (snd x)) ks)) end.
Definition heights (ks : slots) : nat := fold_right Nat.max 0 (map (fun x => height (snd x)) ks).
Lemma height_le v : forall h c a F, repv h c a v F -> height v <= length F.
Proof.
  induction v as [|t p ks IH] using val_ind'; intros h c a F R; simpl; [lia|].
  apply repv_node in R. destruct R as (n & b & F' & -> & -> & _ & _ & _ & _ & R). simpl. apply le_n_S.
  clear n. revert F' R. generalize (b_kids b).
  induction IH as [|x r H Hr IHr]; intros kids G R; simpl in *; [lia|].
  destruct R as (q & kids' & F1 & F2 & -> & E & R1 & R2 & ->). rewrite app_length.
  specialize (H _ _ _ _ R1). specialize (IHr _ _ R2). lia.
Qed.
Lemma heights_le h ks : forall kids F, reps h kids ks F -> heights ks <= length F.
Proof.
  induction ks as [|x r IH]; intros kids F R; unfold heights in *; simpl in *; [lia|].
  destruct R as (q & kids' & F1 & F2 & -> & E & R1 & R2 & ->). rewrite app_length.
  apply height_le in R1. specialize (IH _ _ R2). lia.
Qed.
Lemma fp_length (h : heap) F : NoDup F -> Forall (fun q => get h q <> Freed) F -> length F <= length h.
Proof.
  intros N L. rewrite <- (seq_length (length h) 0). apply NoDup_incl_length; auto.
  intros q I. rewrite Forall_forall in L. apply in_seq. specialize (L q I). apply get_live_lt in L. lia.
Qed.
Lemma height_cpv v : height (cpv v) = height v.
Proof.
  induction v as [|t p ks IH] using val_ind'; simpl; auto. f_equal. rewrite map_map. simpl.
  induction IH as [|x r H Hr IHr]; simpl; auto.
Qed.

(** ** Destruction *)
Lemma destroy_ok v : forall f a n h F, repv h (Some n) a v F -> NoDup F -> height v <= f ->
  exists h', destroy f a n h = Some h' /\ length h' = length h /\
    (forall q, In q F -> get h' q = Freed) /\ (forall q, ~ In q F -> get h' q = get h q).
Proof.
  induction v as [|t p ks IH] using val_ind'; intros f a n h F R N Hf.
  - destruct R as [R _]. discriminate.
  - apply repv_node in R. destruct R as (n' & b & F' & E & -> & Gn & B1 & B2 & B3 & R).
    injection E as <-. destruct f as [|f]; [simpl in Hf; lia|]. simpl destroy. rewrite Gn.
    apply NoDup_cons_iff in N. destruct N as [N0 N].
    set (h0 := put h n (Raw (b_al b))).
    assert (G0 : forall q, q <> n -> get h0 q = get h q) by (intros; now apply get_put_other).
    assert (Gn0 : get h0 n = Raw (b_al b)) by (apply get_put_same; now rewrite Gn).
    assert (R0 : reps h0 (b_kids b) ks F').
    { eapply reps_frame; eauto. intros q Q. apply G0. intros ->. contradiction. }
    assert (K : exists h1, dkids (destroy f) (b_kids b) h0 = Some h1 /\ length h1 = length h0 /\
      (forall q, In q F' -> get h1 q = Freed) /\ (forall q, ~ In q F' -> get h1 q = get h0 q)).
    { assert (Hk : heights ks <= f) by (unfold heights; simpl in Hf; lia).
      clear - IH R0 N Hk. revert F' R0 N Hk. generalize (b_kids b).
      induction IH as [|x r H Hr IHr]; intros kids G R N Hk; simpl in R.
      - destruct R as [-> ->]. exists h0. repeat (split; auto). intros ? [].
      - destruct R as (q & kids' & F1 & F2 & -> & E & R1 & R2 & ->).
        pose proof N as N'. apply nodup_app in N'. destruct N' as (N1 & N2 & Dj). unfold heights in Hk. simpl in Hk.
        destruct (IHr kids' F2 R2 N2) as (h1 & D1 & L1 & A1 & A2); [unfold heights; lia|].
        simpl. rewrite D1.
        assert (R1' : repv h1 (cb q) (fst x) (snd x) F1).
        { eapply rep_frame; eauto. }
        destruct (cb q) as [m|] eqn:Ec.
        + rewrite E. destruct (H f (fst x) m h1 F1 R1' N1) as (h2 & D2 & L2 & A3 & A4); [lia|].
          exists h2. rewrite D2. split; auto. split; [lia|]. split.
          * intros y Y. destruct (in_dec Nat.eq_dec y F1); auto. apply in_app_or in Y.
            destruct Y as [Y|Y]; [contradiction|]. rewrite A4 by auto. auto.
          * intros y Y. rewrite A4, A2; auto; intro; apply Y, in_or_app; auto.
        + assert (F1 = []).
          { destruct (snd x); simpl in R1'; [now destruct R1'|]. destruct R1' as (? & ? & ? & ? & _). discriminate. }
          subst F1. exists h1. repeat (split; auto). }
    destruct K as (h1 & D1 & L1 & A1 & A2). rewrite D1. unfold dealloc.
    rewrite (A2 n N0), Gn0, B1, Nat.eqb_refl. exists (put h1 n Freed). split; auto.
    split; [rewrite put_length, L1; unfold h0; apply put_length|]. split.
    + intros q [<-|Q].
      * rewrite get_put. destruct ((n =? n) && (n <? length h1)) eqn:B; auto.
        rewrite Nat.eqb_refl in B. simpl in B. apply Nat.ltb_ge in B. unfold get. now rewrite nth_overflow.
      * rewrite get_put_other; auto. intros ->. contradiction.
    + intros q Q. simpl in Q. rewrite get_put_other, A2, G0; auto.
Qed.
Lemma dkids_ok h0 ks : forall f kids F, reps h0 kids ks F -> NoDup F -> heights ks <= f ->
  exists h1, dkids (destroy f) kids h0 = Some h1 /\ length h1 = length h0 /\
      (forall q, In q F -> get h1 q = Freed) /\ (forall q, ~ In q F -> get h1 q = get h0 q).
Proof.
  induction ks as [|x r IHr]; intros f kids G R N Hk; simpl in R.
  - destruct R as [-> ->]. exists h0. repeat (split; auto). intros ? [].
  - destruct R as (q & kids' & F1 & F2 & -> & E & R1 & R2 & ->).
    pose proof N as N'. apply nodup_app in N'. destruct N' as (N1 & N2 & Dj). unfold heights in Hk. simpl in Hk.
    destruct (IHr f kids' F2 R2 N2) as (h1 & D1 & L1 & A1 & A2); [unfold heights; lia|].
    simpl. rewrite D1.
    assert (R1' : repv h1 (cb q) (fst x) (snd x) F1) by (eapply rep_frame; eauto).
    destruct (cb q) as [m|] eqn:Ec.
    + rewrite E. destruct (destroy_ok (snd x) f (fst x) m h1 F1 R1' N1) as (h2 & D2 & L2 & A3 & A4); [lia|].
      exists h2. rewrite D2. split; auto. split; [lia|]. split.
      * intros y Y. destruct (in_dec Nat.eq_dec y F1); auto. apply in_app_or in Y.
        destruct Y as [Y|Y]; [contradiction|]. rewrite A4 by auto. auto.
      * intros y Y. rewrite A4, A2; auto; intro; apply Y, in_or_app; auto.
    + assert (F1 = []).
      { destruct (snd x); simpl in R1'; [now destruct R1'|]. destruct R1' as (? & ? & ? & ? & _). discriminate. }
      subst F1. exists h1. repeat (split; auto).
Qed.

(** ** Copies *)
Definition ext (h h' : heap) : Prop := length h <= length h' /\ forall q, q < length h -> get h' q = get h q.
Lemma ext_refl h : ext h h.
Proof. split; auto. Qed.
Lemma ext_trans h1 h2 h3 : ext h1 h2 -> ext h2 h3 -> ext h1 h3.
Proof. intros [A B] [C D]. split; [lia|]. intros q Q. rewrite D, B; auto; lia. Qed.
Lemma rep_ext v h h' c a F : ext h h' -> repv h c a v F -> repv h' c a v F.
Proof.
  intros [_ E] R. eapply rep_frame; eauto. intros q Q. apply E. apply get_live_lt.
  pose proof (rep_live _ _ _ _ _ R) as L. rewrite Forall_forall in L. auto.
Qed.
Lemma reps_ext ks h h' kids F : ext h h' -> reps h kids ks F -> reps h' kids ks F.
Proof.
  intros [_ E] R. eapply reps_frame; eauto. intros q Q. apply E. apply get_live_lt.
  pose proof (reps_live _ _ _ _ R) as L. rewrite Forall_forall in L. auto.
Qed.
(** all that lives from [N] on is in [F] *)
Definition fresh (N : nat) (h : heap) (F : list nat) : Prop :=
  NoDup F /\ (forall q, In q F -> N <= q) /\ (forall q, N <= q -> get h q <> Freed -> In q F).
Definition cloned (h : heap) (a : nat) (v : val) (r : res nat) : Prop :=
  match r with
  | Ok m h' => ext h h' /\ exists F, repv h' (Some m) a v F /\ fresh (length h) h' F
  | Exn h' => ext h h' /\ fresh (length h) h' []
  | Stuck => False
  end.
Definition cloneds (h : heap) (ks : slots) (r : res (list poly)) : Prop :=
  match r with
  | Ok qs h' => ext h h' /\ exists F, reps h' qs ks F /\ fresh (length h) h' F
  | Exn h' => ext h h' /\ fresh (length h) h' []
  | Stuck => False
  end.
Lemma fresh_nil_freed N h q : fresh N h [] -> N <= q -> get h q = Freed.
Proof.
  intros (_ & _ & C) L. destruct (get h q) eqn:E; auto; exfalso; apply (C q L); congruence.
Qed.

Lemma copy_kids_ok cl fd ks :
  forall kids h F, reps h kids ks F -> heights ks <= fd ->
  (forall x n h' F' a, In x ks -> repv h' (Some n) (fst x) (snd x) F' -> cloned h' a (cpv (snd x)) (cl a n h')) ->
  cloneds h (cps ks) (copy_kids tr cl fd kids h).
Proof.
  induction ks as [|x r IH]; intros kids h F R Hf C; simpl in R.
  - destruct R as [-> ->]. simpl. split; [apply ext_refl|]. exists []. split; [now split|].
    split; [constructor|]. split; [intros ? []|]. intros q Q G. apply get_live_lt in G. lia.
  - destruct R as (q & kids' & F1 & F2 & -> & E & R1 & R2 & ->). unfold heights in Hf. simpl in Hf.
    simpl copy_kids. rewrite E.
    assert (K : match copy_ctor cl (socc tr (fst x)) q h with
      | Ok q' h1 => ext h h1 /\ al q' = socc tr (fst x) /\
           exists F, repv h1 (cb q') (socc tr (fst x)) (cpv (snd x)) F /\ fresh (length h) h1 F
      | Exn h1 => ext h h1 /\ fresh (length h) h1 []
      | Stuck => False
      end).
    { unfold copy_ctor. destruct (cb q) as [n|] eqn:Ec.
      - specialize (C x n h F1 (socc tr (fst x)) (or_introl eq_refl) R1).
        destruct (cl (socc tr (fst x)) n h) as [m h1|h1|]; simpl in C; auto.
        destruct C as (C1 & F & C2 & C3). split; auto. split; auto. exists F. auto.
      - split; [apply ext_refl|]. split; auto. exists []. split.
        + destruct (snd x); [now split|]. simpl in R1. destruct R1 as (? & ? & ? & ? & _). discriminate.
        + split; [constructor|]. split; [intros ? []|]. intros y Q G. apply get_live_lt in G. lia. }
    destruct (copy_ctor cl (socc tr (fst x)) q h) as [q' h1|h1|]; auto; cbv beta iota in K.
    destruct K as (X1 & Ea & G1 & RG1 & N1 & B1 & C1).
    assert (R2' : reps h1 kids' r F2) by (eapply reps_ext; eauto).
    specialize (IH kids' h1 F2 R2'). assert (Hr : heights r <= fd) by (unfold heights; lia).
    specialize (IH Hr (fun y n h' F' a I => C y n h' F' a (or_intror I))).
    destruct X1 as [X1 X2].
    destruct (copy_kids tr cl fd kids' h1) as [qs h2|h2|]; auto; simpl in IH.
    + destruct IH as (E2 & G2 & RG2 & N2 & B2 & C2). simpl.
      split; [eapply ext_trans; [split; eauto|eauto]|]. exists (G1 ++ G2). split.
      * exists q', qs, G1, G2. repeat (split; auto). eapply rep_ext; eauto.
      * assert (Lt : forall y, In y G1 -> y < length h1).
        { intros y Y. apply get_live_lt. pose proof (rep_live _ _ _ _ _ RG1) as L. rewrite Forall_forall in L. auto. }
        split; [apply nodup_app; repeat (split; auto)|].
        { intros y Y Z. specialize (Lt y Y). specialize (B2 y Z). lia. }
        split.
        { intros y Y. apply in_app_or in Y. destruct Y as [Y|Y]; auto. specialize (B2 y Y). lia. }
        { intros y Y G. apply in_or_app. destruct (Nat.lt_ge_cases y (length h1)) as [L|L]; auto.
          left. apply C1; auto. destruct E2 as [_ E2]. rewrite E2 in G; auto. }
    + destruct IH as (E2 & Fr).
      assert (RG1' : repv h2 (cb q') (socc tr (fst x)) (cpv (snd x)) G1) by (eapply rep_ext; eauto).
      assert (D : exists h3, drop fd q' h2 = Some h3 /\ length h3 = length h2 /\
         (forall y, In y G1 -> get h3 y = Freed) /\ (forall y, ~ In y G1 -> get h3 y = get h2 y)).
      { unfold drop. destruct (cb q') as [m|].
        - rewrite Ea. apply destroy_ok with (v := cpv (snd x)); auto. rewrite height_cpv. lia.
        - destruct (snd x); simpl in RG1'; [|destruct RG1' as (? & ? & ? & ? & _); discriminate].
          destruct RG1' as [_ ->]. exists h2. repeat (split; auto). intros ? []. }
      destruct D as (h3 & D & L3 & D1 & D2). rewrite D. simpl. destruct E2 as [E2 E3].
      split; [split; [lia|]|].
      * intros y Y. rewrite D2, E3, X2; auto; [lia|]. intro Z. specialize (B1 y Z). lia.
      * split; [constructor|]. split; [intros ? []|]. intros y Y G. exfalso. apply G.
        destruct (in_dec Nat.eq_dec y G1) as [I|I]; auto. rewrite D2 by auto.
        destruct (Nat.lt_ge_cases y (length h1)) as [L|L].
        { rewrite E3 by auto. destruct (get h1 y) eqn:Gy; auto; exfalso; apply I, C1; auto; congruence. }
        { now apply (fresh_nil_freed _ _ _ Fr). }
Qed.

Lemma build_ok cl fd ks a t p : forall kids h F, reps h kids ks F -> heights ks <= fd ->
  (forall x n h' F' b, In x ks -> repv h' (Some n) (fst x) (snd x) F' -> cloned h' b (cpv (snd x)) (cl b n h')) ->
  cloned h a (Node t p (cps ks)) (build tr cl fd a t p kids h).
Proof.
  intros kids h F R Hf C. unfold build. destruct (oom tr (length h)).
  - split; [apply ext_refl|]. split; [constructor|]. split; [intros ? []|].
    intros q Q G. apply get_live_lt in G. lia.
  - set (h1 := h ++ [Raw a]). set (m := length h).
    assert (L1 : length h1 = S m) by (unfold h1; rewrite app_length; simpl; unfold m; lia).
    assert (X1 : ext h h1).
    { split; [unfold m in L1; lia|]. intros q Q. unfold h1. rewrite get_app.
      assert (E : q =? length h = false) by (apply Nat.eqb_neq; lia). now rewrite E. }
    assert (Gm : get h1 m = Raw a) by (unfold h1; rewrite get_app; unfold m; now rewrite Nat.eqb_refl).
    assert (Fail : forall h2, ext h1 h2 -> fresh (length h1) h2 [] ->
      cloned h a (Node t p (cps ks)) (match dealloc a m h2 with Some h3 => Exn h3 | None => Stuck end)).
    { intros h2 [E1 E2] Fr. unfold dealloc. rewrite E2, Gm, Nat.eqb_refl by lia. simpl. split.
      - split; [rewrite put_length; unfold m in *; lia|]. intros q Q.
        rewrite get_put_other by (unfold m; lia). rewrite E2 by (unfold m in *; lia). now apply X1.
      - split; [constructor|]. split; [intros ? []|]. intros q Q G. apply G. clear G.
        destruct (Nat.eq_dec q m) as [-> |N].
        + apply get_put_same. rewrite E2 by lia. now rewrite Gm.
        + rewrite get_put_other by auto. apply (fresh_nil_freed _ _ _ Fr). unfold m in *; lia. }
    destruct (ctor_fails tr m) as [k|].
    + destruct (reps_firstn h k ks kids F R) as (G & RG & _).
      assert (Hk : heights (firstn k ks) <= fd).
      { eapply Nat.le_trans; [|exact Hf]. unfold heights. clear. revert ks. induction k; intros [|x ks]; simpl; try lia.
        specialize (IHk ks). lia. }
      pose proof (copy_kids_ok cl fd (firstn k ks) (firstn k kids) h1 G (reps_ext _ _ _ _ _ X1 RG) Hk) as Q.
      assert (C' : forall x n h' F' b, In x (firstn k ks) -> repv h' (Some n) (fst x) (snd x) F' ->
         cloned h' b (cpv (snd x)) (cl b n h')).
      { intros x n h' F' b I. apply C. rewrite <- (firstn_skipn k ks). apply in_or_app. now left. }
      specialize (Q C'). destruct (copy_kids tr cl fd (firstn k kids) h1) as [qs h2|h2|]; auto; simpl in Q.
      * destruct Q as ([E1 E2] & G' & RG' & N & B & Cv).
        destruct (dkids_ok h2 (cps (firstn k ks)) fd qs G' RG' N) as (h3 & D & L3 & D1 & D2).
        { unfold heights, cps in *. rewrite map_map. simpl. erewrite map_ext; [exact Hk|]. intros x. apply height_cpv. }
        rewrite D. apply Fail.
        { split; [lia|]. intros q Qq. rewrite D2, E2; auto. intro I. specialize (B q I). lia. }
        { split; [constructor|]. split; [intros ? []|]. intros q Qq Gq. apply Gq.
          destruct (in_dec Nat.eq_dec q G') as [I|I]; auto. rewrite D2 by auto.
          destruct (get h2 q) eqn:Gz; auto; exfalso; apply I, Cv; auto; congruence. }
      * now apply Fail.
    + pose proof (copy_kids_ok cl fd ks kids h1 F (reps_ext _ _ _ _ _ X1 R) Hf C) as Q.
      destruct (copy_kids tr cl fd kids h1) as [qs h2|h2|]; auto; simpl in Q.
      * destruct Q as ([E1 E2] & G' & RG' & N & B & Cv). simpl.
        assert (Gm2 : get h2 m = Raw a) by (rewrite E2 by lia; exact Gm).
        assert (Nm : ~ In m G') by (intro I; specialize (B m I); lia). split.
        { split; [rewrite put_length; unfold m in *; lia|]. intros q Qq.
          rewrite get_put_other by (unfold m; lia). rewrite E2 by (unfold m in *; lia). now apply X1. }
        exists (m :: G'). split.
        { apply repv_node. exists m, {| b_al := a; b_ty := t; b_pay := p; b_kids := qs |}, G'.
          repeat (split; auto).
          - apply get_put_same. now rewrite Gm2.
          - eapply reps_frame; eauto. intros q Qq. apply get_put_other. intros ->. contradiction. }
        { split; [constructor; auto|]. split.
          - intros q [<-|I]; auto. specialize (B q I). unfold m in *. lia.
          - intros q Qq Gq. destruct (Nat.eq_dec q m) as [-> |Nq]; [now left|right].
            apply Cv; [unfold m in *; lia|]. now rewrite get_put_other in Gq by auto. }
      * now apply Fail.
Qed.

Lemma clone_ok v : forall f fd a n h F a0, repv h (Some n) a0 v F -> height v <= f -> height v <= fd ->
  cloned h a (cpv v) (clone tr f fd a n h).
Proof.
  induction v as [|t p ks IH] using val_ind'; intros f fd a n h F a0 R Hf Hd.
  - destruct R as [R _]. discriminate.
  - apply repv_node in R. destruct R as (n' & b & F' & E & -> & Gn & B1 & B2 & B3 & R). injection E as <-.
    destruct f as [|f]; [simpl in Hf; lia|]. simpl clone. rewrite Gn, B2, B3. simpl in Hf, Hd.
    change (cpv (Node t p ks)) with (Node t p (cps ks)).
    eapply build_ok; [exact R|unfold heights; lia|].
    intros x m h' G c I Rx. rewrite Forall_forall in IH.
    assert (Hx : height (snd x) <= heights ks).
    { clear - I. unfold heights. induction ks as [|y ks IHk]; simpl in *; [tauto|]. destruct I as [-> |I]; [lia|].
      specialize (IHk I). lia. }
    unfold heights in Hx. eapply (IH x I); [exact Rx|lia|lia].
Qed.

(** ** References *)
Lemma split_at h k : forall ks kids F a v, reps h kids ks F -> nth_error ks k = Some (a, v) ->
  exists p L Fv R, nth_error kids k = Some p /\ al p = a /\ repv h (cb p) a v Fv /\ F = L ++ Fv ++ R /\
    (forall h' p' v' Fv', (forall q, In q (L ++ R) -> get h' q = get h q) -> repv h' (cb p') (al p') v' Fv' ->
       reps h' (setl kids k p') (setl ks k (al p', v')) (L ++ Fv' ++ R)) /\
    (forall k2 p2 a2 v2, k2 <> k -> nth_error kids k2 = Some p2 -> nth_error ks k2 = Some (a2, v2) ->
       exists F2, repv h (cb p2) a2 v2 F2 /\ incl F2 (L ++ R)).
Proof.
  induction k as [|k IH]; intros [|x ks] kids F a v R E; try discriminate; simpl in R;
    destruct R as (q & kids' & F1 & F2 & -> & Ea & R1 & R2 & ->); simpl in E.
  - injection E as ->. exists q, [], F1, F2. simpl in *. repeat (split; auto).
    + intros h' p' v' Fv' A R'. exists p', kids', Fv', F2. repeat (split; auto).
      eapply reps_frame; eauto.
    + intros [|k2] p2 a2 v2 N E1 E2; [congruence|]. simpl in *. clear - R2 E1 E2.
      revert kids' F2 k2 R2 E1 E2. induction ks as [|y ks IH]; intros kids F k2 R E1 E2; [destruct k2; discriminate|].
      simpl in R. destruct R as (q & kids' & G1 & G2 & -> & Ea & R1 & R2 & ->). destruct k2 as [|k2]; simpl in *.
      * injection E1 as <-. injection E2 as ->. exists G1. split; auto. apply incl_appl, incl_refl.
      * destruct (IH kids' G2 k2 R2 E1 E2) as (F2 & A & B). exists F2. split; auto. now apply incl_appr.
  - destruct (IH ks kids' F2 a v R2 E) as (p & L & Fv & R & P1 & P2 & P3 & -> & P4 & P5).
    exists p, (F1 ++ L), Fv, R. simpl. repeat (split; auto).
    + now rewrite <- app_assoc.
    + intros h' p' v' Fv' A R'. exists q, (setl kids' k p'), F1, (L ++ Fv' ++ R). repeat (split; auto).
      * eapply rep_frame; eauto. intros y Y. apply A. rewrite <- app_assoc. apply in_or_app. now left.
      * apply P4; auto. intros y Y. apply A. rewrite <- app_assoc. apply in_or_app. now right.
      * now rewrite <- app_assoc.
    + intros [|k2] p2 a2 v2 N E1 E2; simpl in *.
      * injection E1 as <-. injection E2 as ->. exists F1. split; auto. rewrite <- app_assoc. apply incl_appl, incl_refl.
      * destruct (P5 k2 p2 a2 v2) as (G & A & B); auto. exists G. split; auto. rewrite <- app_assoc. now apply incl_appr.
Qed.
Lemma reps_nth h k : forall ks kids F p, reps h kids ks F -> nth_error kids k = Some p ->
  exists v, nth_error ks k = Some (al p, v).
Proof.
  induction k as [|k IH]; intros [|x ks] kids F p R E; simpl in R.
  - destruct R as [-> _]. discriminate.
  - destruct R as (q & kids' & F1 & F2 & -> & Ea & R1 & R2 & ->). simpl in E. injection E as <-.
    exists (snd x). simpl. destruct x; simpl in *. now rewrite Ea.
  - destruct R as [-> _]. discriminate.
  - destruct R as (q & kids' & F1 & F2 & -> & Ea & R1 & R2 & ->). simpl in *. eauto.
Qed.
Lemma live_inj (b1 b2 : @block ty pay) : Live b1 = Live b2 -> b1 = b2.
Proof. congruence. Qed.
Lemma with_kids_same (b : @block ty pay) : with_kids b (b_kids b) = b.
Proof. destruct b; reflexivity. Qed.

(** [b'] differs from [b] in its members only. *)
Definition same_but_kids (b b' : @block ty pay) : Prop := b' = with_kids b (b_kids b').

Lemma focus pi : forall h n b ks F a v, get h n = Live b -> reps h (b_kids b) ks F ->
  look pi ks = Some (a, v) -> NoDup (n :: F) ->
  exists m j p bm L Fv R, find h n pi = Some (m, j) /\ get h m = Live bm /\ nth_error (b_kids bm) j = Some p /\
    al p = a /\ repv h (cb p) a v Fv /\ F = L ++ Fv ++ R /\ (m = n /\ length pi = 1 \/ In m L) /\
    forall h' p' v' Fv', (forall q, In q (n :: L ++ R) -> q <> m -> get h' q = get h q) ->
      get h' m = Live (with_kids bm (setl (b_kids bm) j p')) -> repv h' (cb p') (al p') v' Fv' ->
      exists b', get h' n = Live b' /\ same_but_kids b b' /\
        reps h' (b_kids b') (upd pi (al p', v') ks) (L ++ Fv' ++ R).
Proof.
  induction pi as [|k r IH]; intros h n b ks F a v Gn R E N; simpl in E; [discriminate|].
  destruct (nth_error ks k) as [[a1 v1]|] eqn:Ek; [|discriminate].
  destruct (split_at h k ks (b_kids b) F a1 v1 R Ek) as (p & L & Fv & Rr & P1 & P2 & P3 & -> & P4 & _).
  apply NoDup_cons_iff in N. destruct N as [N0 N].
  destruct r as [|k' r].
  - injection E as <- <-. exists n, k, p, b, L, Fv, Rr.
    split; [simpl; unfold rd; simpl; now rewrite Gn, P1|]. repeat (split; auto).
    intros h' p' v' Fv' A Gm R'. exists (with_kids b (setl (b_kids b) k p')).
    split; auto. split; [reflexivity|]. cbn [b_kids with_kids]. simpl upd. rewrite Ek.
    apply P4; auto. intros q Q. apply A; [now right|]. intros ->. apply N0.
    apply in_app_or in Q. apply in_or_app. destruct Q; auto. right. apply in_or_app. auto.
  - destruct v1 as [|t1 p1 ks1]; [discriminate|].
    apply repv_node in P3. destruct P3 as (n1 & b1 & F1 & Ec & -> & G1 & B1 & B2 & B3 & R1).
    assert (N1 : NoDup (n1 :: F1)).
    { apply nodup_app in N. destruct N as (_ & N & _). apply nodup_app in N. tauto. }
    destruct (IH h n1 b1 ks1 F1 a v G1 R1 E N1) as (m & j & q & bm & L1 & Fv & R2 & Q1 & Q2 & Q3 & Q4 & Q5 & -> & Q6 & Q7).
    exists m, j, q, bm, (L ++ n1 :: L1), Fv, (R2 ++ Rr).
    split.
    { change (match rd h (n, k) with Some p => match cb p with Some m => find h m (k' :: r) | None => None end | None => None end = Some (m, j)).
      unfold rd. cbn [fst snd]. rewrite Gn, P1, Ec. exact Q1. }
    split; auto. split; auto. split; auto. split; auto. split.
    { rewrite <- !app_assoc. simpl. now rewrite <- !app_assoc. }
    split.
    { right. apply in_or_app. right. destruct Q6 as [[-> _]|Q6]; simpl; auto. }
    assert (Nn : n <> m).
    { intros ->. apply N0. apply in_or_app. right. simpl. destruct Q6 as [[-> _]|Q6]; [now left|]. right.
      apply in_or_app. left. apply in_or_app. now left. }
    intros h' p' v' Fv' A Gm R'. exists b. split; [rewrite A; auto; now left|].
    split; [unfold same_but_kids; now rewrite with_kids_same|].
    destruct (Q7 h' p' v' Fv') as (b' & G' & S' & RR); auto.
    { intros y Y. apply A. simpl in Y. simpl. rewrite !in_app_iff. simpl. rewrite in_app_iff in Y. tauto. }
    simpl upd. rewrite Ek.
    assert (Z : repv h' (cb p) (al p) (Node t1 p1 (upd (k' :: r) (al p', v') ks1)) (n1 :: L1 ++ Fv' ++ R2)).
    { apply repv_node. exists n1, b', (L1 ++ Fv' ++ R2). rewrite S' in *. cbn [with_kids b_al b_ty b_pay b_kids] in *.
      split; [exact Ec|]. split; [reflexivity|]. split; [exact G'|]. split; [congruence|]. auto. }
    assert (A' : forall y, In y (L ++ Rr) -> get h' y = get h y).
    { intros y Y. apply A.
      - right. apply in_app_or in Y. rewrite !in_app_iff. tauto.
      - intros ->. clear - N Y Q6. apply nodup_app in N. destruct N as (_ & N & D).
        apply nodup_app in N. destruct N as (_ & _ & D').
        assert (I : In m (n1 :: L1 ++ Fv ++ R2)).
        { destruct Q6 as [[-> _]|Q6]; [now left|]. right. apply in_or_app. now left. }
        apply in_app_or in Y. destruct Y as [Y|Y].
        + apply (D m Y). apply in_or_app. now left.
        + now apply (D' m I). }
    pose proof (P4 h' p _ _ A' Z) as W. rewrite (setl_same _ _ _ P1) in W.
    replace ((L ++ n1 :: L1) ++ Fv' ++ R2 ++ Rr) with (L ++ (n1 :: L1 ++ Fv' ++ R2) ++ Rr).
    + rewrite P2 in W. exact W.
    + rewrite <- !app_assoc. simpl. now rewrite <- !app_assoc.
Qed.

Lemma rep_fun v : forall h c a F G, repv h c a v F -> repv h c a v G -> F = G.
Proof.
  induction v as [|t p ks IH] using val_ind'; intros h c a F G R1 R2.
  - destruct R1 as [_ ->]. destruct R2 as [_ ->]. reflexivity.
  - apply repv_node in R1. apply repv_node in R2.
    destruct R1 as (n & b & F' & -> & -> & Gn & _ & _ & _ & R1).
    destruct R2 as (n' & b' & G' & E & -> & Gn' & _ & _ & _ & R2). injection E as <-.
    rewrite Gn in Gn'. apply live_inj in Gn'. subst b'. f_equal.
    clear - IH R1 R2. revert F' G' R1 R2. generalize (b_kids b).
    induction IH as [|x r H Hr IHr]; intros kids F G R1 R2; simpl in R1, R2.
    + destruct R1 as [_ ->]. destruct R2 as [_ ->]. reflexivity.
    + destruct R1 as (q & kids' & F1 & F2 & -> & _ & A1 & A2 & ->).
      destruct R2 as (q' & kids'' & G1 & G2 & E & _ & B1 & B2 & ->). injection E as <- <-. f_equal; eauto.
Qed.

Lemma find_cons (h : heap) n k k' r : find h n (k :: k' :: r) =
  match rd h (n, k) with Some p => match cb p with Some m => find h m (k' :: r) | None => None end | None => None end.
Proof. reflexivity. Qed.
Lemma find_one (h : heap) n k : find h n [k] = match rd h (n, k) with Some _ => Some (n, k) | None => None end.
Proof. reflexivity. Qed.
Lemma rd_live (h : heap) n b k : get h n = Live b -> rd h (n, k) = nth_error (b_kids b) k.
Proof. intros E. unfold rd. simpl. now rewrite E. Qed.

(** one step down *)
Lemma descend h n b ks F k k' r x : get h n = Live b -> reps h (b_kids b) ks F -> NoDup (n :: F) ->
  look (k :: k' :: r) ks = Some x ->
  exists p n1 b1 a1 t1 p1 ks1 L F1 R, nth_error (b_kids b) k = Some p /\ nth_error ks k = Some (a1, Node t1 p1 ks1) /\
    cb p = Some n1 /\ get h n1 = Live b1 /\ reps h (b_kids b1) ks1 F1 /\ F = L ++ (n1 :: F1) ++ R /\
    look (k' :: r) ks1 = Some x /\ NoDup (n1 :: F1) /\ find h n (k :: k' :: r) = find h n1 (k' :: r) /\
    (forall k2 p2 a2 v2, k2 <> k -> nth_error (b_kids b) k2 = Some p2 -> nth_error ks k2 = Some (a2, v2) ->
       exists F2, repv h (cb p2) a2 v2 F2 /\ incl F2 (L ++ R)).
Proof.
  intros Gn R N E. simpl in E. destruct (nth_error ks k) as [[a1 v1]|] eqn:Ek; [|discriminate].
  destruct (split_at h k ks (b_kids b) F a1 v1 R Ek) as (p & L & Fv & Rr & P1 & P2 & P3 & -> & _ & P5).
  destruct v1 as [|t1 p1 ks1]; [discriminate|].
  apply repv_node in P3. destruct P3 as (n1 & b1 & F1 & Ec & -> & G1 & B1 & B2 & B3 & R1).
  apply NoDup_cons_iff in N. destruct N as [_ N]. apply nodup_app in N. destruct N as (_ & N & _). apply nodup_app in N.
  exists p, n1, b1, a1, t1, p1, ks1, L, F1, Rr.
  split; [exact P1|]. split; [reflexivity|]. split; [exact Ec|]. split; [exact G1|]. split; [exact R1|].
  split; [reflexivity|]. split; [exact E|]. split; [tauto|]. split; [|exact P5]. rewrite find_cons, (rd_live _ _ _ _ Gn), P1, Ec. reflexivity.
Qed.

Lemma find_agree pi : forall h h' n b ks F x, get h n = Live b -> reps h (b_kids b) ks F -> NoDup (n :: F) ->
  look pi ks = Some x -> (forall q, In q (n :: F) -> get h' q = get h q) -> find h' n pi = find h n pi.
Proof.
  induction pi as [|k r IH]; intros h h' n b ks F x Gn R N E A; [reflexivity|].
  assert (Gn' : get h' n = Live b) by (rewrite A; simpl; auto).
  destruct r as [|k' r].
  - now rewrite !find_one, (rd_live _ _ _ _ Gn), (rd_live _ _ _ _ Gn').
  - destruct (descend _ _ _ _ _ _ _ _ _ Gn R N E) as (p & n1 & b1 & a1 & t1 & p1 & ks1 & L & F1 & Rr &
      P1 & P2 & P3 & P4 & P5 & -> & P6 & P7 & P8 & _).
    rewrite P8, find_cons, (rd_live _ _ _ _ Gn'), P1, P3.
    eapply IH; eauto. intros q Q. apply A. right. apply in_or_app. right. apply in_or_app. now left.
Qed.

Lemma find_inj pi1 : forall pi2 h n b ks F x1 x2 s, get h n = Live b -> reps h (b_kids b) ks F -> NoDup (n :: F) ->
  look pi1 ks = Some x1 -> look pi2 ks = Some x2 -> find h n pi1 = Some s -> find h n pi2 = Some s -> pi1 = pi2.
Proof.
  assert (Short : forall h n b ks F k k' r x2 j, get h n = Live b -> reps h (b_kids b) ks F -> NoDup (n :: F) ->
    look (k :: k' :: r) ks = Some x2 -> find h n (k :: k' :: r) = Some (n, j) -> False).
  { intros h n b ks F k k' r [a v] j Gn R N E Fd.
    destruct (focus _ _ _ _ _ _ _ _ Gn R E N) as (m & j' & p & bm & L & Fv & Rr & Q1 & _ & _ & _ & _ & -> & Q6 & _).
    rewrite Fd in Q1. injection Q1 as <- <-. destruct Q6 as [[_ Q6]|Q6]; [discriminate|].
    apply NoDup_cons_iff in N. destruct N as [N _]. apply N, in_or_app. now left. }
  induction pi1 as [|k1 r1 IH]; intros [|k2 r2] h n b ks F x1 x2 s Gn R N E1 E2 F1 F2; try discriminate.
  destruct r1 as [|k1' r1]; destruct r2 as [|k2' r2].
  - rewrite find_one, (rd_live _ _ _ _ Gn) in F1. rewrite find_one, (rd_live _ _ _ _ Gn) in F2.
    destruct (nth_error (b_kids b) k1); [|discriminate]. destruct (nth_error (b_kids b) k2); [|discriminate]. congruence.
  - exfalso. rewrite find_one in F1. destruct (rd h (n, k1)); [|discriminate]. injection F1 as <-. eapply Short; eauto.
  - exfalso. rewrite find_one in F2. destruct (rd h (n, k2)); [|discriminate]. injection F2 as <-. eapply Short; eauto.
  - destruct (descend _ _ _ _ _ _ _ _ _ Gn R N E1) as (p & n1 & b1 & a1 & t1 & p1 & ks1 & L & G1 & Rr &
      P1 & P2 & P3 & P4 & P5 & -> & P6 & P7 & P8 & P9).
    destruct (descend _ _ _ _ _ _ _ _ _ Gn R N E2) as (q & n2 & b2 & a2 & t2 & p2 & ks2 & L2 & G2 & R2 &
      Q1 & Q2 & Q3 & Q4 & Q5 & EF & Q6 & Q7 & Q8 & _).
    destruct (Nat.eq_dec k1 k2) as [<-|Nk].
    + rewrite P1 in Q1. injection Q1 as <-. rewrite P2 in Q2. injection Q2 as <- <- <- <-.
      rewrite P3 in Q3. injection Q3 as <-. f_equal.
      rewrite P8 in F1. rewrite Q8 in F2. eapply (IH (k2' :: r2) h n1 b1 ks1 G1); eauto.
    + exfalso. destruct (P9 k2 q a2 (Node t2 p2 ks2)) as (G & RG & I); auto.
      assert (RG' : repv h (cb q) a2 (Node t2 p2 ks2) (n2 :: G2)).
      { apply repv_node. destruct (split_at h k2 ks (b_kids b) _ _ _ R Q2) as (q' & ? & Fv & ? & S1 & S2 & S3 & _).
        rewrite Q1 in S1. injection S1 as <-. apply repv_node in S3.
        destruct S3 as (n' & b' & F' & T1 & T2 & T3 & T4 & T5 & T6 & T7). exists n2, b2, G2.
        rewrite Q3 in T1. injection T1 as <-. rewrite Q4 in T3. apply live_inj in T3. subst b'. repeat (split; auto). }
      pose proof (rep_fun _ _ _ _ _ _ RG RG') as EG. subst G.
      destruct x1 as [y1 z1]. destruct x2 as [y2 z2].
      destruct (focus _ _ _ _ _ _ _ _ P4 P5 P6 P7) as (m & j & ? & ? & L' & ? & ? & T1 & _ & _ & _ & _ & ET & T6 & _).
      destruct (focus _ _ _ _ _ _ _ _ Q4 Q5 Q6 Q7) as (m' & j' & ? & ? & L'' & ? & ? & T1' & _ & _ & _ & _ & ET' & T6' & _).
      rewrite P8, T1 in F1. rewrite Q8, T1' in F2. rewrite <- F1 in F2. injection F2 as -> ->.
      assert (I1 : In m (n1 :: G1)).
      { destruct T6 as [[-> _]|T6]; [now left|]. right. rewrite ET. apply in_or_app. now left. }
      assert (I2 : In m (n2 :: G2)).
      { destruct T6' as [[-> _]|T6']; [now left|]. right. rewrite ET'. apply in_or_app. now left. }
      specialize (I m I2). apply NoDup_cons_iff in N. destruct N as [_ N].
      apply nodup_app in N. destruct N as (_ & N & D). apply nodup_app in N. destruct N as (_ & _ & D').
      apply in_app_or in I. destruct I as [I|I].
      * apply (D m I). apply in_or_app. now left.
      * now apply (D' m I1).
Qed.

(** A path that does not go through [pi] finds the same reference after the polymorphic at
    [pi] and what it holds have changed. *)
Lemma find_stable pi : forall pi' h h' n b ks F a v x m j p p' bm Fv, get h n = Live b -> reps h (b_kids b) ks F -> NoDup (n :: F) ->
  look pi ks = Some (a, v) -> look pi' ks = Some x -> (prefix pi pi' = true -> pi = pi') ->
  find h n pi = Some (m, j) -> get h m = Live bm -> nth_error (b_kids bm) j = Some p -> repv h (cb p) a v Fv ->
  (forall q, In q (n :: F) -> ~ In q Fv -> q <> m -> get h' q = get h q) ->
  get h' m = Live (with_kids bm (setl (b_kids bm) j p')) ->
  find h' n pi' = find h n pi'.
Proof.
  induction pi as [|k r IH]; intros pi' h h' n b ks F a v x m j p p' bm Fv Gn R N E E' Pf Fd Gm Pj Rp A Gm'; [discriminate|].
  destruct pi' as [|k' r']; [discriminate|].
  assert (Child : forall L G R1, F = L ++ G ++ R1 -> incl Fv G -> (m = n \/ In m G) ->
    (forall k2 p2 a2 v2, k2 <> k -> nth_error (b_kids b) k2 = Some p2 -> nth_error ks k2 = Some (a2, v2) ->
       exists F2, repv h (cb p2) a2 v2 F2 /\ incl F2 (L ++ R1)) ->
    k' <> k -> rd h' (n, k') = rd h (n, k') -> find h' n (k' :: r') = find h n (k' :: r')).
  { intros L G R1 -> IG Im P9 Nk Rd. destruct r' as [|k2 r']; [now rewrite !find_one, Rd|].
    destruct (descend _ _ _ _ _ _ _ _ _ Gn R N E') as (q & n2 & b2 & a2 & t2 & p2 & ks2 & L2 & G2 & R2 &
      Q1 & Q2 & Q3 & Q4 & Q5 & EF & Q6 & Q7 & Q8 & _).
    rewrite Q8, find_cons, Rd, (rd_live _ _ _ _ Gn), Q1, Q3.
    destruct (P9 k' q a2 (Node t2 p2 ks2)) as (H & RH & I); auto.
    assert (EH : H = n2 :: G2).
    { apply (rep_fun _ _ _ _ _ _ RH). apply repv_node. exists n2, b2, G2.
      apply repv_node in RH. destruct RH as (n' & b' & F' & T1 & T2 & T3 & T4 & T5 & T6 & T7).
      rewrite Q3 in T1. injection T1 as <-. rewrite Q4 in T3. apply live_inj in T3. subst b'. repeat (split; auto). }
    subst H. eapply find_agree; eauto. intros q0 Q0. specialize (I q0 Q0).
    apply NoDup_cons_iff in N. destruct N as [N0 N].
    pose proof N as N2. apply nodup_app in N2. destruct N2 as (_ & N2 & D). apply nodup_app in N2. destruct N2 as (_ & _ & D').
    assert (Ng : ~ In q0 G).
    { intro Z. apply in_app_or in I. destruct I as [I|I]; [apply (D q0 I); apply in_or_app; now left|now apply (D' q0 Z)]. }
    apply A.
    - right. apply in_app_or in I. apply in_or_app. destruct I; auto. right. apply in_or_app. auto.
    - intro Z. now apply Ng, IG.
    - intros ->. destruct Im as [-> |Im]; [|contradiction]. apply N0.
      apply in_app_or in I. apply in_or_app. destruct I; auto. right. apply in_or_app. auto. }
  destruct r as [|k1 r].
  - simpl in E. destruct (nth_error ks k) as [[a1 v1]|] eqn:Ek; [|discriminate]. injection E as -> ->.
    rewrite find_one, (rd_live _ _ _ _ Gn) in Fd.
    destruct (nth_error (b_kids b) k) as [p0|] eqn:Ep; [|discriminate]. injection Fd as <- <-.
    rewrite Gn in Gm. apply live_inj in Gm. subst bm. rewrite Ep in Pj. injection Pj as ->.
    destruct (split_at h k ks (b_kids b) F a v R Ek) as (p1 & L & Fv1 & Rr & P1 & P2 & P3 & EF & _ & P5).
    rewrite Ep in P1. injection P1 as <-. pose proof (rep_fun _ _ _ _ _ _ P3 Rp) as EG. subst Fv1.
    destruct (Nat.eq_dec k' k) as [-> |Nk].
    + simpl in Pf. rewrite Nat.eqb_refl in Pf. simpl in Pf. injection (Pf eq_refl) as <-. rewrite !find_one.
      rewrite (rd_live _ _ _ _ Gn), (rd_live _ _ _ _ Gm'), Ep. cbn [with_kids b_kids].
      rewrite nth_error_setl, Nat.eqb_refl. assert (Lk : k <? length (b_kids b) = true).
      { apply Nat.ltb_lt. apply nth_error_Some. congruence. } now rewrite Lk.
    + apply (Child L Fv Rr EF (incl_refl _)); auto.
      rewrite (rd_live _ _ _ _ Gn), (rd_live _ _ _ _ Gm'). cbn [with_kids b_kids].
      rewrite nth_error_setl. apply Nat.eqb_neq in Nk. now rewrite Nk.
  - destruct (descend _ _ _ _ _ _ _ _ _ Gn R N E) as (q & n1 & b1 & a1 & t1 & p1 & ks1 & L & F1 & Rr &
      P1 & P2 & P3 & P4 & P5 & EF & P6 & P7 & P8 & P9).
    rewrite P8 in Fd.
    destruct (focus _ _ _ _ _ _ _ _ P4 P5 P6 P7) as (m' & j' & p0 & bm' & L' & Fv' & R' & T1 & T2 & T3 & T4 & T5 & ET & T6 & _).
    rewrite Fd in T1. injection T1 as <- <-. rewrite Gm in T2. apply live_inj in T2. subst bm'.
    rewrite Pj in T3. injection T3 as <-. pose proof (rep_fun _ _ _ _ _ _ T5 Rp) as EG. subst Fv'.
    assert (Im : In m (n1 :: F1)).
    { destruct T6 as [[-> _]|T6]; [now left|]. right. rewrite ET. apply in_or_app. now left. }
    assert (If : incl Fv (n1 :: F1)).
    { intros y Y. right. rewrite ET. apply in_or_app. right. apply in_or_app. now left. }
    assert (Nn : ~ In n (n1 :: F1)).
    { apply NoDup_cons_iff in N. destruct N as [N _]. intro Z. apply N. rewrite EF. apply in_or_app. right.
      apply in_or_app. now left. }
    assert (Rd : forall k2, rd h' (n, k2) = rd h (n, k2)).
    { intros k2. unfold rd. simpl. rewrite A; auto; [now left|]. intros ->. contradiction. }
    destruct (Nat.eq_dec k' k) as [-> |Nk].
    + destruct r' as [|k2 r'].
      * now rewrite !find_one, Rd.
      * assert (E2 : look (k2 :: r') ks1 = Some x).
        { simpl in E'. rewrite P2 in E'. exact E'. }
        rewrite !find_cons, Rd, (rd_live _ _ _ _ Gn), P1, P3.
        eapply (IH (k2 :: r') h h' n1 b1 ks1 F1); eauto.
        { intros Z. cut (k :: k1 :: r = k :: k2 :: r'); [congruence|]. apply Pf.
          change (prefix (k :: k1 :: r) (k :: k2 :: r')) with ((k =? k) && prefix (k1 :: r) (k2 :: r')).
          rewrite Nat.eqb_refl. exact Z. }
        { intros y Y. apply A. right. rewrite EF. apply in_or_app. right. apply in_or_app. now left. }
    + eapply (Child L (n1 :: F1) Rr); eauto.
Qed.

(** ** Writes *)
Definition W (h : heap) (s : slot) (p : poly) : heap :=
  match get h (fst s) with
  | Live b => put h (fst s) (Live (with_kids b (setl (b_kids b) (snd s) p)))
  | _ => h
  end.
Lemma wr_W (h : heap) s p q : rd h s = Some q -> wr h s p = Some (W h s p).
Proof.
  unfold rd, wr, W. destruct (get h (fst s)); try discriminate. intros E.
  assert (L : snd s <? length (b_kids b) = true) by (apply Nat.ltb_lt, nth_error_Some; congruence). now rewrite L.
Qed.
Lemma rd_lt (h : heap) s q : rd h s = Some q -> exists b, get h (fst s) = Live b /\ nth_error (b_kids b) (snd s) = Some q.
Proof. unfold rd. destruct (get h (fst s)) as [| |b] eqn:G; try discriminate. intros. exists b. auto. Qed.
Lemma W_live (h : heap) s p b : get h (fst s) = Live b ->
  W h s p = put h (fst s) (Live (with_kids b (setl (b_kids b) (snd s) p))).
Proof. intros G. unfold W. now rewrite G. Qed.
Lemma get_W (h : heap) s p b : get h (fst s) = Live b ->
  get (W h s p) (fst s) = Live (with_kids b (setl (b_kids b) (snd s) p)).
Proof. intros G. unfold W. rewrite G. apply get_put_same. now rewrite G. Qed.
Lemma get_W_other (h : heap) s p q : q <> fst s -> get (W h s p) q = get h q.
Proof. intros N. unfold W. destruct (get h (fst s)); auto. now apply get_put_other. Qed.
Lemma W_length (h : heap) s p : length (W h s p) = length h.
Proof. unfold W. destruct (get h (fst s)); auto. apply put_length. Qed.
Lemma rd_W (h : heap) s p q : rd h s = Some q -> rd (W h s p) s = Some p.
Proof.
  intros E. destruct (rd_lt _ _ _ E) as (b & G & Nq). unfold rd. rewrite (get_W _ _ _ _ G). cbn [with_kids b_kids].
  rewrite nth_error_setl, Nat.eqb_refl.
  assert (L : snd s <? length (b_kids b) = true) by (apply Nat.ltb_lt, nth_error_Some; congruence). now rewrite L.
Qed.
Lemma rd_W_other (h : heap) s p s' : s <> s' -> rd (W h s p) s' = rd h s'.
Proof.
  intros N. destruct s as [m j], s' as [m' j']. unfold rd. cbn [fst snd].
  destruct (Nat.eq_dec m' m) as [-> |Nm].
  - destruct (get h m) as [| |b] eqn:G.
    + unfold W. cbn [fst]. now rewrite G, G.
    + unfold W. cbn [fst]. now rewrite G, G.
    + pose proof (get_W h (m, j) p b G) as E0. cbn [fst snd] in E0. rewrite E0. cbn [with_kids b_kids]. rewrite nth_error_setl.
      assert (E : j' =? j = false) by (apply Nat.eqb_neq; congruence). now rewrite E.
  - rewrite get_W_other; auto.
Qed.
Lemma W_W (h : heap) s p q : W (W h s p) s q = W h s q.
Proof.
  unfold W at 1. destruct (get h (fst s)) as [| |b] eqn:G.
  - unfold W. rewrite G, G. reflexivity.
  - unfold W. rewrite G, G. reflexivity.
  - rewrite (get_W _ _ _ _ G). unfold W. rewrite G. unfold put. rewrite setl_setl. do 2 f_equal.
    unfold with_kids. cbn [b_kids b_al b_ty b_pay]. now rewrite setl_setl.
Qed.
Lemma W_id (h : heap) s p : rd h s = Some p -> W h s p = h.
Proof.
  intros E. destruct (rd_lt _ _ _ E) as (b & G & Nq). unfold W. rewrite G. rewrite (setl_same _ _ _ Nq), with_kids_same.
  unfold put. apply setl_same. unfold get in G. destruct (nth_error h (fst s)) eqn:Q.
  - apply nth_error_nth with (d := Freed) in Q. congruence.
  - apply nth_error_None in Q. rewrite nth_overflow in G by auto. discriminate.
Qed.
Lemma W_comm (h : heap) s p s' p' : s <> s' -> W (W h s p) s' p' = W (W h s' p') s p.
Proof.
  intros N. destruct s as [m j], s' as [m' j']. destruct (Nat.eq_dec m m') as [<-|Nm].
  - destruct (get h m) as [| |b] eqn:G.
    + unfold W. cbn [fst snd]. rewrite !G. reflexivity.
    + unfold W. cbn [fst snd]. rewrite !G. reflexivity.
    + pose proof (get_W h (m, j) p b G) as E1. pose proof (get_W h (m, j') p' b G) as E2. cbn [fst snd] in E1, E2.
      rewrite (W_live _ (m, j') p' _ E1), (W_live _ (m, j) p _ E2), (W_live h (m, j) p b G), (W_live h (m, j') p' b G).
      cbn [fst snd]. unfold put. rewrite !setl_setl. do 2 f_equal. unfold with_kids.
      cbn [b_kids b_al b_ty b_pay fst snd]. rewrite (setl_comm (b_kids b) j j') by congruence. reflexivity.
  - assert (E1 : get (W h (m, j) p) m' = get h m') by (apply get_W_other; cbn; auto).
    assert (E2 : get (W h (m', j') p') m = get h m) by (apply get_W_other; cbn; auto).
    unfold W in *. cbn [fst snd] in *. rewrite E1, E2. destruct (get h m) eqn:G; destruct (get h m') eqn:G'; auto.
    unfold put. now apply setl_comm.
Qed.

(** ** Paths in values *)
Lemma apart_cons k r k' r' : apart (k :: r) (k' :: r') = if k =? k' then apart r r' else true.
Proof.
  unfold apart. simpl. rewrite (Nat.eqb_sym k' k). destruct (k =? k'); reflexivity.
Qed.
Lemma apart_sym p : forall q, apart p q = apart q p.
Proof. intros q. unfold apart. apply andb_comm. Qed.
Lemma apart_prefix p q : apart p q = true -> prefix p q = true -> p = q.
Proof. unfold apart. intros A B. rewrite B in A. discriminate. Qed.
Lemma eqp_eq p : forall q, eqp p q = true <-> p = q.
Proof.
  induction p as [|a p IH]; intros [|b q]; simpl; split; intros H; try discriminate; auto.
  - apply andb_prop in H. destruct H as [H1 H2]. apply Nat.eqb_eq in H1. apply IH in H2. congruence.
  - injection H as <- <-. rewrite Nat.eqb_refl. now apply IH.
Qed.
Lemma look_upd_same pi : forall V x y, look pi V = Some y -> look pi (upd pi x V) = Some x.
Proof.
  induction pi as [|k r IH]; intros V x y E; [discriminate|]. simpl in *.
  destruct (nth_error V k) as [[a v]|] eqn:Ek; [|discriminate].
  assert (L : k <? length V = true) by (apply Nat.ltb_lt, nth_error_Some; congruence).
  destruct r as [|k' r].
  - rewrite nth_error_setl, Nat.eqb_refl, L. simpl. destruct x; reflexivity.
  - destruct v as [|t p ks]; [discriminate|]. rewrite nth_error_setl, Nat.eqb_refl, L. cbn [andb].
    now apply (IH ks x y).
Qed.
Lemma look_upd_apart pi : forall pi' V x, apart pi pi' = true -> look pi (upd pi' x V) = look pi V.
Proof.
  induction pi as [|k r IH]; intros [|k' r'] V x A; auto. rewrite apart_cons in A.
  cbn [look upd]. destruct (nth_error V k') as [[a' v']|] eqn:Ek'; [|reflexivity].
  assert (L : k' <? length V = true) by (apply Nat.ltb_lt, nth_error_Some; congruence).
  destruct (k =? k') eqn:Kk.
  - apply Nat.eqb_eq in Kk. subst k'. rewrite Ek'. destruct r' as [|k2 r']; [destruct r; discriminate|].
    destruct v' as [|t p ks]; [now rewrite Ek'|]. rewrite nth_error_setl, Nat.eqb_refl, L. cbn [andb].
    destruct r as [|k1 r]; [discriminate|]. now apply IH.
  - destruct r' as [|k2 r']; [now rewrite nth_error_setl, Kk|].
    destruct v' as [|t p ks]; auto. now rewrite nth_error_setl, Kk.
Qed.
Lemma look_upd_al pi : forall pi' V x b v, prefix pi' pi = false -> look pi V = Some (b, v) ->
  exists w, look pi (upd pi' x V) = Some (b, w).
Proof.
  induction pi as [|k r IH]; intros [|k' r'] V x b v A E; try discriminate.
  cbn [look upd] in *. destruct (nth_error V k') as [[a' v']|] eqn:Ek'; [|eauto].
  assert (L : k' <? length V = true) by (apply Nat.ltb_lt, nth_error_Some; congruence).
  simpl in A. destruct (k' =? k) eqn:Kk.
  - apply Nat.eqb_eq in Kk. subst k'. rewrite Ek' in E. destruct r' as [|k2 r']; [discriminate|].
    destruct v' as [|t p ks]; [rewrite Ek'; eauto|]. rewrite nth_error_setl, Nat.eqb_refl, L. cbn [andb].
    destruct r as [|k1 r]; [injection E as <- <-; eauto|]. now apply (IH (k2 :: r') ks x b v).
  - rewrite Nat.eqb_sym in Kk. destruct r' as [|k2 r']; [rewrite nth_error_setl, Kk; eauto|].
    destruct v' as [|t p ks]; eauto. rewrite nth_error_setl, Kk. eauto.
Qed.
Lemma upd_upd pi : forall V x y, upd pi y (upd pi x V) = upd pi y V.
Proof.
  induction pi as [|k r IH]; intros V x y; auto. cbn [upd].
  destruct (nth_error V k) as [[a v]|] eqn:Ek; [|now rewrite Ek].
  assert (L : k <? length V = true) by (apply Nat.ltb_lt, nth_error_Some; congruence).
  destruct r as [|k' r].
  - rewrite nth_error_setl, Nat.eqb_refl, L. cbn [andb]. destruct x. now rewrite setl_setl.
  - destruct v as [|t p ks]; [now rewrite Ek|]. rewrite nth_error_setl, Nat.eqb_refl, L. cbn [andb].
    now rewrite setl_setl, IH.
Qed.
Lemma upd_id pi : forall V x, look pi V = Some x -> upd pi x V = V.
Proof.
  induction pi as [|k r IH]; intros V x E; auto. cbn [look upd] in *.
  destruct (nth_error V k) as [[a v]|] eqn:Ek; [|discriminate]. destruct r as [|k' r].
  - injection E as <-. now apply setl_same.
  - destruct v as [|t p ks]; auto. rewrite (IH ks x E). now apply setl_same.
Qed.
Lemma upd_cons k k' r x V : upd (k :: k' :: r) x V =
  match nth_error V k with
  | None => V
  | Some (a, v) => match v with Null => V | Node t p ks => setl V k (a, Node t p (upd (k' :: r) x ks)) end
  end.
Proof. reflexivity. Qed.
Lemma upd_comm pi : forall pi' V x y, apart pi pi' = true -> upd pi x (upd pi' y V) = upd pi' y (upd pi x V).
Proof.
  induction pi as [|k r IH]; intros [|k' r'] V x y A; auto. rewrite apart_cons in A.
  destruct (k =? k') eqn:Kk.
  - apply Nat.eqb_eq in Kk. subst k'. destruct r as [|k1 r]; [destruct r'; discriminate|].
    destruct r' as [|k2 r']; [discriminate|]. rewrite !upd_cons.
    destruct (nth_error V k) as [[a v]|] eqn:Ek; [|now rewrite Ek].
    assert (L : k <? length V = true) by (apply Nat.ltb_lt, nth_error_Some; congruence).
    destruct v as [|t p ks]; [now rewrite Ek|]. rewrite !nth_error_setl, Nat.eqb_refl, L. cbn [andb].
    rewrite !setl_setl. do 3 f_equal. apply IH. exact A.
  - apply Nat.eqb_neq in Kk. assert (K1 : k =? k' = false) by now apply Nat.eqb_neq.
    assert (K2 : k' =? k = false) by (apply Nat.eqb_neq; auto). cbn [upd].
    destruct (nth_error V k) as [[a v]|] eqn:Ek; destruct (nth_error V k') as [[a' v']|] eqn:Ek'.
    + destruct r as [|k1 r]; destruct r' as [|k2 r'];
        try (destruct v as [|t p ks]); try (destruct v' as [|t' p' ks']);
        rewrite ?nth_error_setl, ?K1, ?K2; cbn [andb]; rewrite ?Ek, ?Ek'; try reflexivity; try (apply setl_comm; auto; fail).
    + destruct r as [|k1 r]; try (destruct v as [|t p ks]);
        rewrite ?nth_error_setl, ?K1, ?K2; cbn [andb]; rewrite ?Ek, ?Ek'; reflexivity.
    + destruct r' as [|k1 r']; try (destruct v' as [|t p ks]);
        rewrite ?nth_error_setl, ?K1, ?K2; cbn [andb]; rewrite ?Ek, ?Ek'; reflexivity.
    + now rewrite ?Ek, ?Ek'.
Qed.

(** ** States *)
(** The variables hold [V] in the cells [F]; the cells [X] are held by nothing yet. *)
Definition st (h : heap) (V : slots) (F X : list nat) : Prop :=
  exists b, get h 0 = Live b /\ reps h (b_kids b) V F /\ NoDup (0 :: F ++ X) /\
    forall n, get h n <> Freed -> n = 0 \/ In n (F ++ X).
Lemma good_st h V : good h V <-> exists F, st h V F [].
Proof.
  split.
  - intros (b & F & A & B & C & D). exists F, b. now rewrite app_nil_r.
  - intros (F & b & A & B & C & D). rewrite app_nil_r in *. exists b, F. auto.
Qed.
Lemma st_live h V F X q : st h V F X -> In q (0 :: F) -> get h q <> Freed.
Proof.
  intros (b & G & R & _) [<-|I]; [now rewrite G|]. pose proof (reps_live _ _ _ _ R) as L.
  rewrite Forall_forall in L. auto.
Qed.
(** [h'] is [h] with [p'] at [s]; the cells [Fv] may have changed *)
Definition chg (h h' : heap) (F Fv : list nat) (s : slot) (p' : poly) : Prop :=
  get h' (fst s) = get (W h s p') (fst s) /\
  forall q, In q (0 :: F) -> ~ In q Fv -> q <> fst s -> get h' q = get h q.
(** the reference at path [pi], which holds [v] *)
Lemma st_at h V F X pi a v : st h V F X -> look pi V = Some (a, v) ->
  exists s p Fv, find h 0 pi = Some s /\ rd h s = Some p /\ al p = a /\ repv h (cb p) a v Fv /\
    incl Fv F /\ In (fst s) (0 :: F) /\ ~ In (fst s) (Fv ++ X) /\ NoDup (Fv ++ X) /\
    (forall h' p' v' Fv' X', chg h h' F Fv s p' -> repv h' (cb p') (al p') v' Fv' -> NoDup (Fv' ++ X') ->
       (forall q, In q (Fv' ++ X') -> In q (Fv ++ X) \/ length h <= q) ->
       (forall q, get h' q <> Freed -> ~ In q (Fv' ++ X') -> In q (0 :: F) /\ ~ In q Fv) ->
       exists F', st h' (upd pi (al p', v') V) F' X') /\
    (forall h' p' pi' x, chg h h' F Fv s p' -> look pi' V = Some x -> (prefix pi pi' = true -> pi = pi') ->
       find h' 0 pi' = find h 0 pi').
Proof.
  intros (b & G & R & N & D) E. pose proof N as N0. rewrite app_comm_cons in N0. apply nodup_app in N0. destruct N0 as (N0 & NX & NI).
  destruct (focus _ _ _ _ _ _ _ _ G R E N0) as (m & j & p & bm & L & Fv & Rr & Q1 & Q2 & Q3 & Q4 & Q5 & EF & Q6 & Q7).
  assert (Lv : forall q, In q (0 :: F) -> q < length h).
  { intros q I. apply get_live_lt. apply (st_live h V F X); auto. exists b; auto. }
  exists (m, j), p, Fv. cbn [fst].
  assert (Im : In m (0 :: F)).
  { destruct Q6 as [[-> _]|Q6]; [now left|]. right. rewrite EF. apply in_or_app. now left. }
  assert (NFv : forall q, In q (0 :: L ++ Rr) -> ~ In q Fv).
  { intros q I J. apply NoDup_cons_iff in N0. destruct N0 as [Z N0]. rewrite EF in N0, Z.
    apply nodup_app in N0. destruct N0 as (_ & N1 & D1). apply nodup_app in N1. destruct N1 as (_ & _ & D2).
    destruct I as [<-|I].
    - apply Z, in_or_app. right. apply in_or_app. now left.
    - apply in_app_or in I. destruct I as [I|I].
      + apply (D1 q I), in_or_app. now left.
      + now apply (D2 q J). }
  split; [exact Q1|]. split; [unfold rd; cbn [fst snd]; now rewrite Q2|]. split; [exact Q4|]. split; [exact Q5|].
  split. { rewrite EF. intros q I. apply in_or_app. right. apply in_or_app. now left. }
  split; [exact Im|].
  split. { intros I. apply in_app_or in I. destruct I as [I|I]; [|now apply (NI m)].
    revert I. apply NFv. destruct Q6 as [[-> _]|Q6]; [now left|]. right. apply in_or_app. now left. }
  split. { apply nodup_app. split; [|split; auto].
    - apply NoDup_cons_iff in N0. destruct N0 as [_ N0]. rewrite EF in N0. apply nodup_app in N0.
      destruct N0 as (_ & N0 & _). apply nodup_app in N0. tauto.
    - intros y I. apply NI. right. rewrite EF. apply in_or_app. right. apply in_or_app. now left. }
  split.
  - intros h' p' v' Fv' X' [C1 C2] R' N' Nw Lw.
    destruct (Q7 h' p' v' Fv') as (b' & G' & Sb & RR); auto.
    { intros q I Nq. apply C2; auto. destruct I as [<-|I]; [now left|]. right. rewrite EF.
      apply in_app_or in I. rewrite !in_app_iff. tauto. }
    { cbn [fst] in C1. rewrite C1. exact (get_W h (m, j) p' bm Q2). }
    exists (L ++ Fv' ++ Rr), b'. split; [exact G'|]. split; [exact RR|].
    assert (Dj : forall q, In q (0 :: L ++ Rr) -> ~ In q (Fv' ++ X')).
    { intros q I J. assert (I' : In q (0 :: F)).
      { destruct I as [<-|I]; [now left|]. right. rewrite EF. apply in_app_or in I. rewrite !in_app_iff. tauto. }
      destruct (Nw q J) as [J'|J'].
      - apply in_app_or in J'. destruct J' as [J'|J']; [now apply (NFv q)|]. now apply (NI q).
      - specialize (Lv q I'). lia. }
    split.
    + constructor.
      { intros I. apply (Dj 0); [now left|]. rewrite !in_app_iff in I. rewrite in_app_iff.
        apply NoDup_cons_iff in N0. destruct N0 as [Z _]. rewrite EF in Z. rewrite !in_app_iff in Z. tauto. }
      apply NoDup_cons_iff in N0. destruct N0 as [_ N0]. rewrite EF in N0. apply nodup_app in N0.
      destruct N0 as (NL & N0 & DL). apply nodup_app in N0. destruct N0 as (_ & NR & DR). apply nodup_app in N'.
      destruct N' as (NF' & NX' & DX'). rewrite <- !app_assoc.
      apply nodup_app. split; auto. split.
      * apply nodup_app. split; auto. split.
        { apply nodup_app. split; auto. split; auto. intros y I J. apply (Dj y).
          - right. apply in_or_app. now right.
          - apply in_or_app. now right. }
        intros y I J. apply in_app_or in J. destruct J as [J|J].
        { apply (Dj y); [right; apply in_or_app; now right|apply in_or_app; now left]. }
        now apply (DX' y).
      * intros y I J. rewrite !in_app_iff in J. destruct J as [J|[J|J]].
        { apply (Dj y); [right; apply in_or_app; now left|apply in_or_app; now left]. }
        { apply (DL y I), in_or_app. now right. }
        { apply (Dj y); [right; apply in_or_app; now left|apply in_or_app; now right]. }
    + intros n Gn. destruct (in_dec Nat.eq_dec n (Fv' ++ X')) as [I|I].
      * right. rewrite !in_app_iff in *. tauto.
      * destruct (Lw n Gn I) as [[<-|J] K]; [now left|]. right. rewrite EF in J. rewrite !in_app_iff in *. tauto.
  - intros h' p' pi' x [C1 C2] E' Pf.
    eapply (find_stable pi pi' h h' 0 b V F a v x m j p p' bm Fv); eauto.
    cbn [fst] in C1. rewrite C1. exact (get_W h (m, j) p' bm Q2).
Qed.

Lemma st_height h V F X pi a v : st h V F X -> look pi V = Some (a, v) -> height v <= fuel h.
Proof.
  intros S E. destruct (st_at _ _ _ _ _ _ _ S E) as (s & p & Fv & _ & _ & _ & R & _ & _ & _ & N & _).
  apply Nat.le_trans with (length Fv); [eapply height_le; eauto|]. apply Nat.le_trans with (length h); [|unfold fuel; lia].
  apply fp_length; [apply nodup_app in N; tauto|]. eapply rep_live; eauto.
Qed.
Lemma st_X h V F X q : st h V F X -> In q X -> q <> 0 /\ ~ In q F.
Proof.
  intros (b & _ & _ & N & _) I. apply NoDup_cons_iff in N. destruct N as [Z N]. split.
  - intros ->. apply Z, in_or_app. now right.
  - intros J. apply nodup_app in N. destruct N as (_ & _ & D). now apply (D q).
Qed.

Lemma st_ext h V F h1 Fn : st h V F [] -> ext h h1 -> fresh (length h) h1 Fn -> st h1 V F Fn.
Proof.
  intros S [E1 E2] (N1 & B & C).
  assert (Lv : forall q, In q (0 :: F) -> q < length h).
  { intros q I. apply get_live_lt. eapply st_live; eauto. }
  destruct S as (b & G & R & N & D). rewrite app_nil_r in *. exists b.
  split; [rewrite E2; auto; apply Lv; now left|]. split; [eapply reps_ext; eauto; now split|].
  split.
  - rewrite app_comm_cons. apply nodup_app. split; auto. split; auto.
    intros q I J. specialize (B q J). specialize (Lv q I). lia.
  - intros n Gn. destruct (Nat.lt_ge_cases n (length h)) as [L|L].
    + rewrite E2 in Gn by auto. destruct (D n Gn); auto. right. apply in_or_app. auto.
    + right. apply in_or_app. auto.
Qed.
Lemma find_ext h V F X h1 pi x : st h V F X -> ext h h1 -> look pi V = Some x -> find h1 0 pi = find h 0 pi.
Proof.
  intros S [_ E] L. pose proof S as (b & G & R & N & _). rewrite app_comm_cons in N. apply nodup_app in N.
  eapply find_agree; eauto; [tauto|]. intros q I. apply E, get_live_lt. eapply st_live; eauto.
Qed.
Lemma st_fresh_nil h : fresh (length h) h [].
Proof.
  split; [constructor|]. split; [intros ? []|]. intros q L G. apply get_live_lt in G. lia.
Qed.
(** different paths, different references *)
Lemma find_neq h V F X p1 p2 x1 x2 s1 s2 : st h V F X -> look p1 V = Some x1 -> look p2 V = Some x2 ->
  find h 0 p1 = Some s1 -> find h 0 p2 = Some s2 -> p1 <> p2 -> s1 <> s2.
Proof.
  intros (b & G & R & N & _) L1 L2 F1 F2 Np ->. apply Np. rewrite app_comm_cons in N. apply nodup_app in N.
  eapply find_inj; eauto. tauto.
Qed.

(** A write at a reference: what it held goes to [X'], what it now holds comes from [X]. *)
Lemma st_write h V F X pi a v s p p' v' Fv Fv' X' :
  st h V F X -> look pi V = Some (a, v) -> find h 0 pi = Some s -> rd h s = Some p -> repv h (cb p) a v Fv ->
  repv h (cb p') (al p') v' Fv' -> Permutation (Fv' ++ X') (Fv ++ X) ->
  (exists F', st (W h s p') (upd pi (al p', v') V) F' X') /\
  (forall pi' x, look pi' V = Some x -> (prefix pi pi' = true -> pi = pi') -> find (W h s p') 0 pi' = find h 0 pi') /\
  (forall c b w G, repv h c b w G -> ~ In (fst s) G -> repv (W h s p') c b w G) /\
  ~ In (fst s) (Fv ++ X).
Proof.
  intros S L Fd Rd Rv R' P. destruct (st_at _ _ _ _ _ _ _ S L) as (s0 & p0 & Fv0 & Q1 & Q2 & Q3 & Q4 & Q5 & Q6 & Q7 & Q8 & Q9 & Q10).
  rewrite Fd in Q1. injection Q1 as <-. rewrite Rd in Q2. injection Q2 as <-.
  pose proof (rep_fun _ _ _ _ _ _ Rv Q4) as <-.
  assert (Ch : chg h (W h s p') F Fv s p') by (split; [reflexivity|]; intros; now apply get_W_other).
  assert (Fr : forall c b w G, repv h c b w G -> ~ In (fst s) G -> repv (W h s p') c b w G).
  { intros c b w G RG NG. eapply rep_frame; eauto. intros q I. apply get_W_other. intros ->. contradiction. }
  split; [|split; [eauto|split; [exact Fr|exact Q7]]].
  apply Q9 with (Fv' := Fv'); auto.
  - apply Fr; auto. intros I. apply Q7. eapply Permutation_in; [exact P|]. apply in_or_app. now left.
  - eapply Permutation_NoDup; [apply Permutation_sym; exact P|exact Q8].
  - intros q I. left. eapply Permutation_in; eauto.
  - intros q Gq Nq. destruct (Nat.eq_dec q (fst s)) as [-> |Ns].
    + split; [exact Q6|]. intros I. apply Q7. apply in_or_app. now left.
    + rewrite get_W_other in Gq by auto. destruct S as (b & _ & _ & _ & D). destruct (D q Gq) as [-> |I].
      * split; [now left|]. intros I. apply Nq. eapply Permutation_in; [apply Permutation_sym; exact P|]. apply in_or_app. now left.
      * assert (Nf : ~ In q (Fv ++ X)).
        { intros J. apply Nq. eapply Permutation_in; [apply Permutation_sym; exact P|]. exact J. }
        rewrite in_app_iff in Nf. apply in_app_or in I. simpl. tauto.
Qed.

Lemma destroy_opt h c a v F f : repv h c a v F -> NoDup F -> height v <= f ->
  exists h', match c with None => Some h | Some n => destroy f a n h end = Some h' /\ length h' = length h /\
    (forall q, In q F -> get h' q = Freed) /\ (forall q, ~ In q F -> get h' q = get h q).
Proof.
  intros R N H. destruct c as [n|]; [eapply destroy_ok; eauto|].
  destruct v; simpl in R; [|destruct R as (? & ? & ? & ? & _); discriminate].
  destruct R as [_ ->]. exists h. repeat (split; auto). intros ? [].
Qed.

Lemma st_reset h V F X pi a v s f : st h V F X -> look pi V = Some (a, v) -> find h 0 pi = Some s -> height v <= f ->
  exists h' F', reset f s h = Some h' /\ length h' = length h /\ st h' (upd pi (a, Null) V) F' X /\
    rd h' s = Some {| al := a; cb := None |} /\
    (forall pi' x, look pi' V = Some x -> (prefix pi pi' = true -> pi = pi') -> find h' 0 pi' = find h 0 pi') /\
    (forall c b w G, repv h c b w G -> incl G X -> repv h' c b w G).
Proof.
  intros S L Fd Hf. destruct (st_at _ _ _ _ _ _ _ S L) as (s0 & p & Fv & Q1 & Q2 & Q3 & Q4 & Q5 & Q6 & Q7 & Q8 & Q9 & Q10).
  rewrite Fd in Q1. injection Q1 as <-. unfold reset. rewrite Q2.
  destruct (cb p) as [n|] eqn:Ec.
  - assert (NF : NoDup Fv) by (apply nodup_app in Q8; tauto).
    destruct (destroy_ok v f a n h Fv Q4 NF Hf) as (h1 & D1 & D2 & D3 & D4). rewrite Q3, D1.
    assert (Ns : ~ In (fst s) Fv) by (intro I; apply Q7, in_or_app; now left).
    assert (Rd1 : rd h1 s = Some p) by (unfold rd in *; now rewrite D4).
    rewrite Rd1, Q3. rewrite (wr_W _ _ _ _ Rd1). set (h' := W h1 s {| al := a; cb := None |}).
    destruct (rd_lt _ _ _ Q2) as (bs & Gs & Ns2).
    assert (Ch : chg h h' F Fv s {| al := a; cb := None |}).
    { split.
      - unfold h'. rewrite (get_W h1 s _ bs), (get_W h s _ bs); auto. now rewrite D4.
      - intros q I1 I2 I3. unfold h'. rewrite get_W_other by auto. now apply D4. }
    assert (Gq : forall q, q <> fst s -> get h' q = get h1 q) by (intros; now apply get_W_other).
    destruct (Q9 h' {| al := a; cb := None |} Null [] X Ch) as (F' & S').
    { now split. }
    { apply nodup_app in Q8. tauto. }
    { intros q I. left. apply in_or_app. now right. }
    { intros q Gn I. destruct (Nat.eq_dec q (fst s)) as [-> |N]; [now split|]. rewrite Gq in Gn by auto.
      assert (Iv : ~ In q Fv) by (intro J; now rewrite D3 in Gn). split; auto. rewrite D4 in Gn by auto.
      destruct S as (b & _ & _ & _ & D). destruct (D q Gn) as [-> |J]; [now left|right]. apply in_app_or in J.
      simpl in I. tauto. }
    exists h', F'. split; [reflexivity|]. split; [unfold h'; now rewrite W_length|]. split; [exact S'|].
    split; [now apply rd_W with p|]. split; [eauto|].
    intros c b w G RG IG. eapply rep_frame; eauto. intros q I. rewrite Gq, D4; auto.
    + apply nodup_app in Q8. destruct Q8 as (_ & _ & DX). intros J. now apply (DX q J), IG.
    + intros ->. apply Q7, in_or_app. right. now apply IG.
  - assert (v = Null).
    { destruct v; auto. simpl in Q4. destruct Q4 as (? & ? & ? & ? & _). discriminate. } subst v.
    exists h, F. split; auto. split; auto. split; [rewrite upd_id; auto|]. split; [|split; auto].
    rewrite Q2. destruct p; simpl in *; congruence.
Qed.

Lemma st_push h V F Fv X p v : st h V F (Fv ++ X) -> repv h (cb p) (al p) v Fv ->
  exists h', push p h = Ok tt h' /\ st h' (V ++ [(al p, v)]) (F ++ Fv) X.
Proof.
  intros (b & G & R & N & D) Rv. unfold push. rewrite G. eexists. split; [reflexivity|].
  assert (Gq : forall q, q <> 0 -> get (put h 0 (Live (with_kids b (b_kids b ++ [p])))) q = get h q) by (intros; now apply get_put_other).
  exists (with_kids b (b_kids b ++ [p])). split; [apply get_put_same; now rewrite G|].
  pose proof N as N1. apply NoDup_cons_iff in N1. destruct N1 as [Z N1]. split.
  - cbn [with_kids b_kids]. apply reps_app.
    + eapply reps_frame; eauto. intros q I. apply Gq. intros ->. apply Z, in_or_app. now left.
    + exists p, [], Fv, []. split; auto. split; auto. split.
      * eapply rep_frame; eauto. intros q I. apply Gq. intros ->. apply Z. rewrite !in_app_iff. tauto.
      * split; [split; auto|]. now rewrite app_nil_r.
  - rewrite <- app_assoc. split; auto. intros n Gn. destruct (Nat.eq_dec n 0); auto. rewrite Gq in Gn; auto.
Qed.

(** ** The operations *)
Lemma reps_nulls h h' ks : forall kids F, reps h kids ks F ->
  reps h' (map (fun p => {| al := al p; cb := None |}) kids) (nulls ks) [].
Proof.
  induction ks as [|x r IH]; intros kids F R; simpl in R.
  - destruct R as [-> _]. now split.
  - destruct R as (q & kids' & F1 & F2 & -> & E & _ & R2 & _).
    exists {| al := al q; cb := None |}, (map (fun p => {| al := al p; cb := None |}) kids'), [], [].
    split; auto. split; auto. split; [now split|]. split; eauto.
Qed.

Lemma st_move h V F pi b v s p n a : st h V F [] -> look pi V = Some (b, v) -> find h 0 pi = Some s ->
  rd h s = Some p -> cb p = Some n ->
  match move_block tr (fuel h) (fuel h) a n h with
  | Ok m h1 => exists F1 Fn t q ks, v = Node t q ks /\
      st h1 (if movable tr t then upd pi (b, Node t (moved tr q) (nulls ks)) V else V) F1 Fn /\
      repv h1 (Some m) a (if movable tr t then v else cpv v) Fn /\
      forall pi' x, look pi' V = Some x -> (prefix pi pi' = true -> pi = pi') -> find h1 0 pi' = find h 0 pi'
  | Exn h1 => exists F1, st h1 V F1 []
  | Stuck => False
  end.
Proof.
  intros S L Fd Rd Ec. pose proof (st_height _ _ _ _ _ _ _ S L) as Hf.
  destruct (st_at _ _ _ _ _ _ _ S L) as (s0 & p0 & Fv & Q1 & Q2 & Q3 & Q4 & Q5 & Q6 & Q7 & Q8 & Q9 & Q10).
  rewrite Fd in Q1. injection Q1 as <-. rewrite Rd in Q2. injection Q2 as <-. rewrite Ec in Q4.
  rewrite app_nil_r in Q7, Q8.
  destruct v as [|t q ks]; [destruct Q4; discriminate|]. pose proof Q4 as R. apply repv_node in R.
  destruct R as (n' & bk & F0 & E & EF & Gn & B1 & B2 & B3 & R). injection E as <-.
  unfold move_block. rewrite Gn, B2, B3. destruct (movable tr t) eqn:Mv.
  - destruct (oom tr (length h)); [exists F; exact S|]. set (m := length h).
    assert (Ln : n < m) by (apply get_live_lt; now rewrite Gn).
    set (B := {| b_al := a; b_ty := t; b_pay := q; b_kids := b_kids bk |}).
    set (B' := {| b_al := b_al bk; b_ty := t; b_pay := moved tr q; b_kids := map (fun p => {| al := al p; cb := None |}) (b_kids bk) |}).
    set (h1 := put (h ++ [Live B]) n (Live B')).
    assert (L0 : forall y, In y (0 :: F) -> y < m) by (intros y I; apply get_live_lt; eapply st_live; eauto).
    assert (Gm : get h1 m = Live B).
    { unfold h1. rewrite get_put_other by lia. rewrite get_app. unfold m. now rewrite Nat.eqb_refl. }
    assert (Gn1 : get h1 n = Live B').
    { unfold h1. apply get_put_same. rewrite get_app. assert (Z : n =? length h = false) by (apply Nat.eqb_neq; unfold m in *; lia).
      now rewrite Z, Gn. }
    assert (Go : forall y, y <> n -> y <> m -> get h1 y = get h y).
    { intros y Y1 Y2. unfold h1. rewrite get_put_other, get_app by auto. apply Nat.eqb_neq in Y2. unfold m in Y2. now rewrite Y2. }
    assert (N0 : NoDup (n :: F0)) by now rewrite <- EF. apply NoDup_cons_iff in N0. destruct N0 as [Zn N0].
    assert (IF : forall y, In y (n :: F0) -> In y F) by (intros y I; apply Q5; now rewrite EF).
    assert (Fm : ~ In m F0) by (intro I; assert (m < m) by (apply L0; right; apply IF; now right); lia).
    assert (Ns : fst s <> n) by (intro Z; apply Q7; rewrite EF, Z; now left).
    assert (Ls : fst s < m) by now apply L0.
    assert (Ch : chg h h1 F Fv s p).
    { split.
      - rewrite (W_id h s p Rd). apply Go; auto. lia.
      - intros y I1 I2 I3. apply Go; [intros ->; apply I2; rewrite EF; now left|]. specialize (L0 y I1). lia. }
    destruct (Q9 h1 p (Node t (moved tr q) (nulls ks)) [n] (m :: F0) Ch) as (F1 & S1).
    { apply repv_node. exists n, B', []. rewrite Q3. split; auto. split; auto. split; auto. split; [exact B1|].
      split; auto. split; auto. eapply reps_nulls; eauto. }
    { simpl. constructor; [intros [Z|Z]; [lia|contradiction]|]. constructor; auto. }
    { intros y [<-|[<-|I]].
      - left. rewrite EF. now left.
      - right. unfold m. lia.
      - left. rewrite EF. right. apply in_or_app. now left. }
    { intros y Gy I. simpl in I. assert (Y1 : y <> n) by (intros ->; tauto). assert (Y2 : y <> m) by (intros ->; tauto).
      rewrite Go in Gy by auto. destruct S as (bb & _ & _ & _ & D). destruct (D y Gy) as [-> |J].
      - split; [now left|]. rewrite EF. simpl. tauto.
      - rewrite app_nil_r in J. split; [now right|]. rewrite EF. simpl. intros [Z|Z]; [congruence|tauto]. }
    exists F1, (m :: F0), t, q, ks. split; auto. rewrite Mv. rewrite Q3 in S1. split; [exact S1|]. split; [|eauto].
    apply repv_node. exists m, B, F0. split; auto. split; auto. split; auto. split; auto. split; auto. split; auto.
    cbn [B b_kids]. eapply reps_frame; eauto. intros y I. apply Go.
    + intros ->. contradiction.
    + intros ->. contradiction.
  - pose proof (clone_ok (Node t q ks) (fuel h) (fuel h) a n h Fv b Q4 Hf Hf) as C.
    destruct (clone tr (fuel h) (fuel h) a n h) as [m h1|h1|]; simpl in C.
    + destruct C as (E1 & Fn & Rn & Fr). exists F, Fn, t, q, ks. split; auto. rewrite Mv.
      split; [eapply st_ext; eauto|]. split; [exact Rn|]. intros pi' x Lx _. eapply find_ext; eauto.
    + destruct C as (E1 & Fr). exists F. eapply st_ext; eauto.
    + exact C.
Qed.

Lemma st_exchange h V F pi1 pi2 a v b w s1 s2 p1 p2 : st h V F [] -> look pi1 V = Some (a, v) -> look pi2 V = Some (b, w) ->
  apart pi1 pi2 = true -> find h 0 pi1 = Some s1 -> find h 0 pi2 = Some s2 -> rd h s1 = Some p1 -> rd h s2 = Some p2 ->
  al p1 = a /\ al p2 = b /\ s1 <> s2 /\
  exists F', st (W (W h s1 p2) s2 p1) (upd pi1 (b, w) (upd pi2 (a, v) V)) F' [] /\
    find (W (W h s1 p2) s2 p1) 0 pi1 = Some s1 /\ find (W (W h s1 p2) s2 p1) 0 pi2 = Some s2.
Proof.
  intros S L1 L2 Ap F1 F2 R1 R2.
  assert (Ap' : apart pi2 pi1 = true) by (rewrite apart_sym; exact Ap).
  assert (Np : pi1 <> pi2).
  { intros ->. unfold apart in Ap. assert (P : forall l, prefix l l = true) by (induction l; simpl; auto; now rewrite Nat.eqb_refl).
    rewrite P in Ap. discriminate. }
  pose proof (find_neq _ _ _ _ _ _ _ _ _ _ S L1 L2 F1 F2 Np) as Ns.
  destruct (st_at _ _ _ _ _ _ _ S L1) as (z & zp & G1 & A1 & A2 & A3 & A4 & A5 & A6 & A7 & _).
  rewrite F1 in A1. injection A1 as <-. rewrite R1 in A2. injection A2 as <-.
  destruct (st_at _ _ _ _ _ _ _ S L2) as (z & zp & G2 & B1 & B2 & B3 & B4 & B5 & B6 & B7 & _).
  rewrite F2 in B1. injection B1 as <-. rewrite R2 in B2. injection B2 as <-.
  split; auto. split; auto. split; auto.
  (* detach at the second *)
  destruct (st_write h V F [] pi2 b w s2 p2 {| al := b; cb := None |} Null G2 [] G2 S L2 F2 R2 B4)
    as ((K1 & S1) & T1 & U1 & _); [now split|simpl; now rewrite app_nil_r|].
  set (h1 := W h s2 {| al := b; cb := None |}) in *. cbn [al] in S1.
  set (V1 := upd pi2 (b, Null) V) in *.
  assert (L1' : look pi1 V1 = Some (a, v)) by (unfold V1; now rewrite look_upd_apart).
  assert (L2' : look pi2 V1 = Some (b, Null)) by (unfold V1; now apply look_upd_same with (b, w)).
  assert (P21 : prefix pi2 pi1 = true -> pi2 = pi1) by (intro; now apply apart_prefix).
  assert (P12 : prefix pi1 pi2 = true -> pi1 = pi2) by (intro; now apply apart_prefix).
  assert (F1' : find h1 0 pi1 = Some s1) by (rewrite <- F1; eapply T1; eauto).
  assert (F2' : find h1 0 pi2 = Some s2) by (rewrite <- F2; eapply T1; eauto).
  assert (R1' : rd h1 s1 = Some p1) by (unfold h1; rewrite rd_W_other; auto).
  assert (R2' : rd h1 s2 = Some {| al := b; cb := None |}) by (unfold h1; eapply rd_W; eauto).
  assert (B4' : repv h1 (cb p2) b w G2).
  { apply U1; auto. intros I. apply B7, in_or_app. now left. }
  destruct (st_at _ _ _ _ _ _ _ S1 L1') as (z & zp & G1' & D1 & D2 & D3 & D4 & D5 & D6 & D7 & _).
  rewrite F1' in D1. injection D1 as <-. rewrite R1' in D2. injection D2 as <-.
  (* the second's at the first *)
  destruct (st_write h1 V1 K1 G2 pi1 a v s1 p1 p2 w G1' G2 G1' S1 L1' F1' R1' D4)
    as ((K2 & S2) & T2 & U2 & _).
  { now rewrite B3. }
  { apply Permutation_app_comm. }
  set (h2 := W h1 s1 p2) in *. rewrite B3 in S2. set (V2 := upd pi1 (b, w) V1) in *.
  assert (L2'' : look pi2 V2 = Some (b, Null)) by (unfold V2; rewrite look_upd_apart; auto).
  assert (L1'' : look pi1 V2 = Some (b, w)) by (unfold V2; now apply look_upd_same with (a, v)).
  assert (F2'' : find h2 0 pi2 = Some s2) by (rewrite <- F2'; eapply T2; eauto).
  assert (F1'' : find h2 0 pi1 = Some s1) by (rewrite <- F1'; eapply T2; eauto).
  assert (R2'' : rd h2 s2 = Some {| al := b; cb := None |}) by (unfold h2; rewrite rd_W_other; auto).
  assert (D4' : repv h2 (cb p1) a v G1').
  { apply U2; auto. intros I. apply D7, in_or_app. now left. }
  destruct (st_write h2 V2 K2 G1' pi2 b Null s2 {| al := b; cb := None |} p1 v [] G1' [] S2 L2'' F2'' R2'')
    as ((K3 & S3) & T3 & U3 & _).
  { now split. }
  { now rewrite A3. }
  { simpl. now rewrite app_nil_r. }
  assert (EH : W h2 s2 p1 = W (W h s1 p2) s2 p1).
  { unfold h2, h1. rewrite (W_comm h s2 _ s1) by auto. now rewrite W_W. }
  exists K3. rewrite <- EH. split.
  - rewrite A3 in S3. replace (upd pi1 (b, w) (upd pi2 (a, v) V)) with (upd pi2 (a, v) V2); auto.
    unfold V2, V1. rewrite (upd_comm pi1 pi2) by auto. rewrite upd_upd. apply upd_comm. exact Ap'.
  - split.
    + rewrite <- F1''. eapply T3; eauto.
    + rewrite <- F2''. eapply T3; eauto.
Qed.

(** What an operation may do: carry the values from [V] to [V'], or throw and leave [V]. *)
Definition outcome (V V' : slots) (r : res unit) : Prop :=
  match r with
  | Ok _ h' => good h' V'
  | Exn h' => good h' V
  | Stuck => False
  end.

Lemma finds_ok h V F X l : forall ks, st h V F X -> looks l V = Some ks ->
  exists ps G, finds h l = Some ps /\ reps h ps ks G /\ heights ks <= fuel h.
Proof.
  induction l as [|pi l IH]; intros ks S E; simpl in E.
  - injection E as <-. exists [], []. split; auto. split; [now split|]. unfold heights. simpl. lia.
  - destruct (look pi V) as [[a v]|] eqn:L; [|discriminate]. destruct (looks l V) as [xs|]; [|discriminate].
    injection E as <-. destruct (IH xs S eq_refl) as (ps & G & I1 & I2 & I3).
    pose proof (st_height _ _ _ _ _ _ _ S L) as Hf.
    destruct (st_at _ _ _ _ _ _ _ S L) as (s & p & Fv & Q1 & Q2 & Q3 & Q4 & _).
    exists (p :: ps), (Fv ++ G). simpl. rewrite Q1, Q2, I1. split; auto. split.
    + exists p, ps, Fv, G. repeat (split; auto).
    + unfold heights in *. simpl. lia.
Qed.

Lemma new_ok h V V' a t p args : good h V -> sstep (New None a t p args) V = Some V' ->
  outcome V V' (step tr (New None a t p args) h).
Proof.
  intros Gd E. apply good_st in Gd. destruct Gd as (F & S). simpl in E.
  destruct (looks args V) as [ks|] eqn:Lk; [|discriminate]. injection E as <-.
  destruct (finds_ok h V F [] args ks S Lk) as (ps & G & I1 & I2 & I3). cbn [step]. rewrite I1.
  assert (Hk : forall x, In x ks -> height (snd x) <= fuel h).
  { intros x I. eapply Nat.le_trans; [|exact I3]. clear - I. unfold heights. induction ks as [|y ks IHk]; simpl in *; [tauto|].
    destruct I as [-> |I]; [lia|]. specialize (IHk I). lia. }
  pose proof (build_ok (clone tr (fuel h) (fuel h)) (fuel h) ks a t p ps h G I2 I3) as B.
  assert (C : forall x n h' F' b, In x ks -> repv h' (Some n) (fst x) (snd x) F' ->
    cloned h' b (cpv (snd x)) (clone tr (fuel h) (fuel h) b n h')).
  { intros x n h' F' b I R. eapply clone_ok; eauto. }
  specialize (B C). destruct (build tr (clone tr (fuel h) (fuel h)) (fuel h) a t p ps h) as [m h1|h1|]; unfold cloned in B; cbv beta iota.
  - destruct B as (E1 & Fn & Rn & Fr). pose proof (st_ext _ _ _ _ _ S E1 Fr) as S1. rewrite <- (app_nil_r Fn) in S1.
    destruct (st_push h1 V F Fn [] {| al := a; cb := Some m |} _ S1 Rn) as (h2 & P1 & P2). rewrite P1. simpl.
    apply good_st. eauto.
  - destruct B as (E1 & Fr). apply good_st. exists F. eapply st_ext; eauto.
  - exact B.
Qed.

Lemma copy_ctor_ok h V V' oa s : good h V -> sstep (CopyCtor oa s) V = Some V' ->
  outcome V V' (step tr (CopyCtor oa s) h).
Proof.
  intros Gd E. apply good_st in Gd. destruct Gd as (F & S). simpl in E.
  destruct (look s V) as [[a v]|] eqn:L; [|discriminate]. injection E as <-.
  pose proof (st_height _ _ _ _ _ _ _ S L) as Hf.
  destruct (st_at _ _ _ _ _ _ _ S L) as (sl & p & Fv & Q1 & Q2 & Q3 & Q4 & _). cbn [step]. rewrite Q1, Q2, Q3.
  set (a' := match oa with Some b => b | None => socc tr a end). unfold copy_ctor. destruct (cb p) as [n|] eqn:Ec.
  - pose proof (clone_ok v (fuel h) (fuel h) a' n h Fv a Q4 Hf Hf) as C.
    destruct (clone tr (fuel h) (fuel h) a' n h) as [m h1|h1|]; unfold cloned in C; cbv beta iota.
    + destruct C as (E1 & Fn & Rn & Fr). pose proof (st_ext _ _ _ _ _ S E1 Fr) as S1. rewrite <- (app_nil_r Fn) in S1.
      destruct (st_push h1 V F Fn [] {| al := a'; cb := Some m |} _ S1 Rn) as (h2 & P1 & P2). rewrite P1. simpl.
      apply good_st. eauto.
    + destruct C as (E1 & Fr). apply good_st. exists F. eapply st_ext; eauto.
    + exact C.
  - assert (v = Null).
    { destruct v; auto. simpl in Q4. destruct Q4 as (? & ? & ? & ? & _). discriminate. } subst v.
    destruct (st_push h V F [] [] {| al := a'; cb := None |} Null S) as (h2 & P1 & P2); [now split|]. rewrite P1. simpl.
    apply good_st. eauto.
Qed.

Lemma move_ctor_ok h V V' oa s : good h V -> sstep (MoveCtor oa s) V = Some V' ->
  outcome V V' (step tr (MoveCtor oa s) h).
Proof.
  intros Gd E. apply good_st in Gd. destruct Gd as (F & S). simpl in E.
  destruct (look s V) as [[a v]|] eqn:L; [|discriminate].
  destruct (st_at _ _ _ _ _ _ _ S L) as (sl & p & Fv & Q1 & Q2 & Q3 & Q4 & _). cbn [step]. rewrite Q1, Q2, Q3.
  set (b := match oa with Some b => b | None => a end) in *. destruct (b =? a) eqn:Eb.
  - rewrite orb_true_r. injection E as <-. unfold set_cb. rewrite Q2, (wr_W _ _ _ _ Q2), Q3. apply Nat.eqb_eq in Eb.
    destruct (st_write h V F [] s a v sl p {| al := a; cb := None |} Null Fv [] Fv S L Q1 Q2 Q4)
      as ((K1 & S1) & T1 & U1 & N1); [now split|simpl; now rewrite app_nil_r|].
    cbn [al] in S1. rewrite <- (app_nil_r Fv) in S1.
    destruct (st_push _ _ _ Fv [] {| al := b; cb := cb p |} v S1) as (h2 & P1 & P2).
    { cbn [al cb]. rewrite Eb. apply U1; auto. now rewrite app_nil_r in N1. }
    rewrite P1. simpl. apply good_st. eauto.
  - rewrite orb_false_r. destruct (pocca tr); [discriminate|].
    destruct (cb p) as [n|] eqn:Ec.
    + pose proof (st_move h V F s a v sl p n b S L Q1 Q2 Ec) as M.
      destruct (move_block tr (fuel h) (fuel h) b n h) as [m h1|h1|]; cbv beta iota.
      * destruct M as (F1 & Fn & t & q & ks & -> & S1 & R1 & _). rewrite <- (app_nil_r Fn) in S1.
        destruct (st_push _ _ _ Fn [] {| al := b; cb := Some m |} _ S1 R1) as (h2 & P1 & P2). rewrite P1. simpl.
        apply good_st. exists (F1 ++ Fn). cbn [al] in P2. destruct (movable tr t); injection E as <-; exact P2.
      * destruct M as (F1 & S1). apply good_st. eauto.
      * exact M.
    + assert (v = Null).
      { destruct v; auto. simpl in Q4. destruct Q4 as (? & ? & ? & ? & _). discriminate. } subst v. injection E as <-.
      destruct (st_push h V F [] [] {| al := b; cb := None |} Null S) as (h2 & P1 & P2); [now split|]. rewrite P1. simpl.
      apply good_st. eauto.
Qed.

Lemma eqs_neq s1 s2 : s1 <> s2 -> eqs s1 s2 = false.
Proof.
  intros N. unfold eqs. destruct s1 as [a b], s2 as [c d]. cbn [fst snd].
  destruct (a =? c) eqn:E1; auto. destruct (b =? d) eqn:E2; auto. apply Nat.eqb_eq in E1, E2. congruence.
Qed.
Lemma eqs_refl s : eqs s s = true.
Proof. unfold eqs. now rewrite !Nat.eqb_refl. Qed.

(** reset, then a new block put in; the last step of both assignments *)
Lemma st_replace h1 V F Fn d a w sd tmp a' v' fu :
  st h1 V F Fn -> look d V = Some (a, w) -> find h1 0 d = Some sd -> height w <= fu ->
  repv h1 (Some tmp) a' v' Fn ->
  exists h2 F2, bind (reset fu sd h1) (set_cb sd (Some tmp)) = Some h2 /\ rd h2 sd = Some {| al := a; cb := Some tmp |} /\
    (st (W h2 sd {| al := a'; cb := Some tmp |}) (upd d (a', v') V) F2 []) /\
    (forall pi x, look pi V = Some x -> prefix d pi = false ->
       exists s q, find h1 0 pi = Some s /\ rd h2 s = Some q /\ al q = fst x).
Proof.
  intros S L Fd Hf Rn. destruct (st_reset h1 V F Fn d a w sd fu S L Fd Hf) as (h' & F' & Q1 & Q2 & Q3 & Q4 & Q5 & Q6).
  rewrite Q1. simpl. unfold set_cb. rewrite Q4, (wr_W _ _ _ _ Q4). cbn [al].
  assert (L' : look d (upd d (a, Null) V) = Some (a, Null)) by now apply look_upd_same with (a, w).
  assert (Fd' : find h' 0 d = Some sd) by (rewrite <- Fd; eapply Q5; eauto).
  destruct (st_write h' _ F' Fn d a Null sd {| al := a; cb := None |} {| al := a'; cb := Some tmp |} v' [] Fn [] Q3 L' Fd' Q4)
    as ((F2 & S2) & T2 & U2 & _).
  { now split. }
  { cbn [al cb]. apply Q6; auto. apply incl_refl. }
  { simpl. now rewrite app_nil_r. }
  cbn [al] in S2. rewrite upd_upd in S2.
  exists (W h' sd {| al := a; cb := Some tmp |}), F2. split; [reflexivity|]. split; [eapply rd_W; eauto|].
  split; [rewrite W_W; exact S2|].
  intros pi [b v] Lp Pf. assert (Np : d <> pi).
  { intros ->. clear - Pf. induction pi; simpl in Pf; [discriminate|]. rewrite Nat.eqb_refl in Pf. auto. }
  destruct (st_at _ _ _ _ _ _ _ S Lp) as (s & ps & Fv & A1 & A2 & A3 & _).
  assert (Ns : sd <> s) by (exact (find_neq _ _ _ _ _ _ _ _ _ _ S L Lp Fd A1 Np)).
  destruct (look_upd_al pi d V (a, Null) b v Pf Lp) as (w' & Lw).
  destruct (st_at _ _ _ _ _ _ _ Q3 Lw) as (s' & ps' & Fv' & B1 & B2 & B3 & _).
  assert (Es : find h' 0 pi = find h1 0 pi) by (eapply Q5; [exact Lp|]; intro; congruence).
  rewrite Es, A1 in B1. injection B1 as <-.
  exists s, ps'. split; auto. split; [rewrite rd_W_other; auto|exact B3].
Qed.
(** reset alone *)
Lemma st_clear h V F d a w sd : st h V F [] -> look d V = Some (a, w) -> find h 0 d = Some sd ->
  exists h2 F2, reset (fuel h) sd h = Some h2 /\ rd h2 sd = Some {| al := a; cb := None |} /\
    (forall a', exists F3, st (W h2 sd {| al := a'; cb := None |}) (upd d (a', Null) V) F3 []) /\
    st h2 (upd d (a, Null) V) F2 [] /\
    (forall pi x, look pi V = Some x -> prefix d pi = false ->
       exists s q, find h 0 pi = Some s /\ rd h2 s = Some q /\ al q = fst x).
Proof.
  intros S L Fd. pose proof (st_height _ _ _ _ _ _ _ S L) as Hf.
  destruct (st_reset h V F [] d a w sd (fuel h) S L Fd Hf) as (h' & F' & Q1 & Q2 & Q3 & Q4 & Q5 & Q6).
  exists h', F'. split; auto. split; auto. split; [|split; auto].
  - intros a'. assert (L' : look d (upd d (a, Null) V) = Some (a, Null)) by now apply look_upd_same with (a, w).
    assert (Fd' : find h' 0 d = Some sd) by (rewrite <- Fd; eapply Q5; eauto).
    destruct (st_write h' _ F' [] d a Null sd {| al := a; cb := None |} {| al := a'; cb := None |} Null [] [] [] Q3 L' Fd' Q4)
      as ((F2 & S2) & _); [now split|now split|auto|]. cbn [al] in S2. rewrite upd_upd in S2. eauto.
  - intros pi [b v] Lp Pf. assert (Np : d <> pi).
    { intros ->. clear - Pf. induction pi; simpl in Pf; [discriminate|]. rewrite Nat.eqb_refl in Pf. auto. }
    destruct (st_at _ _ _ _ _ _ _ S Lp) as (s & ps & Fv & A1 & A2 & A3 & _).
    destruct (look_upd_al pi d V (a, Null) b v Pf Lp) as (w' & Lw).
    destruct (st_at _ _ _ _ _ _ _ Q3 Lw) as (s' & ps' & Fv' & B1 & B2 & B3 & _).
    assert (Es : find h' 0 pi = find h 0 pi) by (eapply Q5; [exact Lp|]; intro; congruence).
    rewrite Es, A1 in B1. injection B1 as <-. exists s, ps'. auto.
Qed.

Lemma eqp_neq p q : eqp p q = false -> p <> q.
Proof. intros E N. apply eqp_eq in N. congruence. Qed.
Lemma null_cb h p a v F : repv h (cb p) a v F -> cb p = None -> v = Null.
Proof. intros R E. destruct v; auto. simpl in R. destruct R as (? & ? & ? & Q & _). congruence. Qed.

Lemma copy_assign_ok h V V' d s : good h V -> sstep (CopyAssign d s) V = Some V' ->
  outcome V V' (step tr (CopyAssign d s) h).
Proof.
  intros Gd E. apply good_st in Gd. destruct Gd as (F & S). simpl in E.
  destruct (look d V) as [[a w]|] eqn:Ld; [|discriminate]. destruct (look s V) as [[b v]|] eqn:Ls; [|discriminate].
  destruct (st_at _ _ _ _ _ _ _ S Ld) as (sd & pd & Fw & A1 & A2 & A3 & A4 & _).
  destruct (st_at _ _ _ _ _ _ _ S Ls) as (ss & ps & Fv & B1 & B2 & B3 & B4 & _).
  cbn [step]. rewrite A1, B1. unfold copy_assign. destruct (eqp d s) eqn:Ep.
  - apply eqp_eq in Ep. subst s. rewrite A1 in B1. injection B1 as <-. rewrite eqs_refl. injection E as <-.
    simpl. apply good_st. eauto.
  - apply eqp_neq in Ep. pose proof (find_neq _ _ _ _ _ _ _ _ _ _ S Ld Ls A1 B1 Ep) as Ns.
    rewrite (eqs_neq _ _ Ns), A2, B2. destruct (pocca tr && prefix d s) eqn:Pp; [discriminate|]. injection E as <-.
    destruct (cb ps) as [n|] eqn:Ec.
    + pose proof (st_height _ _ _ _ _ _ _ S Ls) as Hs. pose proof (st_height _ _ _ _ _ _ _ S Ld) as Hd.
      rewrite A3, B3. set (a' := if pocca tr then b else a).
      pose proof (clone_ok v (fuel h) (fuel h) a' n h Fv b B4 Hs Hs) as C.
      destruct (clone tr (fuel h) (fuel h) a' n h) as [tmp h1|h1|]; unfold cloned in C; cbv beta iota.
      * destruct C as (E1 & Fn & Rn & Fr). pose proof (st_ext _ _ _ _ _ S E1 Fr) as S1.
        assert (A1' : find h1 0 d = Some sd) by (rewrite <- A1; eapply find_ext; eauto).
        destruct (st_replace h1 V F Fn d a w sd tmp a' (cpv v) (fuel h) S1 Ld A1' Hd Rn) as (h2 & F2 & C1 & C2 & C3 & C4).
        rewrite C1. unfold a' in *. destruct (pocca tr).
        { simpl in Pp. destruct (C4 s (b, v) Ls Pp) as (s0 & q & D1 & D2 & D3).
          rewrite (find_ext _ _ _ _ _ _ _ S E1 Ls), B1 in D1. injection D1 as <-. unfold bind. rewrite D2, D3. cbn [fst].
          unfold set_al. rewrite C2, (wr_W _ _ _ _ C2). cbn [cb]. simpl. apply good_st. eauto. }
        { simpl. apply good_st. exists F2. rewrite (W_id _ _ _ C2) in C3. exact C3. }
      * destruct C as (E1 & Fr). simpl. apply good_st. exists F. eapply st_ext; eauto.
      * exact C.
    + pose proof (B4) as B5. rewrite <- Ec in B5. pose proof (null_cb _ _ _ _ _ B5 Ec) as ->.
      destruct (st_clear h V F d a w sd S Ld A1) as (h2 & F2 & C1 & C2 & C3 & C4 & C5). rewrite C1.
      destruct (pocca tr).
      * simpl in Pp. destruct (C5 s (b, Null) Ls Pp) as (s0 & q & D1 & D2 & D3).
        rewrite B1 in D1. injection D1 as <-. unfold bind. rewrite D2, D3. cbn [fst].
        unfold set_al. rewrite C2, (wr_W _ _ _ _ C2). cbn [cb]. simpl. apply good_st. apply C3.
      * simpl. apply good_st. eauto.
Qed.

Lemma apart_npre p q : apart p q = true -> prefix p q = false /\ prefix q p = false.
Proof. unfold apart. intros E. apply andb_prop in E. destruct E as [A B]. now apply negb_true_iff in A, B. Qed.

Lemma move_assign_ok h V V' d s : good h V -> sstep (MoveAssign d s) V = Some V' ->
  outcome V V' (step tr (MoveAssign d s) h).
Proof.
  intros Gd E. apply good_st in Gd. destruct Gd as (F & S). simpl in E.
  destruct (look d V) as [[a w]|] eqn:Ld; [|discriminate]. destruct (look s V) as [[b v]|] eqn:Ls; [|discriminate].
  destruct (st_at _ _ _ _ _ _ _ S Ld) as (sd & pd & Fw & A1 & A2 & A3 & A4 & _).
  destruct (st_at _ _ _ _ _ _ _ S Ls) as (ss & ps & Fv & B1 & B2 & B3 & B4 & _).
  cbn [step]. rewrite A1, B1. unfold move_assign. destruct (eqp d s) eqn:Ep.
  - apply eqp_eq in Ep. subst s. rewrite A1 in B1. injection B1 as <-. rewrite eqs_refl. injection E as <-.
    simpl. apply good_st. eauto.
  - apply eqp_neq in Ep. pose proof (find_neq _ _ _ _ _ _ _ _ _ _ S Ld Ls A1 B1 Ep) as Ns.
    rewrite (eqs_neq _ _ Ns), A2, B2. destruct (apart d s) eqn:Ap; [|discriminate]. cbn [negb] in E.
    destruct (apart_npre _ _ Ap) as [Pds Psd].
    destruct (cb ps) as [n|] eqn:Ec.
    + destruct v as [|t q ks]; [destruct B4; discriminate|]. rewrite A3, B3. destruct (a =? b) eqn:Eab.
      * apply Nat.eqb_eq in Eab. subst b. injection E as <-.
        destruct (st_exchange h V F d s a w a (Node t q ks) sd ss pd ps S Ld Ls Ap A1 B1 A2 B2) as (_ & _ & _ & F1 & S1 & X1 & X2).
        assert (E1 : bind (set_cb sd (Some n) h) (set_cb ss (cb pd)) = Some (W (W h sd ps) ss pd)).
        { unfold set_cb. rewrite A2, (wr_W _ _ _ _ A2). simpl. rewrite rd_W_other by auto. rewrite B2.
          assert (Z : rd (W h sd {| al := al pd; cb := Some n |}) ss = Some ps) by (rewrite rd_W_other; auto).
          rewrite (wr_W _ _ _ _ Z). do 2 f_equal.
          - f_equal. destruct ps as [x y]. cbn [al cb] in *. congruence.
          - destruct pd as [x y]. cbn [al cb] in *. congruence. }
        set (V1 := upd d (a, Node t q ks) (upd s (a, w) V)) in *. set (h1 := W (W h sd ps) ss pd) in *.
        assert (Ls1 : look s V1 = Some (a, w)).
        { unfold V1. rewrite look_upd_apart by (now rewrite apart_sym). eapply look_upd_same; eauto. }
        assert (Ld1 : look d V1 = Some (a, Node t q ks)).
        { unfold V1. apply look_upd_same with (a, w). rewrite look_upd_apart; auto. }
        assert (Hw : height w <= fuel h) by (eapply st_height; eauto).
        destruct (st_reset h1 V1 F1 [] s a w ss (fuel h) S1 Ls1 X2 Hw) as (h2 & F2 & Q1 & Q2 & Q3 & Q4 & Q5 & Q6).
        unfold bind at 1. rewrite E1, Q1.
        assert (EV : upd s (a, Null) V1 = upd d (a, Node t q ks) (upd s (a, Null) V)).
        { unfold V1. rewrite (upd_comm s d) by (now rewrite apart_sym). now rewrite upd_upd. }
        rewrite EV in Q3. destruct (pocma tr); [|simpl; apply good_st; eauto].
        unfold bind. rewrite Q4. cbn [al].
        assert (Fd2 : find h2 0 d = Some sd) by (rewrite <- X1; eapply Q5; eauto; congruence).
        assert (Ld2 : look d (upd d (a, Node t q ks) (upd s (a, Null) V)) = Some (a, Node t q ks)).
        { apply look_upd_same with (a, w). rewrite look_upd_apart; auto. }
        destruct (st_at _ _ _ _ _ _ _ Q3 Ld2) as (z & pz & Fz & Z1 & Z2 & Z3 & _). rewrite Fd2 in Z1. injection Z1 as <-.
        unfold set_al. rewrite Z2, (wr_W _ _ _ _ Z2). rewrite W_id; [simpl; apply good_st; eauto|].
        rewrite Z2. f_equal. destruct pz as [x y]. cbn [al cb] in *. congruence.
      * destruct (pocma tr); [discriminate|].
        pose proof (st_move h V F s b (Node t q ks) ss ps n a S Ls B1 B2 Ec) as M.
        destruct (move_block tr (fuel h) (fuel h) a n h) as [tmp h1|h1|]; cbv beta iota.
        { destruct M as (F1 & Fn & t0 & q0 & ks0 & Ev & S1 & R1 & T1). injection Ev as <- <- <-.
          set (V1 := if movable tr t then upd s (b, Node t (moved tr q) (nulls ks)) V else V) in *.
          assert (Ld1 : look d V1 = Some (a, w)) by (unfold V1; destruct (movable tr t); auto; rewrite look_upd_apart; auto).
          assert (Fd1 : find h1 0 d = Some sd) by (rewrite <- A1; eapply T1; eauto; congruence).
          assert (Hw : height w <= fuel h) by (eapply st_height; eauto).
          destruct (st_replace h1 V1 F1 Fn d a w sd tmp a _ (fuel h) S1 Ld1 Fd1 Hw R1) as (h2 & F2 & C1 & C2 & C3 & C4).
          rewrite C1. simpl. apply good_st. exists F2. rewrite (W_id _ _ _ C2) in C3. unfold V1 in *.
          destruct (movable tr t); injection E as <-; exact C3. }
        { simpl. destruct M as (F1 & S1). apply good_st. eauto. }
        { exact M. }
    + pose proof (B4) as B5. rewrite <- Ec in B5. pose proof (null_cb _ _ _ _ _ B5 Ec) as ->. injection E as <-.
      destruct (st_clear h V F d a w sd S Ld A1) as (h2 & F2 & C1 & C2 & C3 & C4 & C5). rewrite C1.
      destruct (pocma tr).
      * destruct (C5 s (b, Null) Ls Pds) as (s0 & q & D1 & D2 & D3).
        rewrite B1 in D1. injection D1 as <-. unfold bind. rewrite D2, D3. cbn [fst].
        unfold set_al. rewrite C2, (wr_W _ _ _ _ C2). cbn [cb]. simpl. apply good_st. apply C3.
      * simpl. apply good_st. eauto.
Qed.

Lemma poly_eta (p : poly) : {| al := al p; cb := cb p |} = p.
Proof. now destruct p. Qed.
Lemma set_al_W (h : heap) sl p a : rd h sl = Some p -> set_al sl a h = Some (W h sl {| al := a; cb := cb p |}).
Proof. intros R. unfold set_al. rewrite R. now rewrite (wr_W _ _ _ _ R). Qed.
Lemma set_cb_W (h : heap) sl p c : rd h sl = Some p -> set_cb sl c h = Some (W h sl {| al := al p; cb := c |}).
Proof. intros R. unfold set_cb. rewrite R. now rewrite (wr_W _ _ _ _ R). Qed.
Lemma swap_same sl p h : rd h sl = Some p -> swap tr sl sl h = Ok tt h.
Proof.
  intros R. unfold swap. rewrite R. rewrite Nat.eqb_refl. unfold set_al, set_cb.
  assert (I : wr h sl {| al := al p; cb := cb p |} = Some h) by (now rewrite poly_eta, (wr_W _ _ _ _ R), (W_id _ _ _ R)).
  rewrite R, I. unfold bind. rewrite ?R, ?I. rewrite ?R, ?I. rewrite ?R, ?I. rewrite ?R, ?I. destruct (pocs tr); reflexivity.
Qed.

Lemma swap_ok h V V' d s : good h V -> sstep (Swap d s) V = Some V' -> outcome V V' (step tr (Swap d s) h).
Proof.
  intros Gd E. apply good_st in Gd. destruct Gd as (F & S). simpl in E.
  destruct (look d V) as [[a w]|] eqn:Ld; [|discriminate]. destruct (look s V) as [[b v]|] eqn:Ls; [|discriminate].
  destruct (st_at _ _ _ _ _ _ _ S Ld) as (sd & pd & Fw & A1 & A2 & A3 & A4 & _).
  destruct (st_at _ _ _ _ _ _ _ S Ls) as (ss & ps & Fv & B1 & B2 & B3 & B4 & _).
  cbn [step]. rewrite A1, B1. destruct (eqp d s) eqn:Ep.
  - apply eqp_eq in Ep. subst s. rewrite A1 in B1. injection B1 as <-. injection E as <-.
    rewrite (swap_same sd pd h A2). simpl. apply good_st. eauto.
  - destruct (apart d s) eqn:Ap; [|discriminate]. cbn [negb] in E.
    destruct (st_exchange h V F d s a w b v sd ss pd ps S Ld Ls Ap A1 B1 A2 B2) as (_ & _ & Ns & F1 & S1 & _).
    unfold swap. rewrite A2, B2. destruct (pocs tr).
    + injection E as <-. rewrite (set_al_W _ _ _ _ A2). unfold bind.
      assert (Z1 : rd (W h sd {| al := al ps; cb := cb pd |}) ss = Some ps) by (rewrite rd_W_other; auto).
      rewrite (set_al_W _ _ _ _ Z1).
      assert (Z2 : rd (W (W h sd {| al := al ps; cb := cb pd |}) ss {| al := al pd; cb := cb ps |}) sd = Some {| al := al ps; cb := cb pd |}).
      { rewrite rd_W_other by auto. eapply rd_W; eauto. }
      rewrite (set_cb_W _ _ _ _ Z2). cbn [al].
      assert (Z3 : rd (W (W (W h sd {| al := al ps; cb := cb pd |}) ss {| al := al pd; cb := cb ps |}) sd {| al := al ps; cb := cb ps |}) ss
                   = Some {| al := al pd; cb := cb ps |}).
      { rewrite rd_W_other by auto. eapply rd_W; eauto. }
      rewrite (set_cb_W _ _ _ _ Z3). cbn [al]. rewrite !poly_eta. simpl. apply good_st. exists F1.
      rewrite (W_comm _ ss _ sd) by auto. now rewrite !W_W.
    + rewrite A3, B3. destruct (a =? b) eqn:Eab; [|discriminate]. apply Nat.eqb_eq in Eab. subst b. injection E as <-.
      rewrite (set_cb_W _ _ _ _ A2). unfold bind.
      assert (Z1 : rd (W h sd {| al := al pd; cb := cb ps |}) ss = Some ps) by (rewrite rd_W_other; auto).
      rewrite (set_cb_W _ _ _ _ Z1). rewrite A3, B3. replace {| al := a; cb := cb ps |} with ps.
      * replace {| al := a; cb := cb pd |} with pd.
        { simpl. apply good_st. eauto. }
        destruct pd; simpl in *; congruence.
      * destruct ps; simpl in *; congruence.
Qed.

Lemma poke_ok h V V' s q : good h V -> sstep (Poke s q) V = Some V' -> outcome V V' (step tr (Poke s q) h).
Proof.
  intros Gd E. apply good_st in Gd. destruct Gd as (F & S). simpl in E.
  destruct (look s V) as [[a v]|] eqn:L; [|discriminate]. destruct v as [|t p0 ks]; [discriminate|]. injection E as <-.
  destruct (st_at _ _ _ _ _ _ _ S L) as (sl & p & Fv & Q1 & Q2 & Q3 & Q4 & Q5 & Q6 & Q7 & Q8 & Q9 & _).
  cbn [step]. rewrite Q1, Q2. pose proof Q4 as R. apply repv_node in R.
  destruct R as (n & bk & F0 & Ec & EF & Gn & B1 & B2 & B3 & R). rewrite Ec, Gn. simpl.
  set (h' := put h n _). rewrite app_nil_r in *.
  assert (N0 : NoDup (n :: F0)) by now rewrite <- EF. apply NoDup_cons_iff in N0. destruct N0 as [Zn N0].
  assert (Go : forall y, y <> n -> get h' y = get h y) by (intros; now apply get_put_other).
  destruct (Q9 h' p (Node t q ks) Fv []) as (F' & S').
  - split.
    + rewrite (W_id _ _ _ Q2). apply Go. intros Z. apply Q7. rewrite Z, EF. now left.
    + intros y I1 I2 _. apply Go. intros ->. apply I2. rewrite EF. now left.
  - apply repv_node. eexists n, _, F0. split; [exact Ec|]. split; [exact EF|]. split; [apply get_put_same; now rewrite Gn|].
    cbn [b_al b_ty b_pay b_kids]. split; [congruence|]. split; auto. split; auto.
    eapply reps_frame; eauto. intros y I. apply Go. intros ->. contradiction.
  - now rewrite app_nil_r.
  - intros y I. left. rewrite app_nil_r in *. exact I.
  - rewrite app_nil_r. intros y Gy I. rewrite Go in Gy by (intros ->; apply I; rewrite EF; now left).
    destruct S as (bb & _ & _ & _ & D). destruct (D y Gy) as [-> |J]; [split; auto; now left|].
    rewrite app_nil_r in J. split; auto. now right.
  - apply good_st. rewrite Q3 in S'. eauto.
Qed.

Lemma reps_app_inv h l1 : forall l2 kids F, reps h kids (l1 ++ l2) F ->
  exists F1 F2, reps h (firstn (length l1) kids) l1 F1 /\ reps h (skipn (length l1) kids) l2 F2 /\ F = F1 ++ F2.
Proof.
  induction l1 as [|x l1 IH]; intros l2 kids F R; simpl in R.
  - exists [], F. simpl. auto.
  - destruct R as (q & kids' & F1 & F2 & -> & E & R1 & R2 & ->). destruct (IH l2 kids' F2 R2) as (G1 & G2 & I1 & I2 & ->).
    exists (F1 ++ G1), G2. simpl. split; [|split; auto; now rewrite app_assoc].
    exists q, (firstn (length l1) kids'), F1, G1. auto.
Qed.

Lemma pop_ok h V V' : good h V -> sstep Pop V = Some V' -> outcome V V' (step tr Pop h).
Proof.
  intros Gd E. apply good_st in Gd. destruct Gd as (F & S). simpl in E.
  destruct V as [|x V0] eqn:EV; [discriminate|]. injection E as <-.
  destruct (@exists_last _ (x :: V0)) as (U & [a v] & EU); [discriminate|].
  change (match V0 with [] => [] | _ :: _ => x :: removelast V0 end) with (removelast (x :: V0)).
  rewrite EU in *. clear EU EV x V0.
  rewrite removelast_last. pose proof S as (b & G & R & N & D). cbn [step]. rewrite G.
  pose proof (reps_length _ _ _ _ R) as Len. rewrite app_length in Len. simpl in Len.
  destruct (b_kids b) as [|k0 kr] eqn:Ek; [simpl in Len; lia|]. rewrite <- Ek in *.
  replace (pred (length (b_kids b))) with (length U) by (rewrite Len; lia).
  assert (L : look [length U] (U ++ [(a, v)]) = Some (a, v)).
  { simpl. rewrite nth_error_app2, Nat.sub_diag by lia. reflexivity. }
  assert (Fd : find h 0 [length U] = Some (0, length U)).
  { rewrite find_one, (rd_live _ _ _ _ G). destruct (nth_error (b_kids b) (length U)) eqn:Z; auto.
    apply nth_error_None in Z. lia. }
  destruct (st_reset h _ F [] [length U] a v (0, length U) (fuel h) S L Fd (st_height _ _ _ _ _ _ _ S L))
    as (h1 & F1 & Q1 & Q2 & Q3 & _). rewrite Q1.
  assert (EV : upd [length U] (a, Null) (U ++ [(a, v)]) = U ++ [(a, Null)]).
  { simpl. rewrite nth_error_app2, Nat.sub_diag by lia. simpl. clear. induction U; simpl; auto. now rewrite IHU. }
  rewrite EV in Q3. destruct Q3 as (b1 & G1 & R1 & N1 & D1). rewrite G1. simpl.
  pose proof (reps_length _ _ _ _ R1) as Len1. rewrite app_length in Len1. simpl in Len1.
  replace (pred (length (b_kids b1))) with (length U) by (rewrite Len1; lia).
  destruct (reps_app_inv _ _ _ _ _ R1) as (G2 & G3 & I1 & I2 & EF).
  assert (E3 : G3 = []).
  { simpl in I2. destruct I2 as (? & ? & ? & ? & _ & _ & [_ ->] & [_ ->] & ->). reflexivity. }
  rewrite E3, app_nil_r in EF. subst G2. rewrite app_nil_r in N1, D1.
  assert (Go : forall y, y <> 0 -> get (put h1 0 (Live (with_kids b1 (firstn (length U) (b_kids b1))))) y = get h1 y)
    by (intros; now apply get_put_other).
  exists (with_kids b1 (firstn (length U) (b_kids b1))), F1.
  split; [apply get_put_same; now rewrite G1|]. split.
  - cbn [with_kids b_kids]. eapply reps_frame; eauto. intros y I. apply Go. intros ->.
    apply NoDup_cons_iff in N1. tauto.
  - split; [exact N1|]. intros n Gn. destruct (Nat.eq_dec n 0); auto. apply D1. now rewrite Go in Gn.
Qed.
(** ** Theorems *)
(** Every operation on every well-formed memory: no undefined behaviour; the values are those
    the specification gives, or the operation threw and they are unchanged.  In both cases
    every block still has one owner and nothing is leaked. *)
Theorem C64_step h V V' o : good h V -> sstep o V = Some V' ->
  match step tr o h with
  | Ok _ h' => good h' V'
  | Exn h' => good h' V
  | Stuck => False
  end.
Proof.
  intros G E. change (outcome V V' (step tr o h)). destruct o.
  - destruct il; [discriminate|]. now apply new_ok.
  - now apply copy_ctor_ok.
  - now apply move_ctor_ok.
  - now apply copy_assign_ok.
  - now apply move_assign_ok.
  - now apply swap_ok.
  - now apply poke_ok.
  - now apply pop_ok.
Qed.

(** Programs.  An operation may throw; the program goes on with the values it had. *)
Fixpoint safe (l : list op) (V : slots) : Prop :=
  match l with
  | [] => True
  | o :: t => match sstep o V with Some V' => safe t V' /\ safe t V | None => False end
  end.
Fixpoint reach (l : list op) (V V' : slots) : Prop :=
  match l with
  | [] => V' = V
  | o :: t => exists V1, sstep o V = Some V1 /\ (reach t V1 V' \/ reach t V V')
  end.
Theorem C64_run l : forall h V, good h V -> safe l V ->
  exists h' V', run tr l h = Some h' /\ reach l V V' /\ good h' V'.
Proof.
  induction l as [|o t IH]; intros h V G S; simpl.
  - exists h, V. auto.
  - simpl in S. destruct (sstep o V) as [V1|] eqn:E; [|contradiction]. destruct S as [S1 S2].
    pose proof (C64_step h V V1 o G E) as St. destruct (step tr o h) as [[] h1|h1|]; [| |contradiction].
    + destruct (IH h1 V1 St S1) as (h' & V' & A & B & C). exists h', V'. split; auto. split; auto. exists V1. auto.
    + destruct (IH h1 V St S2) as (h' & V' & A & B & C). exists h', V'. split; auto. split; auto. exists V1. auto.
Qed.

(** Without failures of allocations and constructors nothing throws. *)
Lemma copy_kids_no_exn cl fd l : (forall a n h, match cl a n h with Exn _ => False | _ => True end) ->
  forall h, match copy_kids tr cl fd l h with Exn _ => False | _ => True end.
Proof.
  intros C. induction l as [|p l IH]; intros h; simpl; auto. unfold copy_ctor. destruct (cb p) as [n|].
  - pose proof (C (socc tr (al p)) n h) as Q. destruct (cl (socc tr (al p)) n h) as [m h1|h1|]; auto.
    specialize (IH h1). destruct (copy_kids tr cl fd l h1); auto; contradiction.
  - specialize (IH h). destruct (copy_kids tr cl fd l h); auto; contradiction.
Qed.
Definition no_failures : Prop := (forall n, oom tr n = false) /\ (forall n, ctor_fails tr n = None).
Lemma build_no_exn cl fd a t p l h : no_failures -> (forall a n h, match cl a n h with Exn _ => False | _ => True end) ->
  match build tr cl fd a t p l h with Exn _ => False | _ => True end.
Proof.
  intros [N1 N2] C. unfold build. rewrite N1, N2. pose proof (copy_kids_no_exn cl fd l C (h ++ [Raw a])) as Q.
  destruct (copy_kids tr cl fd l (h ++ [Raw a])); auto; contradiction.
Qed.
Lemma clone_no_exn f : no_failures -> forall fd a n h, match clone tr f fd a n h with Exn _ => False | _ => True end.
Proof.
  intros N. induction f as [|f IH]; intros fd a n h; simpl; auto. destruct (get h n); auto.
  apply build_no_exn; [exact N|]. intros. apply IH.
Qed.
Lemma move_no_exn f fd a n h : no_failures -> match move_block tr f fd a n h with Exn _ => False | _ => True end.
Proof.
  intros N. unfold move_block. destruct (get h n); auto. destruct (movable tr (b_ty b)); [|now apply clone_no_exn].
  destruct N as [N _]. now rewrite N.
Qed.
Lemma push_no_exn p (h : heap) : match push p h with Exn _ => False | _ => True end.
Proof. unfold push. destruct (get h 0); auto. Qed.
Lemma lift_no_exn o : match @lift ty pay o with Exn _ => False | _ => True end.
Proof. now destruct o. Qed.
Lemma step_no_exn o h : no_failures -> match step tr o h with Exn _ => False | _ => True end.
Proof.
  intros N. destruct o; cbn [step].
  - destruct (finds h args) as [l|]; auto.
    pose proof (build_no_exn (clone tr (fuel h) (fuel h)) (fuel h) a (match il with Some T => T | None => t end) p l h N
      (clone_no_exn (fuel h) N (fuel h))) as B.
    destruct (build _ _ _ _ _ _ _ _); auto. apply push_no_exn.
  - destruct (find h 0 s) as [sl|]; auto. destruct (rd h sl) as [p|]; auto. unfold copy_ctor. destruct (cb p) as [n|].
    + pose proof (clone_no_exn (fuel h) N (fuel h) (match oa with Some a => a | None => socc tr (al p) end) n h) as C.
      destruct (clone _ _ _ _ _ _); auto. apply push_no_exn.
    + apply push_no_exn.
  - destruct (find h 0 s) as [sl|]; auto. destruct (rd h sl) as [p|]; auto.
    destruct (pocca tr || _).
    + destruct (set_cb sl None h); auto. apply push_no_exn.
    + destruct (cb p) as [n|]; [|apply push_no_exn].
      pose proof (move_no_exn (fuel h) (fuel h) (match oa with Some a => a | None => al p end) n h N) as C.
      destruct (move_block _ _ _ _ _ _); auto. apply push_no_exn.
  - destruct (find h 0 d) as [sd|]; auto. destruct (find h 0 s) as [ss|]; auto. unfold copy_assign.
    destruct (eqs sd ss); auto. destruct (rd h sd) as [pd|]; auto. destruct (rd h ss) as [ps|]; auto.
    destruct (cb ps) as [n|].
    + pose proof (clone_no_exn (fuel h) N (fuel h) (if pocca tr then al ps else al pd) n h) as C.
      destruct (clone _ _ _ _ _ _); auto. destruct (bind _ _); auto. destruct (pocca tr); auto. apply lift_no_exn.
    + destruct (reset _ _ _); auto. destruct (pocca tr); auto. apply lift_no_exn.
  - destruct (find h 0 d) as [sd|]; auto. destruct (find h 0 s) as [ss|]; auto. unfold move_assign.
    destruct (eqs sd ss); auto. destruct (rd h sd) as [pd|]; auto. destruct (rd h ss) as [ps|]; auto.
    destruct (cb ps) as [n|].
    + destruct (al pd =? al ps).
      { destruct (bind _ _); auto. destruct (pocma tr); auto. apply lift_no_exn. }
      pose proof (move_no_exn (fuel h) (fuel h) (if pocma tr then al ps else al pd) n h N) as C.
      destruct (move_block _ _ _ _ _ _); auto; [|contradiction]. destruct (bind _ _); auto. destruct (pocma tr); auto. apply lift_no_exn.
    + destruct (reset _ _ _); auto. destruct (pocma tr); auto. apply lift_no_exn.
  - destruct (find h 0 s1) as [sd|]; auto. destruct (find h 0 s2) as [ss|]; auto. unfold swap.
    destruct (rd h sd) as [pd|]; auto. destruct (rd h ss) as [ps|]; auto.
    destruct (pocs tr); [apply lift_no_exn|]. destruct (_ =? _); auto. apply lift_no_exn.
  - destruct (find h 0 s) as [sl|]; auto. destruct (rd h sl) as [q|]; auto. destruct (cb q) as [n|]; auto.
    destruct (get h n); auto.
  - destruct (get h 0); auto. destruct (b_kids b); auto. destruct (reset _ _ _); auto. destruct (get h0 0); auto.
Qed.
Fixpoint ssteps (l : list op) (V : slots) : option slots :=
  match l with
  | [] => Some V
  | o :: t => match sstep o V with Some V' => ssteps t V' | None => None end
  end.
Theorem C64_run_exact l : no_failures -> forall h V V', good h V -> ssteps l V = Some V' ->
  exists h', run tr l h = Some h' /\ good h' V'.
Proof.
  intros N. induction l as [|o t IH]; intros h V V' G E; simpl in E.
  - injection E as <-. exists h. auto.
  - destruct (sstep o V) as [V1|] eqn:E1; [|discriminate]. pose proof (C64_step h V V1 o G E1) as St.
    pose proof (step_no_exn o h N) as X. simpl. destruct (step tr o h) as [[] h1|h1|]; [|contradiction|contradiction]. eauto.
Qed.

(** At the end of the lives of the variables all memory but the frame is free. *)
Theorem C64_no_leak V : forall h, good h V ->
  exists h', run tr (repeat Pop (length V)) h = Some h' /\ forall n, n <> 0 -> get h' n = Freed.
Proof.
  induction V as [|x V IH] using rev_ind; intros h G.
  - exists h. split; auto. destruct G as (b & F & _ & [_ ->] & _ & D). intros n N.
    destruct (get h n) eqn:E; auto; exfalso; destruct (D n) as [Z|[]]; auto; congruence.
  - rewrite app_length, Nat.add_comm. cbn [length Nat.add repeat run].
    assert (E : sstep Pop (V ++ [x]) = Some V).
    { unfold sstep. destruct (V ++ [x]) eqn:Z; [destruct V; discriminate|]. rewrite <- Z. now rewrite removelast_last. }
    pose proof (C64_step h _ _ Pop G E) as St.
    assert (X : match step tr Pop h with Exn _ => False | _ => True end).
    { cbn [step]. destruct (get h 0); auto. destruct (b_kids b); auto. destruct (reset _ _ _); auto. destruct (get h0 0); auto. }
    destruct (step tr Pop h) as [[] h1|h1|]; [|contradiction|contradiction]. exact (IH h1 St).
Qed.

(** A copy equals its source, allocators aside. *)
Fixpoint erase (v : val) : val :=
  match v with
  | Null => Null
  | Node t p ks => Node t p (map (fun x => (0, erase (snd x))) ks)
  end.
Theorem C64_copy_equal v : erase (cpv v) = erase v.
Proof.
  induction v as [|t p ks IH] using val_ind'; simpl; auto. f_equal. rewrite map_map. simpl.
  induction IH as [|x r H Hr IHr]; simpl; auto. now rewrite H, IHr.
Qed.

(** An operation changes no variable but those it is given to change. *)
Definition heads (pi : list nat) (k : nat) : bool := match pi with i :: _ => i =? k | [] => false end.
Definition changes (o : @op ty pay) (V : slots) (k : nat) : bool :=
  match o with
  | New _ _ _ _ _ | CopyCtor _ _ => false
  | MoveCtor _ s | Poke s _ => heads s k
  | CopyAssign d _ => heads d k
  | MoveAssign d s | Swap d s => heads d k || heads s k
  | Pop => k =? pred (length V)
  end.
Lemma upd_other pi x k : forall V, heads pi k = false -> nth_error (upd pi x V) k = nth_error V k.
Proof.
  intros V H. destruct pi as [|i r]; auto. simpl in H. rewrite Nat.eqb_sym in H. cbn [upd].
  destruct (nth_error V i) as [[a v]|]; auto. destruct r; [now rewrite nth_error_setl, H|].
  destruct v; auto. now rewrite nth_error_setl, H.
Qed.
Lemma upd_length pi x V : length (upd pi x V) = length V.
Proof.
  destruct pi as [|i r]; auto. cbn [upd]. destruct (nth_error V i) as [[a v]|]; auto.
  destruct r; [apply setl_length|]. destruct v; auto. apply setl_length.
Qed.
Theorem C64_independent (o : @op ty pay) V V' k : sstep o V = Some V' -> k < length V -> changes o V k = false ->
  nth_error V' k = nth_error V k.
Proof.
  intros E L C. destruct o; simpl in C; cbn [sstep] in E.
  - destruct il; [discriminate|]. destruct (looks args V); [|discriminate]. injection E as <-. now rewrite nth_error_app1.
  - destruct (look s V) as [[a v]|]; [|discriminate]. injection E as <-. now rewrite nth_error_app1.
  - destruct (look s V) as [[a v]|]; [|discriminate]. destruct (_ =? a).
    + injection E as <-. rewrite nth_error_app1 by now rewrite upd_length. now apply upd_other.
    + destruct (pocca tr); [discriminate|]. destruct v as [|t p ks]; [injection E as <-; now rewrite nth_error_app1|].
      destruct (movable tr t); injection E as <-; [|now rewrite nth_error_app1].
      rewrite nth_error_app1 by now rewrite upd_length. now apply upd_other.
  - destruct (look d V) as [[a w]|]; [|discriminate]. destruct (look s V) as [[b v]|]; [|discriminate].
    destruct (eqp d s); [congruence|]. destruct (_ && _); [discriminate|]. injection E as <-. now apply upd_other.
  - apply orb_false_elim in C. destruct C as [C1 C2].
    destruct (look d V) as [[a w]|]; [|discriminate]. destruct (look s V) as [[b v]|]; [|discriminate].
    destruct (eqp d s); [congruence|]. destruct (negb _); [discriminate|].
    destruct v as [|t p ks]; [injection E as <-; now apply upd_other|].
    destruct (a =? b); [injection E as <-; now rewrite !upd_other|]. destruct (pocma tr); [discriminate|].
    destruct (movable tr t); injection E as <-; now rewrite !upd_other.
  - apply orb_false_elim in C. destruct C as [C1 C2].
    destruct (look s1 V) as [[a w]|]; [|discriminate]. destruct (look s2 V) as [[b v]|]; [|discriminate].
    destruct (eqp s1 s2); [congruence|]. destruct (negb _); [discriminate|].
    destruct (pocs tr); [injection E as <-; now rewrite !upd_other|].
    destruct (a =? b); [|discriminate]. injection E as <-; now rewrite !upd_other.
  - destruct (look s V) as [[a v]|]; [|discriminate]. destruct v; [discriminate|]. injection E as <-. now apply upd_other.
  - destruct V as [|x V0] eqn:Z; [discriminate|]. rewrite <- Z in *. clear Z x V0. injection E as <-. apply Nat.eqb_neq in C.
    destruct (@exists_last _ V) as (U & y & ->); [intros ->; simpl in L; lia|]. rewrite removelast_last.
    rewrite app_length in *. simpl in *. rewrite nth_error_app1; auto. lia.
Qed.

(** ** std::allocator *)
(** The traits of std::allocator: all allocators equal (number 0), no propagation on copy
    assignment and swap, propagation on move assignment. *)
Definition std : Prop := pocca tr = false /\ pocma tr = true /\ pocs tr = false /\ (forall a, socc tr a = a).
Definition zeros (V : slots) : Prop := map (fun x => (0, erase (snd x))) V = V.
Definition std_args (o : @op ty pay) : Prop :=
  match o with
  | New _ a _ _ _ => a = 0
  | CopyCtor oa _ | MoveCtor oa _ => oa = None \/ oa = Some 0
  | _ => True
  end.
(** Value semantics, as of an int or a std::vector: copies are equal, moves leave the source
    empty.  None: no such polymorphic, an access to an empty one, or one of the two
    polymorphics of a move assignment or swap is inside the other. *)
Definition vstep (o : @op ty pay) (V : slots) : option slots :=
  match o with
  | New (Some _) _ _ _ _ => None
  | New None _ t p args => match looks args V with Some ks => Some (V ++ [(0, Node t p ks)]) | None => None end
  | CopyCtor _ s => match look s V with Some x => Some (V ++ [x]) | None => None end
  | MoveCtor _ s => match look s V with Some x => Some (upd s (0, Null) V ++ [x]) | None => None end
  | CopyAssign d s =>
      match look d V, look s V with Some _, Some x => Some (upd d x V) | _, _ => None end
  | MoveAssign d s =>
      match look d V, look s V with
      | Some _, Some x => if eqp d s then Some V else
                          if apart d s then Some (upd d x (upd s (0, Null) V)) else None
      | _, _ => None
      end
  | Swap s1 s2 =>
      match look s1 V, look s2 V with
      | Some x, Some y => if eqp s1 s2 then Some V else
                          if apart s1 s2 then Some (upd s1 y (upd s2 x V)) else None
      | _, _ => None
      end
  | Poke s q => match look s V with Some (a, Node t _ ks) => Some (upd s (a, Node t q ks) V) | _ => None end
  | Pop => match V with [] => None | _ => Some (removelast V) end
  end.
Lemma zeros_cons x V : zeros (x :: V) <-> (fst x = 0 /\ erase (snd x) = snd x) /\ zeros V.
Proof.
  unfold zeros. simpl. destruct x as [a v]. simpl. split.
  - intros E. injection E as <- E1 E2. auto.
  - intros ([-> E] & E2). now rewrite E, E2.
Qed.
Lemma zeros_app V W : zeros (V ++ W) <-> zeros V /\ zeros W.
Proof.
  induction V as [|x V IH]; simpl.
  - split; [intros; split; auto; reflexivity|tauto].
  - rewrite !zeros_cons, IH. tauto.
Qed.
Lemma zeros_nth k : forall V a v, zeros V -> nth_error V k = Some (a, v) -> a = 0 /\ erase v = v.
Proof.
  induction k as [|k IH]; intros [|x V] a v Z E; try discriminate; apply zeros_cons in Z; destruct Z as [Z1 Z2]; simpl in E.
  - injection E as ->. exact Z1.
  - eauto.
Qed.
Lemma zeros_node t p ks : erase (Node t p ks) = Node t p ks <-> zeros ks.
Proof. unfold zeros. simpl. split; intros E; [injection E as E; exact E|now rewrite E]. Qed.
Lemma zeros_setl k : forall V a v, zeros V -> a = 0 -> erase v = v -> zeros (setl V k (a, v)).
Proof.
  induction k as [|k IH]; intros [|x V] a v Z A E; auto; apply zeros_cons in Z; destruct Z as [Z1 Z2]; simpl; apply zeros_cons; auto.
Qed.
Lemma zeros_look pi : forall V a v, zeros V -> look pi V = Some (a, v) -> a = 0 /\ erase v = v.
Proof.
  induction pi as [|k r IH]; intros V a v Z E; [discriminate|]. cbn [look] in E.
  destruct (nth_error V k) as [[b w]|] eqn:Ek; [|discriminate]. destruct (zeros_nth _ _ _ _ Z Ek) as [-> Zw].
  destruct r as [|k' r]; [injection E as <- <-; auto|]. destruct w as [|t p ks]; [discriminate|].
  apply zeros_node in Zw. eauto.
Qed.
Lemma zeros_looks l : forall V ks, zeros V -> looks l V = Some ks -> zeros ks.
Proof.
  induction l as [|pi l IH]; intros V ks Z E; simpl in E; [injection E as <-; reflexivity|].
  destruct (look pi V) as [[a v]|] eqn:L; [|discriminate]. destruct (looks l V) as [xs|] eqn:Ls; [|discriminate].
  injection E as <-. apply zeros_cons. simpl. destruct (zeros_look _ _ _ _ Z L). eauto.
Qed.
Lemma zeros_upd pi : forall V v, zeros V -> erase v = v -> zeros (upd pi (0, v) V).
Proof.
  induction pi as [|k r IH]; intros V v Z E; auto. cbn [upd].
  destruct (nth_error V k) as [[b w]|] eqn:Ek; auto. destruct (zeros_nth _ _ _ _ Z Ek) as [-> Zw].
  destruct r as [|k' r]; [now apply zeros_setl|]. destruct w as [|t p ks]; auto. apply zeros_setl; auto.
  apply zeros_node. apply IH; auto. now apply zeros_node in Zw.
Qed.
Lemma cpv_id v : (forall a, socc tr a = a) -> cpv v = v.
Proof.
  intros S. induction v as [|t p ks IH] using val_ind'; simpl; auto. f_equal.
  induction IH as [|x r H Hr IHr]; simpl; auto. rewrite S, H, IHr. now destruct x.
Qed.
Lemma cps_id ks : (forall a, socc tr a = a) -> cps ks = ks.
Proof.
  intros S. unfold cps. induction ks as [|x r IH]; simpl; auto. rewrite S, cpv_id, IH by auto. now destruct x.
Qed.
Lemma vstep_sstep o V V' : std -> zeros V -> std_args o -> vstep o V = Some V' -> sstep o V = Some V' /\ zeros V'.
Proof.
  intros (T1 & T2 & T3 & T4) Z A E. destruct o; cbn [vstep sstep std_args] in *; rewrite ?T1, ?T2, ?T3.
  - destruct il; [discriminate|]. destruct (looks args V) as [ks|] eqn:L; [|discriminate]. injection E as <-. subst a.
    rewrite cps_id by auto. split; auto. apply zeros_app. split; auto. apply zeros_cons. split; [|reflexivity]. split; auto.
    apply zeros_node. eapply zeros_looks; eauto.
  - destruct (look s V) as [[a v]|] eqn:L; [|discriminate]. injection E as <-. destruct (zeros_look _ _ _ _ Z L) as [-> Zv].
    rewrite cpv_id, T4 by auto. destruct A as [-> | ->]; split; auto; apply zeros_app; (split; [auto|]); apply zeros_cons; now repeat split.
  - destruct (look s V) as [[a v]|] eqn:L; [|discriminate]. injection E as <-. destruct (zeros_look _ _ _ _ Z L) as [-> Zv].
    destruct A as [-> | ->]; rewrite Nat.eqb_refl; split; auto; apply zeros_app; (split; [now apply zeros_upd|]); apply zeros_cons; now repeat split.
  - destruct (look d V) as [[a w]|] eqn:Ld; [|discriminate]. destruct (look s V) as [[b v]|] eqn:Ls; [|discriminate].
    injection E as <-. destruct (zeros_look _ _ _ _ Z Ld) as [-> Zw]. destruct (zeros_look _ _ _ _ Z Ls) as [-> Zv].
    rewrite cpv_id by auto. split; [|now apply zeros_upd]. destruct (eqp d s) eqn:Ep; [|reflexivity].
    apply eqp_eq in Ep. subst s. now rewrite upd_id.
  - destruct (look d V) as [[a w]|] eqn:Ld; [|discriminate]. destruct (look s V) as [[b v]|] eqn:Ls; [|discriminate].
    destruct (zeros_look _ _ _ _ Z Ld) as [-> Zw]. destruct (zeros_look _ _ _ _ Z Ls) as [-> Zv].
    destruct (eqp d s); [split; congruence|]. destruct (apart d s); [|discriminate]. injection E as <-. cbn [negb].
    split; [|apply zeros_upd; auto; now apply zeros_upd]. destruct v as [|t p ks]; [now rewrite (upd_id s)|reflexivity].
  - destruct (look s1 V) as [[a w]|] eqn:Ld; [|discriminate]. destruct (look s2 V) as [[b v]|] eqn:Ls; [|discriminate].
    destruct (zeros_look _ _ _ _ Z Ld) as [-> Zw]. destruct (zeros_look _ _ _ _ Z Ls) as [-> Zv].
    destruct (eqp s1 s2); [split; congruence|]. destruct (apart s1 s2); [|discriminate]. injection E as <-. cbn [negb].
    split; [reflexivity|]. apply zeros_upd; auto. now apply zeros_upd.
  - destruct (look s V) as [[a v]|] eqn:L; [|discriminate]. destruct v as [|t p0 ks]; [discriminate|]. injection E as <-.
    destruct (zeros_look _ _ _ _ Z L) as [-> Zv]. split; auto. apply zeros_upd; auto. apply zeros_node. now apply zeros_node in Zv.
  - destruct V as [|x V0] eqn:EV; [discriminate|]. rewrite <- EV in *. injection E as <-. split; auto.
    destruct (@exists_last _ V) as (U & y & ->); [now rewrite EV|]. rewrite removelast_last. now apply zeros_app in Z.
Qed.
Fixpoint vsteps (l : list op) (V : slots) : option slots :=
  match l with
  | [] => Some V
  | o :: t => match vstep o V with Some V' => vsteps t V' | None => None end
  end.
(** With std::allocator, polymorphics are values. *)
Theorem C64_std l : std -> no_failures -> forall h V V', good h V -> zeros V -> Forall std_args l -> vsteps l V = Some V' ->
  exists h', run tr l h = Some h' /\ good h' V'.
Proof.
  intros S N h V V' G Z A E. apply (C64_run_exact l N h V V' G).
  clear h G. revert V V' Z A E. induction l as [|o t IH]; intros V V' Z A E; auto. cbn [vsteps ssteps] in *.
  apply Forall_cons_iff in A. destruct A as [A1 A2]. destruct (vstep o V) as [V1|] eqn:E1; [|discriminate].
  destruct (vstep_sstep o V V1 S Z A1 E1) as [-> Z1]. eauto.
Qed.
End Spec.

(** ** Examples and refuted forms *)
Definition mk (ca ma sw : bool) (mv : nat -> bool) (om : nat -> bool) (cf : nat -> option nat) : @traits nat nat :=
  {| pocca := ca; pocma := ma; pocs := sw; socc := fun a => a; movable := mv; moved := fun _ => 0; oom := om; ctor_fails := cf |}.
Definition std_tr := mk false true false (fun _ => true) (fun _ => false) (fun _ => None).
Definition frame0 : @heap nat nat := [Live {| b_al := 0; b_ty := 0; b_pay := 0; b_kids := [] |}].
Lemma good_frame0 : good frame0 [].
Proof.
  exists {| b_al := 0; b_ty := 0; b_pay := 0; b_kids := [] |}, []. split; auto. split; [now split|].
  split; [constructor; [intros []|constructor]|]. intros [|[|n]]; unfold get; simpl; auto; intros H; now destruct H.
Qed.
(** a leaf, a node that holds two copies of it, a copy of the node *)
Definition three := [New None 0 1 7 []; New None 0 2 8 [[0]; [0]]; CopyCtor None [1]].

(** Copy, write through the copy, take a member out by move, assign a variable from a member
    of its own value, swap, and let the variables die. *)
Definition prog := three ++ [Poke [2; 0] 99; MoveCtor None [2; 1]; CopyAssign [1] [1; 0]; Swap [0] [2; 0]; MoveAssign [2; 1] [3]].
Example C64_std_example : std std_tr /\ no_failures std_tr /\ good frame0 [] /\ zeros (@nil (nat * @val nat nat)) /\
  Forall std_args prog /\
  vsteps prog [] = Some [(0, Node 1 99 []); (0, Node 1 7 []); (0, Node 2 8 [(0, Node 1 7 []); (0, Node 1 7 [])]); (0, Null)] /\
  exists h', run std_tr prog frame0 = Some h' /\
    good h' [(0, Node 1 99 []); (0, Node 1 7 []); (0, Node 2 8 [(0, Node 1 7 []); (0, Node 1 7 [])]); (0, Null)].
Proof.
  assert (S : std std_tr) by (repeat split).
  assert (N : no_failures std_tr) by (split; reflexivity).
  assert (A : Forall (@std_args nat nat) prog) by (unfold prog, three; simpl; repeat constructor).
  split; auto. split; auto. split; [apply good_frame0|]. split; [reflexivity|]. split; auto. split; [reflexivity|].
  apply (C64_std std_tr prog S N frame0 []); auto; [apply good_frame0|reflexivity].
Qed.

(** Failures: the second member of the node cannot be constructed; the copy runs out of memory. *)
Definition bad_tr := mk false true false (fun _ => true) (fun n => n =? 6) (fun n => if n =? 2 then Some 1 else None).
Definition leaf1 : @heap nat nat :=
  [Live {| b_al := 0; b_ty := 0; b_pay := 0; b_kids := [{| al := 0; cb := Some 1 |}] |};
   Live {| b_al := 0; b_ty := 1; b_pay := 7; b_kids := [] |}].
Definition tries := [New None 0 2 8 [[0]; [0]]; New None 0 3 8 [[0]]; CopyCtor None [0]] : list (@op nat nat).
Example C64_run_example : good leaf1 [(0, Node 1 7 [])] /\ safe bad_tr tries [(0, Node 1 7 [])] /\
  run bad_tr tries leaf1 =
    Some [Live {| b_al := 0; b_ty := 0; b_pay := 0; b_kids := [{| al := 0; cb := Some 1 |}; {| al := 0; cb := Some 4 |}] |};
          Live {| b_al := 0; b_ty := 1; b_pay := 7; b_kids := [] |}; Freed; Freed;
          Live {| b_al := 0; b_ty := 3; b_pay := 8; b_kids := [{| al := 0; cb := Some 5 |}] |};
          Live {| b_al := 0; b_ty := 1; b_pay := 7; b_kids := [] |}].
Proof.
  split; [|split].
  - exact (C64_step bad_tr frame0 [] [(0, Node 1 7 [])] (New None 0 1 7 []) good_frame0 eq_refl).
  - cbn. tauto.
  - reflexivity.
Qed.

Example C64_step_example : good leaf1 [(0, Node 1 7 [])] /\
  sstep bad_tr (New None 0 2 8 [[0]; [0]]) [(0, Node 1 7 [])] = Some [(0, Node 1 7 []); (0, Node 2 8 [(0, Node 1 7 []); (0, Node 1 7 [])])] /\
  step bad_tr (New None 0 2 8 [[0]; [0]]) leaf1 = Exn (leaf1 ++ [Freed; Freed]).
Proof. split; [apply C64_run_example|]. split; reflexivity. Qed.

(** Unequal allocators that do not propagate: the objects move, the allocators stay. *)
Definition arena_tr := mk false false false (fun t => t =? 1) (fun _ => false) (fun _ => None).
Example C64_run_exact_example : no_failures arena_tr /\ good frame0 [] /\
  ssteps arena_tr [New None 3 1 7 []; New None 4 2 8 [[0]]; MoveCtor (Some 5) [0]; MoveAssign [1] [2]] [] =
    Some [(3, Node 1 0 []); (4, Node 1 7 []); (5, Node 1 0 [])] /\
  exists h', run arena_tr [New None 3 1 7 []; New None 4 2 8 [[0]]; MoveCtor (Some 5) [0]; MoveAssign [1] [2]] frame0 = Some h' /\
    good h' [(3, Node 1 0 []); (4, Node 1 7 []); (5, Node 1 0 [])].
Proof.
  assert (N : no_failures arena_tr) by (split; reflexivity).
  split; auto. split; [apply good_frame0|]. split; [reflexivity|].
  apply (C64_run_exact arena_tr _ N frame0 []); [apply good_frame0|reflexivity].
Qed.
Example C64_no_leak_example : exists h V, V <> [] /\ run std_tr prog frame0 = Some h /\ good h V /\
  exists h', run std_tr (repeat Pop 4) h = Some h' /\ forall n, n <> 0 -> get h' n = Freed.
Proof.
  destruct C64_std_example as (_ & _ & _ & _ & _ & _ & h & R & G). exists h. eexists. split; [|split; [exact R|split; [exact G|]]].
  - discriminate.
  - exact (C64_no_leak std_tr _ h G).
Qed.
Example C64_independent_example :
  let V := [(0, Node 1 7 []); (0, Node 2 8 [(0, Node 1 7 [])])] : @slots nat nat in
  sstep std_tr (MoveCtor None [1; 0]) V = Some [(0, Node 1 7 []); (0, Node 2 8 [(0, Null)]); (0, Node 1 7 [])] /\
  0 < length V /\ changes (MoveCtor None [1; 0]) V 0 = false.
Proof. split; [reflexivity|]. split; [simpl; lia|reflexivity]. Qed.
Example C64_copy_equal_example :
  let tr := {| pocca := false; pocma := false; pocs := false; socc := fun _ => 9; movable := fun _ => true; moved := fun q => q;
               oom := fun _ => false; ctor_fails := fun _ => None |} : @traits nat nat in
  cpv tr (Node 2 8 [(4, Node 1 7 [])]) = Node 2 8 [(9, Node 1 7 [])].
Proof. reflexivity. Qed.

(** [x = std::move(x->member)] (384-415): after the swap the old block holds itself, and the
    reset of [other] destroys the block that contains [other].  The same statement is fine for
    a std::unique_ptr or a std::vector. *)
Theorem C64_move_from_member_refuted : exists h, run std_tr three frame0 = Some h /\
  (exists V, good h V /\ look [1; 0] V <> None) /\ step std_tr (MoveAssign [1] [1; 0]) h = Stuck.
Proof.
  eexists. split; [vm_compute; reflexivity|]. split; [|vm_compute; reflexivity].
  destruct (C64_run_exact std_tr three (conj (fun _ => eq_refl) (fun _ => eq_refl)) frame0 [] _ good_frame0 eq_refl) as (h' & R & G).
  injection R as <-. eexists. split; [exact G|]. discriminate.
Qed.
(** [x->member = std::move(x)] and [swap(x, x->member)]: the block holds itself and is never freed. *)
Theorem C64_move_into_member_refuted :
  (exists h, run std_tr (three ++ [MoveAssign [1; 0] [1]; Pop; Pop; Pop]) frame0 = Some h /\ exists n, n <> 0 /\ get h n <> Freed) /\
  (exists h, run std_tr (three ++ [Swap [1] [1; 0]; Pop; Pop; Pop]) frame0 = Some h /\ exists n, n <> 0 /\ get h n <> Freed).
Proof.
  split; (eexists; split; [vm_compute; reflexivity|]; exists 2; split; [discriminate|]; vm_compute; discriminate).
Qed.
(** [x = x->member] by copy is fine, unless the allocator propagates on copy assignment:
    the allocator of [other] is then read after the reset that destroyed it (375-379). *)
Theorem C64_copy_from_member_refuted : exists h V,
  let tr := mk true false false (fun _ => true) (fun _ => false) (fun _ => None) in
  run tr three frame0 = Some h /\ good h V /\ look [1; 0] V <> None /\ step tr (CopyAssign [1] [1; 0]) h = Stuck.
Proof.
  set (tr := mk true false false (fun _ => true) (fun _ => false) (fun _ => None)).
  destruct (C64_run_exact tr three (conj (fun _ => eq_refl) (fun _ => eq_refl)) frame0 [] _ good_frame0 eq_refl) as (h' & R & G).
  exists h'. eexists. split; [exact R|]. split; [exact G|]. split; [discriminate|]. injection R as <-. vm_compute; reflexivity.
Qed.
(** The allocator-extended move constructor tests propagation on copy assignment (336) instead
    of comparing the allocators: with that trait the block goes to a polymorphic with another
    allocator, which then frees memory that is not its own. *)
Theorem C64_move_ctor_refuted : exists h,
  let tr := mk true false false (fun _ => true) (fun _ => false) (fun _ => None) in
  run tr [New None 0 1 7 []; MoveCtor (Some 1) [0]] frame0 = Some h /\ step tr Pop h = Stuck.
Proof. eexists. split; [vm_compute; reflexivity|]; vm_compute; reflexivity. Qed.
(** The constructors with an initializer list (227-241) make a T and not the U asked for. *)
Theorem C64_initializer_list_refuted : exists h b,
  step std_tr (New (Some 5) 0 6 7 []) frame0 = Ok tt h /\ get h 1 = Live b /\ b_ty b = 5.
Proof. eexists. eexists. split; [vm_compute; reflexivity|]. split; [vm_compute; reflexivity|]. vm_compute; reflexivity. Qed.
(** Move assignment is noexcept when the allocator propagates (384-386), but it allocates when
    the allocators differ: out of memory is then std::terminate. *)
Theorem C64_move_assign_noexcept_refuted : exists h,
  let tr := mk false true false (fun _ => true) (fun n => n =? 3) (fun _ => None) in
  run tr [New None 0 1 7 []; New None 1 1 8 []] frame0 = Some h /\ step tr (MoveAssign [0] [1]) h = Stuck.
Proof. eexists. split; [vm_compute; reflexivity|]; vm_compute; reflexivity. Qed.
