(** C65: sizes of the buffers of SolverFDDP and its no-allocation scopes. *)
From Coq Require Import List Arith Bool Lia.
From Verif Require Import ShapeModel FddpShapeModel.
Import ListNotations.

(** ** The statement *)

(** A problem whose states all live in spaces of the same dimensions, with an initial
    state, costs of the dimensions of their stages, and a terminal cost that takes the
    control of the last stage. *)
Definition stage_ok (X n : nat) (s : stage) : Prop :=
  nx1 s = X /\ nx2 s = X /\ ndx1 s = n /\ ndx2 s = n /\ k_ndx s = n /\ k_nu s = nu s.
Definition problem_ok (X n : nat) (p : prob) : Prop :=
  1 <= N p /\ integrity p = true /\ i_x0 p = Some X /\ (forall i, i < N p -> stage_ok X n (st p i)) /\
  t_nu p = nu (st p (N p - 1)).

(** Allocations are allowed again when user functions or a constructor run: after an
    exception thrown by the tests for NaN of a forward pass ([k] is true), the next
    evaluation, start or cycle comes after a routine that ends normally. *)
Fixpoint unlocked (chk k : bool) (l : list event) : Prop :=
  match l with
  | [] => True
  | Cycle _ :: l => k = false /\ unlocked chk false l
  | Call (Start _ _) :: l | Call Evaluate :: l => k = false /\ unlocked chk false l
  | Call Accept :: l => unlocked chk k l
  | Call (ForwardFails _ nan) :: l => unlocked chk (chk && nan) l
  | Call _ :: l => unlocked chk false l
  end.

(** Stages that enter: the dimensions of all the others. *)
Fixpoint steady (X n u : nat) (l : list event) : Prop :=
  match l with
  | [] => True
  | Cycle s :: l => stage_ok X n s /\ nu s = u /\ steady X n u l
  | Call _ :: l => steady X n u l
  end.
Fixpoint calls_only (l : list event) : Prop :=
  match l with
  | [] => True
  | Cycle _ :: _ => False
  | Call _ :: l => calls_only l
  end.

(** ** Lemmas on the memory *)
Lemma fbeq_refl b : fbuf_beq b b = true.
Proof. now apply internal_fbuf_dec_lb. Qed.
Lemma fbeq_eq b b' : fbuf_beq b b' = true -> b = b'.
Proof. apply internal_fbuf_dec_bl. Qed.
Lemma same_refl a : same a a = true.
Proof. unfold same. now rewrite !Nat.eqb_refl. Qed.
Lemma allocates_refl s : allocates s s = false.
Proof. unfold allocates. now rewrite Nat.eqb_refl. Qed.
Lemma exec_app l1 l2 m : exec (l1 ++ l2) m = bind (exec l1 m) (exec l2).
Proof.
  revert m. induction l1 as [|o l1 IH]; intros m; simpl; auto.
  destruct (step m o); simpl; auto.
Qed.

(** ** Constructors act on one vector at a time *)
Definition vec := (nat * (nat -> nat * nat))%type.
Inductive act := AR (k : nat) | AP (s : nat * nat) | AW (i : nat) (s : nat * nat) | AO (h : nat) | AD.
Definition act1 (v : vec) (a : act) : option vec :=
  match a with
  | AR k => Some (k, fun j => if j <? fst v then snd v j else (0, 1))
  | AP s => Some (S (fst v), fun j => if j <? fst v then snd v j else s)
  | AW i s => if i <? fst v then Some (fst v, fun j => if i =? j then s else snd v j) else None
  | AO h => if h + 1 <=? fst v
            then Some (fst v, fun i => if i <? h then snd v i else if S i =? fst v then snd v h else snd v (S i))
            else None
  | AD => if 1 <=? fst v then Some (fst v - 1, snd v) else None
  end.
Fixpoint runv (l : list act) (v : vec) : option vec :=
  match l with
  | [] => Some v
  | a :: l => match act1 v a with Some v' => runv l v' | None => None end
  end.
Definition acts (b : fbuf) (o : op) : list act :=
  match o with
  | Resize b' k => if fbuf_beq b' b then [AR k] else []
  | Push b' (Lit r c) => if fbuf_beq b' b then [AP (r, c)] else []
  | Put b' i (Lit r c) => if fbuf_beq b' b then [AW i (r, c)] else []
  | Rot b' h => if fbuf_beq b' b then [AO h] else []
  | Pop b' => if fbuf_beq b' b then [AD] else []
  | _ => []
  end.
Definition ctor (o : op) : Prop :=
  match o with
  | Resize _ _ | Push _ (Lit _ _) | Put _ _ (Lit _ _) | Temp (Lit _ _) | Rot _ _ | Pop _ => True
  | Chk _ c => c = true
  | _ => False
  end.

Lemma runv_app l1 l2 v : runv (l1 ++ l2) v = match runv l1 v with Some v' => runv l2 v' | None => None end.
Proof. revert v. induction l1 as [|a l1 IH]; simpl; intros v; auto. destruct (act1 v a); auto. Qed.

Lemma ctor_step o m : ctor o -> lock m = false ->
  (forall b, runv (acts b o) (cells m b) <> None) ->
  exists m', step m o = Ok m' /\ lock m' = false /\ forall b, runv (acts b o) (cells m b) = Some (cells m' b).
Proof.
  intros C L H. destruct o; simpl in C; try contradiction.
  - destruct e; try contradiction. specialize (H b) as Hb. simpl in Hb. rewrite fbeq_refl in Hb. simpl in Hb.
    unfold step; simpl. rewrite L. simpl. unfold len. destruct (i <? fst (cells m b)) eqn:I; [|congruence].
    eexists; split; [reflexivity|]. split; auto. intros b'. simpl. unfold len, at_.
    destruct (fbuf_beq b b') eqn:Eb; simpl; auto. apply fbeq_eq in Eb; subst b'. now rewrite I.
  - destruct e; try contradiction. unfold step; simpl. rewrite L. simpl.
    exists m. repeat split; auto.
  - subst c. exists m. repeat split; auto.
  - eexists; split; [reflexivity|]. split; auto. intros b'. simpl. unfold len, at_.
    destruct (fbuf_beq b b') eqn:Eb; simpl; auto. apply fbeq_eq in Eb; now subst b'.
  - destruct e; try contradiction. unfold step; simpl. rewrite L. simpl.
    eexists; split; [reflexivity|]. split; auto. intros b'. simpl. unfold len, at_.
    destruct (fbuf_beq b b') eqn:Eb; simpl; auto. apply fbeq_eq in Eb; now subst b'.
  - specialize (H b) as Hb. simpl in Hb. rewrite fbeq_refl in Hb. cbn [runv act1] in Hb.
    cbn [step]. unfold len. destruct (1 <=? fst (cells m b)) eqn:I; [|congruence].
    eexists; split; [reflexivity|]. split; auto. intros b'. cbn [acts put cells]. unfold len, at_.
    destruct (fbuf_beq b b') eqn:Eb; auto. apply fbeq_eq in Eb; subst b'. cbn [runv act1]. now rewrite I.
  - specialize (H b) as Hb. simpl in Hb. rewrite fbeq_refl in Hb. cbn [runv act1] in Hb.
    cbn [step]. unfold len. destruct (h + 1 <=? fst (cells m b)) eqn:I; [|congruence].
    eexists; split; [reflexivity|]. split; auto. intros b'. cbn [acts put cells]. unfold len, at_.
    destruct (fbuf_beq b b') eqn:Eb; auto. apply fbeq_eq in Eb; subst b'. cbn [runv act1]. now rewrite I.
Qed.

Lemma ctor_exec l m : Forall ctor l -> lock m = false ->
  (forall b, runv (flat_map (acts b) l) (cells m b) <> None) ->
  exists m', exec l m = Ok m' /\ lock m' = false /\
    forall b, runv (flat_map (acts b) l) (cells m b) = Some (cells m' b).
Proof.
  intros F. revert m. induction F as [|o l C _ IH]; intros m L H; simpl.
  - exists m. auto.
  - destruct (ctor_step o m C L) as (m1 & E1 & L1 & S1).
    { intros b K. apply (H b). simpl. rewrite runv_app, K. reflexivity. }
    rewrite E1. simpl. destruct (IH m1 L1) as (m2 & E2 & L2 & S2).
    { intros b K. apply (H b). simpl. rewrite runv_app, S1. exact K. }
    exists m2. split; auto. split; auto. intros b. rewrite runv_app, S1. apply S2.
Qed.

(** actions of loops *)
Lemma flat_flat {A B C} (g : B -> list C) (f : A -> list B) l :
  flat_map g (flat_map f l) = flat_map (fun i => flat_map g (f i)) l.
Proof. induction l as [|x l IH]; simpl; auto. now rewrite flat_map_app, IH. Qed.
Lemma flat_nil {A B} (l : list A) : flat_map (fun _ => @nil B) l = [].
Proof. induction l; auto. Qed.

(** [v] has [k] elements, those in [D] as given by [s] *)
Definition has (k : nat) (D : nat -> Prop) (s : nat -> nat * nat) (v : vec) : Prop :=
  fst v = k /\ forall i, i < k -> D i -> snd v i = s i.
Definition yields (l : list act) (v : vec) (k : nat) (D : nat -> Prop) (s : nat -> nat * nat) : Prop :=
  exists v', runv l v = Some v' /\ has k D s v'.

Lemma y_app l1 l2 v k D s k' D' s' :
  yields l1 v k D s -> (forall v', has k D s v' -> yields l2 v' k' D' s') -> yields (l1 ++ l2) v k' D' s'.
Proof.
  intros (v1 & E1 & H1) H. destruct (H v1 H1) as (v2 & E2 & H2). exists v2. split; auto.
  now rewrite runv_app, E1.
Qed.
Lemma y_resize k v s : yields [AR k] v k (fun _ => False) s.
Proof. eexists; split; [reflexivity|]. split; simpl; auto; tauto. Qed.
Lemma y_resize2 k k' v s : yields [AR k; AR k'] v k' (fun _ => False) s.
Proof. eexists; split; [reflexivity|]. split; simpl; auto; tauto. Qed.
Lemma y_write i x k D s v : has k D s v -> i < k -> x = s i ->
  yields [AW i x] v k (fun j => D j \/ j = i) s.
Proof.
  intros [L H] I ->. unfold yields; simpl. rewrite L. rewrite (proj2 (Nat.ltb_lt i k) I).
  eexists; split; [reflexivity|]. split; simpl; auto. intros j J HD.
  destruct (i =? j) eqn:E; [apply Nat.eqb_eq in E; now subst|]. apply Nat.eqb_neq in E.
  apply H; auto. destruct HD; auto. congruence.
Qed.
Lemma y_writes c w x k D s v : has k D s v -> (forall i, i < c -> w i < k /\ x i = s (w i)) ->
  yields (flat_map (fun i => [AW (w i) (x i)]) (seq 0 c)) v k (fun j => D j \/ exists i, i < c /\ j = w i) s.
Proof.
  intros H. induction c as [|c IH]; intros W.
  - exists v. split; auto. destruct H as [L H]. split; auto. intros i I [HD|(j & J & _)]; auto. lia.
  - rewrite seq_S, flat_map_app. simpl. eapply y_app; [apply IH; intros; apply W; lia|].
    intros v' H'. destruct (y_write (w c) (x c) k _ s v' H') as (v2 & E2 & L2 & H2); try (apply W; lia).
    exists v2. split; auto. split; auto. intros j J [HD|(i & I & ->)]; apply H2; auto.
    destruct (Nat.eq_dec i c) as [->|]; auto. left; right. exists i. split; auto. lia.
Qed.
Lemma y_push x k s v : has k (fun _ => True) s v -> x = s k -> yields [AP x] v (S k) (fun _ => True) s.
Proof.
  intros [L H] ->. eexists; split; [reflexivity|]. split; simpl; [now rewrite L|]. rewrite L. intros j J _.
  destruct (j <? k) eqn:E; [apply Nat.ltb_lt in E; auto|]. apply Nat.ltb_ge in E.
  replace j with k by lia. reflexivity.
Qed.
Lemma y_pushes c x s v : has 0 (fun _ => True) s v -> (forall i, i < c -> x i = s i) ->
  yields (flat_map (fun i => [AP (x i)]) (seq 0 c)) v c (fun _ => True) s.
Proof.
  intros H. induction c as [|c IH]; intros W.
  - exists v. split; auto.
  - rewrite seq_S, flat_map_app. simpl. eapply y_app; [apply IH; intros; apply W; lia|].
    intros v' H'. apply y_push; auto.
Qed.

(** shapes of the constructors *)
Lemma y_AR k l v k' D s : (forall v', fst v' = k -> yields l v' k' D s) -> yields (AR k :: l) v k' D s.
Proof.
  intros H. destruct (H (k, fun j => if j <? fst v then snd v j else (0, 1)) eq_refl) as (v' & E1 & H').
  exists v'. split; auto.
Qed.
Lemma y_all l v k D s : yields l v k D s -> (forall i, i < k -> D i) -> yields l v k (fun _ => True) s.
Proof. intros (v' & E1 & L & H) HD. exists v'. split; auto. split; auto. Qed.
Lemma y_W c x s v : fst v = c -> (forall i, i < c -> x i = s i) ->
  yields (flat_map (fun i => [AW i (x i)]) (seq 0 c)) v c (fun _ => True) s.
Proof.
  intros L H. eapply y_all.
  - apply (y_writes c (fun i => i) x c (fun _ => False)); [split; tauto|]. intros i I. split; auto.
  - intros i I. right. eauto.
Qed.
Lemma y_0W c x0 x s v : fst v = S c -> x0 = s 0 -> (forall i, i < c -> x i = s (S i)) ->
  yields (AW 0 x0 :: flat_map (fun i => [AW (S i) (x i)]) (seq 0 c)) v (S c) (fun _ => True) s.
Proof.
  intros L H0 H. change (AW 0 x0 :: ?l) with ([AW 0 x0] ++ l). eapply y_app.
  - apply (y_write 0 x0 (S c) (fun _ => False) s); [split; tauto|lia|auto].
  - intros v' H'. eapply y_all.
    + apply (y_writes c S x (S c) _ s v' H'). intros i I. split; [lia|auto].
    + intros i I. destruct i as [|i]; [tauto|]. right. exists i. split; auto. lia.
Qed.
Lemma y_WN c x xN s v : fst v = S c -> (forall i, i < c -> x i = s i) -> xN = s c ->
  yields (flat_map (fun i => [AW i (x i)]) (seq 0 c) ++ [AW c xN]) v (S c) (fun _ => True) s.
Proof.
  intros L H HN. eapply y_app.
  - apply (y_writes c (fun i => i) x (S c) (fun _ => False) s); [split; tauto|]. intros i I. split; auto.
  - intros v' H'. eapply y_all; [apply (y_write c xN (S c) _ s v' H'); auto|].
    intros i I. destruct (Nat.eq_dec i c); auto. left; right. exists i. split; auto. lia.
Qed.
Lemma y_P c x s v : fst v = 0 -> (forall i, i < c -> x i = s i) ->
  yields (flat_map (fun i => [AP (x i)]) (seq 0 c)) v c (fun _ => True) s.
Proof. intros L H. apply y_pushes; auto. split; auto. lia. Qed.
Lemma y_PN c x xN s v : fst v = 0 -> (forall i, i < c -> x i = s i) -> xN = s c ->
  yields (flat_map (fun i => [AP (x i)]) (seq 0 c) ++ [AP xN]) v (S c) (fun _ => True) s.
Proof. intros L H HN. eapply y_app; [apply y_P; eauto|]. intros v' H'. now apply y_push. Qed.
Lemma y_P1 x s v : fst v = 0 -> x = s 0 -> yields [AP x] v 1 (fun _ => True) s.
Proof. intros L H. apply y_push; auto. split; auto. lia. Qed.

(** ** Programs that keep given sizes *)
Section Keep.
Variable elen : fbuf -> nat.
Variable esz : fbuf -> nat -> nat * nat.
Definition E : mem := Mem (fun b => (elen b, esz b)) false.
Definition agree (m : mem) : Prop :=
  forall b, len m b = elen b /\ forall i, i < elen b -> at_ m b i = esz b i.

Lemma size_agree m e : agree m -> size m e = size E e.
Proof.
  intros A. induction e; simpl; auto; try (now rewrite IHe1, IHe2); try now rewrite IHe.
  - destruct (A b) as [L X]. rewrite L. unfold len, E; simpl.
    destruct (i <? elen b) eqn:I; auto. apply Nat.ltb_lt in I. now rewrite X.
  - destruct (A d) as [Ld Xd], (A g) as [Lg Xg]. rewrite Ld, Lg. unfold len, E; simpl.
    destruct ((i <? elen d) && (i <? elen g)) eqn:I; auto. apply andb_true_iff in I as [I1 I2].
    apply Nat.ltb_lt in I1, I2. rewrite Xd, Xg by auto. reflexivity.
  - destruct (A d) as [Ld Xd], (A h) as [Lg Xg]. rewrite Ld, Lg. unfold len, E; simpl.
    destruct ((i <? elen d) && (i <? elen h)) eqn:I; auto. apply andb_true_iff in I as [I1 I2].
    apply Nat.ltb_lt in I1, I2. rewrite Xd, Xg by auto. reflexivity.
Qed.

Definition keeps (o : op) : Prop :=
  match o with
  | Put b i e | PutR b i e => i < elen b /\ size E e = Ok (esz b i)
  | Fit a e => exists s, size E a = Ok s /\ size E e = Ok s
  | Uses e => exists s, size E e = Ok s
  | Chk _ c => c = true
  | IsSize _ e a b => size E e = Ok (a, b)
  | LenIs _ b n => elen b = n
  | Resize b n => n = elen b
  | Copy b b' => elen b = elen b' /\ forall i, i < elen b -> esz b i = esz b' i
  | _ => False
  end.

Lemma set_agree m b i : agree m -> agree (set_at m b i (esz b i)).
Proof.
  intros A b'. destruct (A b) as [H1 H2]. unfold len, at_, set_at, put. simpl.
  destruct (fbuf_beq b b') eqn:Eb; [|apply (A b')]. apply fbeq_eq in Eb; subst b'. simpl. split; auto.
  intros j J. destruct (i =? j) eqn:Ej; [apply Nat.eqb_eq in Ej; now subst j|]. now apply H2.
Qed.

Lemma step_keeps m o : agree m -> keeps o -> exists m', step m o = Ok m' /\ agree m' /\ lock m' = lock m.
Proof.
  intros A; destruct o; simpl; try tauto.
  - intros (I & S). rewrite (size_agree m e A), S. simpl. destruct (A b) as [H1 H2]. rewrite H1, H2 by auto.
    rewrite (proj2 (Nat.ltb_lt _ _) I), allocates_refl, andb_false_r.
    eexists; split; [reflexivity|]. split; auto. now apply set_agree.
  - intros (I & S). rewrite (size_agree m e A), S. simpl. destruct (A b) as [H1 H2]. rewrite H1, H2 by auto.
    rewrite (proj2 (Nat.ltb_lt _ _) I), Nat.eqb_refl. simpl.
    eexists; split; [reflexivity|]. split; auto. now apply set_agree.
  - intros (s & S1 & S2). rewrite (size_agree m a A), (size_agree m e A), S1, S2. simpl. rewrite same_refl. eauto.
  - intros (s & S). rewrite (size_agree m e A), S. simpl. eauto.
  - intros ->. eauto.
  - intros S. rewrite (size_agree m e A), S. simpl. rewrite same_refl. eauto.
  - intros <-. destruct (A b) as [-> _]. rewrite Nat.eqb_refl. eauto.
  - intros ->. eexists; split; [reflexivity|]. split; auto. intros b'. destruct (A b) as [H1 H2].
    unfold len, at_, put; simpl. destruct (fbuf_beq b b') eqn:Eb; [|apply (A b')].
    apply fbeq_eq in Eb; subst b'. simpl. split; auto. intros i I.
    unfold len in H1. rewrite H1. rewrite (proj2 (Nat.ltb_lt _ _) I). now apply H2.
  - intros (H1 & H2). destruct (A b') as [G1 G2], (A b) as [K1 K2].
    assert (F : (len m b =? len m b') &&
      forallb (fun i => negb (allocates (at_ m b i) (at_ m b' i))) (seq 0 (len m b')) = true).
    { rewrite K1, G1, <- H1, Nat.eqb_refl. apply forallb_forall. intros i I. apply in_seq in I.
      rewrite K2, G2, H2, allocates_refl by lia. reflexivity. }
    rewrite F. simpl. rewrite andb_false_r. eexists; split; [reflexivity|]. split; auto. intros b0.
    unfold len, at_, put; simpl. destruct (fbuf_beq b b0) eqn:Eb; [|apply (A b0)].
    apply fbeq_eq in Eb; subst b0. unfold len, at_ in *. split; [congruence|]. intros i I.
    rewrite G2 by congruence. now rewrite H2.
Qed.

(** from lock [k] to lock [k'], with these sizes before and after *)
Definition goes (k : bool) (l : list op) (k' : bool) : Prop :=
  forall m, agree m -> lock m = k -> exists m', exec l m = Ok m' /\ agree m' /\ lock m' = k'.

Lemma g_app k l1 k1 l2 k2 : goes k l1 k1 -> goes k1 l2 k2 -> goes k (l1 ++ l2) k2.
Proof.
  intros H1 H2 m A L. destruct (H1 m A L) as (m1 & E1 & A1 & L1). destruct (H2 m1 A1 L1) as (m2 & E2 & A2 & L2).
  exists m2. rewrite exec_app, E1. auto.
Qed.
Lemma g_keep k l : Forall keeps l -> goes k l k.
Proof.
  intros F. induction F as [|o l K _ IH]; intros m A L; simpl; eauto.
  destruct (step_keeps m o A K) as (m' & -> & A' & L'). simpl. apply IH; [assumption|congruence].
Qed.
Lemma g_nil k : goes k [] k.
Proof. now apply g_keep. Qed.
Lemma g_for k n f : (forall i, i < n -> goes k (f i) k) -> goes k (for_ n f) k.
Proof.
  intros H. unfold for_. assert (G : forall l, (forall i, In i l -> i < n) -> goes k (flat_map f l) k).
  { induction l as [|x l IH]; simpl; intros I; [apply g_nil|]. eapply g_app; [apply H|apply IH]; auto. }
  apply G. intros i I. apply in_seq in I. lia.
Qed.
Lemma g_rev k n f : (forall i, i < n -> goes k (f i) k) -> goes k (flat_map f (rev (seq 0 n))) k.
Proof.
  intros H. assert (G : forall l, (forall i, In i l -> i < n) -> goes k (flat_map f l) k).
  { induction l as [|x l IH]; simpl; intros I; [apply g_nil|]. eapply g_app; [apply H|apply IH]; auto. }
  apply G. intros i I. apply in_rev, in_seq in I. lia.
Qed.
Lemma g_lock k k' : goes k [Lock k'] k'.
Proof. intros m A L. eexists; split; [reflexivity|]. split; auto. Qed.
Lemma g_user : goes false [User] false.
Proof. intros m A L. exists m. simpl. rewrite L. auto. Qed.
Lemma g_temp e s : size E e = Ok s -> goes false [Temp e] false.
Proof. intros S m A L. exists m. simpl. rewrite (size_agree m e A), S. simpl. rewrite L. auto. Qed.
Lemma g_temp0 k e s : size E e = Ok s -> count s = 0 -> goes k [Temp e] k.
Proof.
  intros S C m A L. exists m. simpl. rewrite (size_agree m e A), S. simpl. rewrite C. simpl.
  rewrite andb_false_r. auto.
Qed.
End Keep.

(** ** The sizes of SolverFDDP *)
Section Main.
Variables (chk : bool) (p : prob) (owned : nat -> nat) (X n : nat).
Hypothesis W : problem_ok X n p.
Notation N := (N p).
Notation st := (st p).
Notation U i := (nu (st i)).

Definition elen (b : fbuf) : nat :=
  match b with
  | Rxs | Txs | Gap | Dxs | FtV | Vx | Vxx => S N
  | Tg | Th | Td => 1
  | _ => N
  end.
Definition esz (b : fbuf) (i : nat) : nat * nat :=
  match b with
  | Rxs | Txs | Xnext => (X, 1)
  | Rus | Tus | Dus | Quuk => (U i, 1)
  | Rgain | Kkt => (U i, n + 1)
  | Gap | Dxs | FtV | Vx => (n, 1)
  | Llt => (U i, U i)
  | JtH => (n + U i, n)
  | Vxx => (n, n)
  | Qg | Cg => (n + U i, 1)
  | Qh | Ch => (n + U i, n + U i)
  | Qd | Cd => (n, U i)
  | Jac => (n, n + U i)
  | Tg => (n + t_nu p, 1)
  | Th => (n + t_nu p, n + t_nu p)
  | Td => (n, t_nu p)
  end.
Notation agree := (agree elen esz).
Notation goes := (goes elen esz).
Notation keeps := (keeps elen esz).

Lemma N_pos : 1 <= N. Proof. apply W. Qed.
Lemma s_ok i : i < N -> stage_ok X n (st i). Proof. apply W. Qed.
Lemma nx1_st i : i < N -> nx1 (st i) = X. Proof. intros I; apply (s_ok i I). Qed.
Lemma nx2_st i : i < N -> nx2 (st i) = X. Proof. intros I; apply (s_ok i I). Qed.
Lemma ndx1_st i : i < N -> ndx1 (st i) = n. Proof. intros I; apply (s_ok i I). Qed.
Lemma ndx2_st i : i < N -> ndx2 (st i) = n. Proof. intros I; apply (s_ok i I). Qed.
Lemma kndx_st i : i < N -> k_ndx (st i) = n. Proof. intros I; apply (s_ok i I). Qed.
Lemma knu_st i : i < N -> k_nu (st i) = U i. Proof. intros I; apply (s_ok i I). Qed.
Lemma x0_eq : i_x0 p = Some X. Proof. apply W. Qed.
Lemma tnu_eq : t_nu p = U (N - 1). Proof. apply W. Qed.
Lemma t_dims : t_nx p = X /\ t_ndx p = n.
Proof.
  destruct W as (P & I & _ & S & _). unfold integrity in I. destruct (N =? 0) eqn:Z; [apply Nat.eqb_eq in Z; lia|].
  rewrite !andb_true_iff, !Nat.eqb_eq in I. destruct (S (N - 1)) as (_ & A & _ & B & _); [lia|]. split; lia.
Qed.
Lemma integ : integrity p = true. Proof. apply W. Qed.

(** *** Setup *)
Lemma ctor_for k f : (forall i, i < k -> Forall ctor (f i)) -> Forall ctor (for_ k f).
Proof.
  intros H. unfold for_. apply Forall_flat_map, Forall_forall. intros i I. apply in_seq in I. apply H. lia.
Qed.
Definition build : list op := removelast (setup p).
Ltac capp := repeat match goal with |- Forall _ (_ ++ _) => apply Forall_app; split end.
Ltac cs := repeat (apply Forall_cons; [first [exact I | reflexivity | assumption]|]); apply Forall_nil.

Lemma ctor_init b : Forall ctor (init_xs p b) /\ Forall ctor (init_us p b).
Proof.
  unfold init_xs, init_us. rewrite x0_eq. split; capp; first [cs | apply ctor_for; intros; cs].
Qed.

Definition new_workspace_build : list op :=
  new_data p ++ init_xs p Txs ++ init_us p Tus ++
  [Chk Throw (integrity p);
   Resize Gap (S N); Resize Dxs (S N); Resize Dus N; Resize Quuk N; Resize FtV (S N); Resize Kkt N] ++
  [Put Gap 0 (Lit (ndx1 (st 0)) 1); Put FtV 0 (Lit (ndx1 (st 0)) 1)] ++
  for_ N (fun i => let s := st i in
       [Push Vx (Lit (ndx1 s) 1); Push Vxx (Lit (ndx1 s) (ndx1 s));
        Push Qg (Lit (ndx1 s + nu s) 1); Push Qh (Lit (ndx1 s + nu s) (ndx1 s + nu s));
        Push Qd (Lit (ndx1 s) (nu s));
        Put Gap (S i) (Lit (ndx2 s) 1); Put Dxs i (Lit (ndx1 s) 1); Put Dus i (Lit (nu s) 1);
        Put Quuk i (Lit (nu s) 1); Put FtV (S i) (Lit (ndx2 s) 1);
        Put Kkt i (Lit (nu s) (ndx1 s + 1)); Push Llt (Lit (nu s) (nu s));
        Push JtH (Lit (ndx1 s + nu s) (ndx1 s))]) ++
  [Put Dxs N (Lit (t_ndx p) 1); Push Vx (Lit (t_ndx p) 1); Push Vxx (Lit (t_ndx p) (t_ndx p))].
Definition setup_build : list op := [Chk Throw (integrity p)] ++ new_results p ++ new_workspace_build.

Lemma setup_split : setup p = setup_build ++ [LenIs Assert Llt N].
Proof.
  unfold setup, setup_build, new_workspace, new_workspace_build.
  rewrite (proj2 (Nat.leb_le _ _) N_pos). repeat (rewrite <- app_assoc || cbn [app]). reflexivity.
Qed.

Lemma setup_ctor : Forall ctor setup_build.
Proof.
  unfold setup_build, new_results, new_workspace_build, new_data, stage_data. rewrite integ.
  capp; first [apply ctor_init | cs | apply ctor_for; intros; cs].
Qed.

Lemma acts_for b k f : flat_map (acts b) (for_ k f) = flat_map (fun i => flat_map (acts b) (f i)) (seq 0 k).
Proof. apply flat_flat. Qed.

Lemma built b : yields (flat_map (acts b) setup_build) (cells mem0 b) (elen b) (fun _ => True) (esz b).
Proof.
  unfold setup_build, new_results, new_workspace_build, new_data, stage_data, init_xs, init_us. rewrite x0_eq.
  rewrite !flat_map_app, !acts_for.
  destruct b; cbn [flat_map app]; cbv beta iota delta [acts fbuf_beq]; cbn [app]; rewrite ?flat_nil; cbn [app].
  all: rewrite ?app_nil_r; repeat (apply y_AR; intros ? ?).
  all: first [apply y_W | apply y_0W | apply y_WN | apply y_P | apply y_PN | apply y_P1];
    try reflexivity; try assumption; intros; cbn [esz];
    rewrite ?nx1_st, ?nx2_st, ?ndx1_st, ?ndx2_st, ?kndx_st, ?knu_st, ?(proj2 t_dims);
    auto; apply N_pos.
Qed.

Lemma setup_ok : exists m, exec (setup p) mem0 = Ok m /\ agree m /\ lock m = false.
Proof.
  destruct (ctor_exec setup_build mem0 setup_ctor eq_refl) as (m & E1 & L1 & S1).
  { intros b. destruct (built b) as (v & -> & _). discriminate. }
  assert (A : agree m).
  { intros b. destruct (built b) as (v & Ev & L & H). rewrite S1 in Ev. injection Ev as <-. split; auto.
    intros i I. apply H; auto. }
  exists m. split; auto. rewrite setup_split, exec_app, E1. simpl. destruct (A Llt) as [-> _].
  simpl. now rewrite Nat.eqb_refl.
Qed.

(** *** Routines *)
Ltac nrm := rewrite ?nx1_st, ?nx2_st, ?ndx1_st, ?ndx2_st, ?kndx_st, ?knu_st, ?(proj1 t_dims), ?(proj2 t_dims) by lia.
Ltac dec :=
  unfold same;
  repeat match goal with
  | |- context [Nat.ltb ?a ?b] => replace (Nat.ltb a b) with true by (symmetry; apply Nat.ltb_lt; cbn [elen fst snd]; lia)
  | |- context [Nat.leb ?a ?b] => replace (Nat.leb a b) with true by (symmetry; apply Nat.leb_le; cbn [fst snd]; lia)
  | |- context [Nat.eqb ?a ?b] => replace (Nat.eqb a b) with true by (symmetry; apply Nat.eqb_eq; cbn [fst snd]; lia)
  end.
Ltac sz := cbn [size]; unfold len, at_, E; cbn [cells lock fst snd bind elen esz andb pick];
  repeat (progress (nrm; dec; cbn [fst snd bind andb pick])).
Ltac k1 :=
  cbn [FddpShapeModel.is_vec]; unfold is_vec, stage_at;
  match goal with
  | |- P_fddpshape.keeps _ _ (Put _ _ _) => split; [cbn [elen]; lia | sz; try reflexivity; f_equal; apply f_equal2; lia]
  | |- P_fddpshape.keeps _ _ (PutR _ _ _) => split; [cbn [elen]; lia | sz; try reflexivity; f_equal; apply f_equal2; lia]
  | |- P_fddpshape.keeps _ _ (Fit _ _) => eexists; split; [sz; reflexivity | sz; try reflexivity; f_equal; apply f_equal2; lia]
  | |- P_fddpshape.keeps _ _ (Uses _) => eexists; sz; reflexivity
  | |- P_fddpshape.keeps _ _ (Chk _ _) => unfold P_fddpshape.keeps; first [reflexivity | apply Nat.ltb_lt; lia | apply Nat.leb_le; lia]
  | |- P_fddpshape.keeps _ _ (IsSize _ _ _ _) => unfold P_fddpshape.keeps; sz; try reflexivity; f_equal; apply f_equal2; lia
  | |- P_fddpshape.keeps _ _ (LenIs _ _ _) => reflexivity
  | |- P_fddpshape.keeps _ _ (Resize _ _) => reflexivity
  | |- P_fddpshape.keeps _ _ (Copy _ _) => split; [reflexivity | intros; reflexivity]
  end.
Ltac ks := cbn [app]; repeat (apply Forall_cons; [k1|]); apply Forall_nil.

Ltac cut1 := match goal with |- _ _ _ _ (?o :: ?l) _ => change (o :: l) with ([o] ++ l) end.

Lemma g_temp_lit r c : goes false [Temp (Lit r c)] false.
Proof. eapply g_temp. reflexivity. Qed.
Lemma g_init_us b : b = Rus \/ b = Tus -> goes false (init_us p b) false.
Proof.
  intros B. unfold init_us. apply g_app with false.
  - apply g_keep. destruct B; subst b; ks.
  - apply g_for. intros i I. cut1. apply g_app with false; [apply g_temp_lit|].
    apply g_keep. destruct B; subst b; ks.
Qed.
Lemma g_init_xs b : b = Rxs \/ b = Txs -> goes false (init_xs p b) false.
Proof.
  intros B. unfold init_xs. rewrite x0_eq. apply g_app with false; [|apply g_app with false].
  - apply g_keep. destruct B; subst b; ks.
  - apply g_keep. destruct B; subst b; ks.
  - apply g_for. intros i I. cut1. apply g_app with false; [apply g_temp_lit|].
    apply g_keep. destruct B; subst b; ks.
Qed.
Lemma g_BEGIN k : (chk = false -> k = false) -> goes k (BEGIN chk) chk.
Proof. unfold BEGIN. destruct chk; intros H; [apply g_lock|]. rewrite H by auto. apply g_nil. Qed.
Lemma g_END : goes chk (END chk) false.
Proof. unfold END. destruct chk; [apply g_lock|apply g_nil]. Qed.
Lemma g_scope k l : (chk = false -> k = false) -> goes chk l chk -> goes k (scope chk l) false.
Proof.
  intros K H. unfold scope. apply g_app with chk; [now apply g_BEGIN|]. apply g_app with chk; auto. apply g_END.
Qed.

Lemma xs_size_eq i : i <= N -> xs_size p i = X.
Proof. pose proof N_pos. intros I. destruct i; simpl; [apply nx1_st | apply nx2_st]; lia. Qed.
Lemma g_start g f : goes false (start p g f) false.
Proof.
  pose proof N_pos. unfold start. rewrite x0_eq. apply g_app with false; [|apply g_app with false].
  - apply g_keep. ks.
  - destruct g.
    + apply g_app with false; [apply g_init_xs | apply g_init_us]; auto.
    + apply g_init_us; auto.
    + apply g_app with false; unfold assign_no_resize; apply g_app with false; try (apply g_keep; ks).
      * apply g_for. intros i I. apply g_keep. rewrite xs_size_eq by lia. ks.
      * apply g_for. intros i I. apply g_keep. ks.
  - apply g_keep. destruct f; ks.
Qed.
Lemma g_stage_eval bx bu i : i < N -> bx = Rxs \/ bx = Txs -> bu = Rus \/ bu = Tus ->
  goes false (stage_eval p bx bu i) false.
Proof.
  intros I Bx Bu. unfold stage_eval. change [?a; ?b; ?c; ?d; ?e; ?f] with ([a; b; c; d; e] ++ [f]).
  apply g_app with false; [|apply g_user]. apply g_keep. destruct Bx, Bu; subst; ks.
Qed.
Lemma g_term_eval bx u : bx = Rxs \/ bx = Txs -> size (E elen esz) u = Ok (t_nu p, 1) -> goes false (term_eval p bx u) false.
Proof.
  intros Bx S. unfold term_eval. change [?a; ?b; ?c; ?d] with ([a; b; c] ++ [d]).
  apply g_app with false; [|apply g_user]. apply g_keep. repeat apply Forall_cons; try apply Forall_nil.
  - destruct Bx; subst; k1.
  - exists (t_nu p, 1). auto.
  - k1.
Qed.
Lemma g_evaluate : goes false (evaluate p) false.
Proof.
  unfold evaluate. change [?a; ?b; User] with ([a; b] ++ [User]). apply g_app with false; [|apply g_app with false].
  - apply g_app with false; [|apply g_user]. apply g_keep. ks.
  - apply g_for. intros i I. apply g_stage_eval; auto.
  - apply g_term_eval; auto.
Qed.
Lemma g_infeasibility k : (chk = false -> k = false) -> goes k (infeasibility chk p) false.
Proof.
  intros K. pose proof N_pos. apply g_scope; auto. unfold init_state, init_size. rewrite x0_eq.
  apply g_app with chk; [apply g_keep; ks|]. apply g_app with chk; [apply g_keep; ks|].
  apply g_app with chk; [apply g_keep; unfold difference; ks|].
  apply g_for. intros i I. apply g_keep. unfold difference. ks.
Qed.
Lemma g_term_value k : goes k (term_value p) k.
Proof. pose proof N_pos. apply g_keep. unfold term_value. ks. Qed.
Lemma g_backward k : (chk = false -> k = false) -> (chk = true -> forall i, i < N -> owned i = 0) ->
  goes k (backward chk p owned) false.
Proof.
  intros K O. pose proof N_pos. apply g_scope; auto. apply g_app with chk.
  - apply g_keep. unfold term_value. ks.
  - apply g_rev. intros i I. unfold stage_backward. cbv zeta. cut1. apply g_app with chk; [apply g_keep; ks|].
    cut1. apply g_app with chk.
    + destruct chk; [|apply g_temp_lit]. eapply g_temp0; [reflexivity|]. unfold count; simpl. now rewrite O.
    + apply g_keep. ks.
Qed.
Lemma g_criterion k : (chk = false -> k = false) -> goes k (criterion chk p) false.
Proof. intros K. apply g_scope; auto. apply g_for. intros i I. apply g_keep. ks. Qed.
Lemma g_accept_gains k : (chk = false -> k = false) -> goes k (accept_gains chk p) false.
Proof.
  intros K. unfold accept_gains. apply g_app with k; [apply g_keep; ks|]. apply g_scope; auto. apply g_keep. ks.
Qed.
Lemma g_update k : (chk = false -> k = false) -> goes k (update_improvement chk p) false.
Proof.
  intros K. apply g_scope; auto. apply g_app with chk; apply g_for; intros i I; apply g_keep; cbv zeta; ks.
Qed.
Lemma g_improvement k : (chk = false -> k = false) -> goes k (improvement chk p) false.
Proof. intros K. apply g_scope; auto. apply g_for. intros i I. apply g_keep. ks. Qed.

Lemma g_fwd_start k : (chk = false -> k = false) -> goes k (fwd_start chk p) chk.
Proof.
  intros K. pose proof N_pos. unfold fwd_start. apply g_app with chk; [now apply g_BEGIN|].
  apply g_keep. unfold integrate. ks.
Qed.
Lemma g_fwd_control i : i < N -> goes chk (fwd_control chk p i) false.
Proof.
  intros I. unfold fwd_control. apply g_app with chk; [apply g_keep; ks|].
  apply g_app with chk; [apply g_keep; unfold integrate; ks|]. apply g_END.
Qed.
Lemma g_fwd_state i : i < N -> goes false (fwd_state chk p i) chk.
Proof.
  intros I. unfold fwd_state. apply g_app with false; [apply g_stage_eval; auto|].
  apply g_app with chk; [apply g_BEGIN; auto|]. apply g_keep. unfold integrate. ks.
Qed.
Lemma g_fwd_stage i : i < N -> goes chk (fwd_stage chk p i) chk.
Proof.
  intros I. unfold fwd_stage. apply g_app with false; [now apply g_fwd_control|].
  apply g_app with chk; [now apply g_fwd_state|]. apply g_keep. unfold fwd_rest, difference. ks.
Qed.
Lemma g_forward k : (chk = false -> k = false) -> goes k (forward chk p) false.
Proof.
  intros K. pose proof N_pos. unfold forward. apply g_app with chk; [now apply g_fwd_start|].
  apply g_app with chk; [apply g_for, g_fwd_stage|]. unfold fwd_end.
  apply g_app with false; [apply g_END|]. apply g_app with false; [apply g_keep; ks|].
  apply g_app with false; [apply g_term_eval; auto|].
  { sz. now rewrite tnu_eq. }
  apply g_app with chk; [apply g_BEGIN; auto|]. apply g_app with chk; [|apply g_END].
  apply g_keep. unfold difference. ks.
Qed.
Lemma g_forward_fails k j nan : (chk = false -> k = false) -> goes k (forward_fails chk p j nan) (chk && nan).
Proof.
  intros K. pose proof N_pos. unfold forward_fails. apply g_app with chk; [now apply g_fwd_start|].
  assert (J : Nat.min j (N - 1) < N) by lia.
  apply g_app with chk; [apply g_for; intros i I; apply g_fwd_stage; lia|].
  apply g_app with false; [now apply g_fwd_control|].
  destruct nan; [rewrite andb_true_r; now apply g_fwd_state | rewrite andb_false_r; apply g_nil].
Qed.
Lemma g_accept k : goes k accept k.
Proof. apply g_keep. unfold accept. ks. Qed.

Lemma g_code k c l : (chk = false -> k = false) -> (chk = true -> forall i, i < N -> owned i = 0) ->
  unlocked chk k (Call c :: l) ->
  exists k', (chk = false -> k' = false) /\ unlocked chk k' l /\ goes k (code chk p owned c) k'.
Proof.
  intros K O. destruct c; cbn [unlocked code]; intros Un.
  - destruct Un as [-> Un]. exists false. repeat split; auto. apply g_start.
  - destruct Un as [-> Un]. exists false. repeat split; auto. apply g_evaluate.
  - exists false. repeat split; auto. now apply g_infeasibility.
  - exists false. repeat split; auto. now apply g_backward.
  - exists false. repeat split; auto. now apply g_criterion.
  - exists false. repeat split; auto. now apply g_accept_gains.
  - exists false. repeat split; auto. now apply g_update.
  - exists false. repeat split; auto. now apply g_improvement.
  - exists false. repeat split; auto. now apply g_forward.
  - exists (chk && nan). split; [now intros ->|]. split; auto. now apply g_forward_fails.
  - exists k. split; auto. split; auto. apply g_accept.
Qed.
End Main.

(** *** Receding horizon *)
Section Cycle.
Variables (p : prob) (X n u : nat) (s : stage).
Hypothesis W : problem_ok X n p.
Hypothesis Uu : forall i, i < N p -> nu (st p i) = u.
Hypothesis Ss : stage_ok X n s.
Hypothesis Su : nu s = u.

Lemma N_cycled : N (cycled p s) = N p.
Proof using W.
  destruct W as (P & _). clear - P. unfold N, cycled in *; simpl in *. destruct (stages p); simpl in *; [lia|].
  rewrite app_length; simpl. lia.
Qed.
Lemma st_cycled i : i < N p -> st (cycled p s) i = if S i =? N p then s else st p (S i).
Proof.
  intros I. destruct W as (P & _). unfold st, N, cycled in *; simpl in *.
  destruct (stages p) as [|a l]; simpl in *; [lia|]. destruct (i =? length l) eqn:E1.
  - apply Nat.eqb_eq in E1. subst. rewrite app_nth2, Nat.sub_diag by lia. reflexivity.
  - apply Nat.eqb_neq in E1. rewrite app_nth1 by lia. reflexivity.
Qed.
Lemma st_cycled_ok i : i < N p -> stage_ok X n (st (cycled p s) i) /\ nu (st (cycled p s) i) = u.
Proof.
  intros I. rewrite st_cycled by auto. destruct (S i =? N p) eqn:E1; [split; auto|].
  apply Nat.eqb_neq in E1. destruct W as (_ & _ & _ & S & _). split; [apply S | apply Uu]; lia.
Qed.
Lemma cycled_ok : problem_ok X n (cycled p s).
Proof.
  pose proof (t_dims p X n W) as [T1 T2]. destruct W as (P & I & X0 & S & T).
  assert (I0 : i_ndx p = n).
  { unfold integrity in I. destruct (N p =? 0) eqn:Z; [apply Nat.eqb_eq in Z; lia|].
    rewrite !andb_true_iff, !Nat.eqb_eq in I. destruct (S 0) as (_ & _ & A & _); [lia|]. lia. }
  unfold problem_ok. rewrite N_cycled. split; [auto|]. split; [|split; [auto|split]].
  - unfold integrity. rewrite N_cycled. destruct (N p =? 0) eqn:Z; auto.
    rewrite !andb_true_iff, !Nat.eqb_eq, forallb_forall. simpl i_ndx. simpl t_nx. simpl t_ndx.
    destruct (st_cycled_ok 0) as [(A1 & A2 & A3 & A4 & _) _]; [lia|].
    destruct (st_cycled_ok (N p - 1)) as [(B1 & B2 & B3 & B4 & _) _]; [lia|].
    repeat split; try lia. intros k K. apply in_seq in K.
    destruct (st_cycled_ok k) as [(C1 & C2 & C3 & C4 & _) _]; [lia|].
    destruct (st_cycled_ok (k - 1)) as [(D1 & D2 & D3 & D4 & _) _]; [lia|].
    rewrite andb_true_iff, !Nat.eqb_eq. lia.
  - intros i J. now apply st_cycled_ok.
  - simpl t_nu. rewrite T, Uu by lia. symmetry. apply st_cycled_ok. lia.
Qed.

Lemma elen_cycled b : elen (cycled p s) b = elen p b.
Proof. destruct b; cbn [elen]; rewrite ?N_cycled; reflexivity. Qed.
(** sizes are the same along a vector *)
Lemma esz_const b i : i < elen p b -> esz p X n b i = esz p X n b 0.
Proof.
  pose proof (N_pos p X n W) as P.
  intros I. destruct b; cbn [esz elen] in *; auto; rewrite !Uu by (auto; lia); reflexivity.
Qed.
Lemma esz_cycled b i : i < elen p b -> esz (cycled p s) X n b i = esz p X n b 0.
Proof.
  pose proof (N_pos p X n W) as P.
  intros I. destruct b; cbn [esz elen] in *; auto; destruct (st_cycled_ok i I) as [_ H];
    rewrite H, Uu by (auto; lia); reflexivity.
Qed.

Lemma y_rot h k c v : has k (fun _ => True) (fun _ => c) v -> h + 1 <= k ->
  yields [AO h] v k (fun _ => True) (fun _ => c).
Proof.
  intros [L H] I. unfold yields. cbn [runv act1]. rewrite L, (proj2 (Nat.leb_le _ _) I).
  eexists; split; [reflexivity|]. split; auto. cbn [snd]. intros i J _.
  destruct (i <? h); [now apply H|]. destruct (S i =? k) eqn:E1; [apply H; auto; lia|].
  apply Nat.eqb_neq in E1. apply H; auto. lia.
Qed.
Lemma y_data k c v : has k (fun _ => True) (fun _ => c) v ->
  yields [AP c; AO 0; AD] v k (fun _ => True) (fun _ => c).
Proof.
  intros H. change [AP c; AO 0; AD] with ([AP c] ++ [AO 0] ++ [AD]).
  eapply y_app; [apply (y_push c k (fun _ => c)); auto|]. intros v1 H1.
  eapply y_app; [apply (y_rot 0 (S k) c); auto; lia|]. intros v2 [L2 H2].
  unfold yields. cbn [runv act1]. rewrite L2. cbn [Nat.leb]. eexists; split; [reflexivity|].
  split; cbn [fst snd]; [lia|]. intros i I _. apply H2; auto.
Qed.
Lemma y_none k c v : has k (fun _ => True) (fun _ => c) v -> yields [] v k (fun _ => True) (fun _ => c).
Proof. intros H. exists v. auto. Qed.

Lemma cycle_ok m : agree (elen p) (esz p X n) m -> lock m = false ->
  exists m', exec (cycle (cycled p s)) m = Ok m' /\
    agree (elen (cycled p s)) (esz (cycled p s) X n) m' /\ lock m' = false.
Proof.
  intros A L. pose proof (N_pos p X n W) as P.
  assert (Y : forall b, yields (flat_map (acts b) (cycle (cycled p s))) (cells m b) (elen p b) (fun _ => True)
                (fun _ => esz p X n b 0)).
  { intros b. assert (H : has (elen p b) (fun _ => True) (fun _ => esz p X n b 0) (cells m b)).
    { destruct (A b) as [A1 A2]. split; auto. intros i I _. rewrite <- (esz_const b i I). now apply A2. }
    unfold cycle, stage_data. rewrite N_cycled.
    destruct (st_cycled_ok (N p - 1)) as [(S1 & S2 & S3 & S4 & S5 & S6) S7]; [lia|].
    rewrite S1, S3, S4, S5, S6, S7.
    destruct b; cbn [flat_map app map data_bufs]; cbv beta iota delta [acts fbuf_beq]; cbn [app];
      first [apply y_none; exact H
            | apply y_rot; [exact H | cbn [elen]; lia]
            | revert H; cbn [esz]; rewrite ?Uu by lia; intros H; apply y_data; exact H]. }
  destruct (ctor_exec (cycle (cycled p s)) m) as (m' & E1 & L1 & S1); auto.
  { unfold cycle, stage_data. rewrite N_cycled, (proj2 (Nat.leb_le _ _) P). cbn [app map data_bufs].
    repeat (apply Forall_cons; [first [exact I | reflexivity]|]). apply Forall_nil. }
  { intros b. destruct (Y b) as (v & -> & _). discriminate. }
  exists m'. split; auto. split; auto. intros b. rewrite elen_cycled.
  destruct (Y b) as (v & Ev & Lv & H). rewrite S1 in Ev. injection Ev as <-. split; auto.
  intros i I. rewrite esz_cycled by auto. now apply H.
Qed.
End Cycle.

(** ** Theorems *)

Lemma events_calls chk X n owned p l : problem_ok X n p ->
  (chk = true -> forall i, i < N p -> owned i = 0) ->
  forall k m, calls_only l -> unlocked chk k l -> (chk = false -> k = false) ->
  agree (elen p) (esz p X n) m -> lock m = k ->
  exists m', exec (events chk p owned l) m = Ok m' /\ agree (elen p) (esz p X n) m'.
Proof.
  intros W O. induction l as [|[c|s] l IH]; intros k m C Un K A L; simpl; [eauto| |contradiction].
  destruct (g_code chk p owned X n W k c l K O Un) as (k' & K' & Un' & G).
  destruct (G m A L) as (m1 & E1 & A1 & L1). rewrite exec_app, E1. simpl. now apply (IH k' m1).
Qed.
Lemma events_steady chk X n u owned l : (chk = true -> forall i, owned i = 0) ->
  forall p k m, problem_ok X n p -> (forall i, i < N p -> nu (st p i) = u) ->
  steady X n u l -> unlocked chk k l -> (chk = false -> k = false) ->
  agree (elen p) (esz p X n) m -> lock m = k ->
  exists m' p', exec (events chk p owned l) m = Ok m' /\ agree (elen p') (esz p' X n) m' /\ N p' = N p /\
    problem_ok X n p' /\ (forall i, i < N p -> nu (st p' i) = u).
Proof.
  intros O. induction l as [|[c|s] l IH]; intros p k m W Uu C Un K A L; cbn [events].
  - exists m, p. auto.
  - destruct (g_code chk p owned X n W k c l K (fun H i _ => O H i) Un) as (k' & K' & Un' & G).
    destruct (G m A L) as (m1 & E1 & A1 & L1). rewrite exec_app, E1. simpl. now apply (IH p k' m1).
  - destruct C as (Ss & Su & C). destruct Un as [-> Un].
    destruct (cycle_ok p X n u s W Uu Ss Su m A L) as (m1 & E1 & A1 & L1). rewrite exec_app, E1. simpl.
    destruct (IH (cycled p s) false m1) as (m2 & p2 & E2 & A2 & N2 & W2 & U2); auto.
    + apply (cycled_ok p X n u s W Uu Ss Su).
    + rewrite (N_cycled p X n s W). intros i I. apply (st_cycled_ok p X n u s W Uu Ss Su i I).
    + rewrite (N_cycled p X n s W) in *. exists m2, p2. auto.
Qed.

(** What the user gets: states, controls and gains with the sizes of the problem. *)
Definition results_ok (X n : nat) (p : prob) (m : mem) : Prop :=
  len m Rxs = S (N p) /\ len m Rus = N p /\ len m Rgain = N p /\
  (forall i, i <= N p -> at_ m Rxs i = (X, 1)) /\
  (forall i, i < N p -> at_ m Rus i = (nu (st p i), 1) /\ at_ m Rgain i = (nu (st p i), n + 1)).
Lemma agree_results X n p m : agree (elen p) (esz p X n) m -> results_ok X n p m.
Proof.
  intros A. unfold results_ok. split; [apply (A Rxs)|]. split; [apply (A Rus)|]. split; [apply (A Rgain)|]. split.
  - intros i I. apply (A Rxs). simpl. lia.
  - intros i I. split; [now apply (A Rus) | now apply (A Rgain)].
Qed.

(** Any calls after setup, in any order. *)
Theorem C65_sizes_partial X n p chk owned l :
  problem_ok X n p -> (chk = true -> forall i, i < N p -> owned i = 0) ->
  calls_only l -> unlocked chk false l ->
  exists m, exec (session chk p owned l) mem0 = Ok m /\ results_ok X n p m.
Proof.
  intros W O C Un. destruct (setup_ok p X n W) as (m0 & E0 & A0 & L0).
  destruct (events_calls chk X n owned p l W O false m0) as (m & E1 & A1); auto.
  exists m. unfold session. rewrite exec_app, E0. split; auto. now apply agree_results.
Qed.

(** With stages that leave and enter. *)
Theorem C65_cycling_partial X n u p chk owned l :
  problem_ok X n p -> (forall i, i < N p -> nu (st p i) = u) -> (chk = true -> forall i, owned i = 0) ->
  steady X n u l -> unlocked chk false l ->
  exists m, exec (session chk p owned l) mem0 = Ok m /\
    len m Rxs = S (N p) /\ len m Rus = N p /\ len m Rgain = N p /\
    (forall i, i <= N p -> at_ m Rxs i = (X, 1)) /\
    (forall i, i < N p -> at_ m Rus i = (u, 1) /\ at_ m Rgain i = (u, n + 1)).
Proof.
  intros W Uu O C Un. destruct (setup_ok p X n W) as (m0 & E0 & A0 & L0).
  destruct (events_steady chk X n u owned l O p false m0) as (m & p' & E1 & A1 & N1 & W1 & U1); auto.
  exists m. unfold session. rewrite exec_app, E0. split; auto.
  destruct (agree_results X n p' m A1) as (H1 & H2 & H3 & H4 & H5). rewrite N1 in *.
  repeat split; auto; destruct (H5 i H) as [K1 K2]; rewrite U1 in * by auto; auto.
Qed.

(** ** Examples *)
Definition stg (X n u : nat) : stage := Stage X n u X n n u [].
Definition prb (X n : nat) (us : list nat) (t : nat) : prob :=
  Prob n n (Some X) (map (stg X n) us) X n t [].
(** one iteration of run with two steps of the line search, the first of which throws *)
Definition iteration : list event :=
  map Call [Evaluate; Infeasibility; Backward; Criterion; AcceptGains; UpdateImprovement;
            ForwardFails 1 true; Forward; Improvement; Accept].
Definition run_default : list event := Call (Start Default true) :: Call Evaluate :: iteration ++ iteration.

(** states of dimension 7 with tangent dimension 6, controls of different dimensions *)
Example C65_sizes_example :
  problem_ok 7 6 (prb 7 6 [2; 3; 0; 1] 1) /\ calls_only run_default /\ unlocked true false run_default /\
  exists m, exec (session true (prb 7 6 [2; 3; 0; 1] 1) (fun _ => 0) run_default) mem0 = Ok m /\
    results_ok 7 6 (prb 7 6 [2; 3; 0; 1] 1) m.
Proof.
  assert (W : problem_ok 7 6 (prb 7 6 [2; 3; 0; 1] 1)).
  { split; [vm_compute; lia|]. split; [reflexivity|]. split; [reflexivity|]. split; [|reflexivity].
    intros i I. change (i < 4) in I. do 4 (destruct i as [|i]; [repeat split|]). lia. }
  split; [exact W|]. split; [vm_compute; tauto|]. split; [vm_compute; tauto|].
  apply C65_sizes_partial; auto; vm_compute; tauto.
Qed.
(** and the final sizes, by computation *)
Example C65_run_example :
  match exec (session true (prb 7 6 [2; 3; 0; 1] 1) (fun _ => 0) run_default) mem0 with
  | Ok m => map (at_ m Rgain) (seq 0 4) = [(2, 7); (3, 7); (0, 7); (1, 7)] /\ map (at_ m JtH) [0; 1] = [(8, 6); (9, 6)]
  | Stop _ => False
  end.
Proof. vm_compute. auto. Qed.
Definition mpc_loop : list event := run_default ++ Cycle (stg 3 2 1) :: run_default ++ [Cycle (stg 3 2 1)].
Example C65_cycling_example :
  problem_ok 3 2 (prb 3 2 [1; 1; 1] 1) /\ steady 3 2 1 mpc_loop /\ unlocked true false mpc_loop /\
  exists m, exec (session true (prb 3 2 [1; 1; 1] 1) (fun _ => 0) mpc_loop) mem0 = Ok m.
Proof.
  assert (W : problem_ok 3 2 (prb 3 2 [1; 1; 1] 1)).
  { split; [vm_compute; lia|]. split; [reflexivity|]. split; [reflexivity|]. split; [|reflexivity].
    intros i I. change (i < 3) in I. do 3 (destruct i as [|i]; [repeat split|]). lia. }
  assert (S : steady 3 2 1 mpc_loop) by (vm_compute; tauto).
  assert (Un : unlocked true false mpc_loop) by (vm_compute; tauto).
  repeat (split; [assumption|]).
  destruct (C65_cycling_partial 3 2 1 (prb 3 2 [1; 1; 1] 1) true (fun _ => 0) mpc_loop) as (m & H & _); eauto.
  intros i I. change (i < 3) in I. do 3 (destruct i as [|i]; [reflexivity|]). lia.
Qed.

(** ** What is false without the hypotheses *)
Definition stops (r : reason) (x : res mem) : Prop := x = Stop r.
Ltac stopped := vm_compute; reflexivity.
(** Spaces of different dimensions along the horizon are accepted by checkIntegrity
    and by setup; the first iteration uses the wrong space for the next state
    (computeInfeasibility; the same in forwardPass). *)
Definition narrowing : prob :=
  Prob 2 2 (Some 2) [Stage 2 2 1 2 2 2 1 []; Stage 2 2 1 1 1 2 1 []] 1 1 1 [].
Theorem C65_spaces_refuted :
  integrity narrowing = true /\
  (exists m, exec (setup narrowing) mem0 = Ok m) /\
  (exists m, exec (session false narrowing (fun _ => 0) [Call (Start Default false); Call Evaluate]) mem0 = Ok m) /\
  stops Size (exec (session false narrowing (fun _ => 0)
    [Call (Start Default false); Call Evaluate; Call Infeasibility]) mem0).
Proof.
  split; [reflexivity|]. split; [eexists; vm_compute; reflexivity|].
  split; [eexists; vm_compute; reflexivity|]. stopped.
Qed.
(** An initial condition that is not a StateErrorResidual is accepted by setup; the
    first iteration throws. *)
Theorem C65_init_refuted :
  let p := Prob 2 1 None [stg 2 2 1] 2 2 1 [] in
  integrity p = true /\
  stops Throw (exec (session false p (fun _ => 0) (Call (Start Default false) :: Call Evaluate :: iteration)) mem0).
Proof. split; [reflexivity | stopped]. Qed.
(** A cost made for another space is accepted by setup; the assignment to the
    Q-function moves its memory, and the references to its blocks dangle. *)
Theorem C65_cost_refuted :
  let p := Prob 2 2 (Some 2) [Stage 2 2 1 2 2 3 1 []] 2 2 1 [] in
  stage_accepted (st p 0) = true /\ integrity p = true /\
  stops Dangle (exec (session false p (fun _ => 0) (Call (Start Default false) :: Call Evaluate :: iteration)) mem0).
Proof. split; [reflexivity|]. split; [reflexivity|]. stopped. Qed.
(** The terminal cost is called with the control of the last stage by the forward pass,
    and with a control of its own dimension by evaluate. *)
Theorem C65_terminal_refuted :
  let p := prb 2 2 [1; 1] 0 in
  integrity p = true /\
  (exists m, exec (session false p (fun _ => 0) [Call (Start Default false); Call Evaluate; Call Infeasibility;
     Call Backward; Call Criterion; Call AcceptGains; Call UpdateImprovement]) mem0 = Ok m) /\
  stops Size (exec (session false p (fun _ => 0) (Call (Start Default false) :: Call Evaluate :: iteration)) mem0).
Proof. split; [reflexivity|]. split; [eexists; vm_compute; reflexivity|]. stopped. Qed.
(** backwardPass copies every stage model inside its no-allocation scope: with the
    check, it stops as soon as a stage model owns an Eigen object, in any problem. *)
Theorem C65_copy_refuted X n p owned :
  problem_ok X n p -> owned (N p - 1) <> 0 ->
  stops Malloc (exec (session true p owned [Call Backward]) mem0).
Proof.
  intros W O. unfold stops, session, events. rewrite exec_app.
  destruct (setup_ok p X n W) as (m0 & -> & A0 & L0). cbn [bind code]. rewrite app_nil_r.
  unfold backward, scope. rewrite exec_app.
  destruct (g_BEGIN true p X n false (fun _ => eq_refl) m0 A0 L0) as (m1 & -> & A1 & L1). cbn [bind].
  rewrite !exec_app. destruct (g_term_value p X n W true m1 A1 L1) as (m2 & -> & A2 & L2). cbn [bind].
  pose proof (N_pos p X n W) as P. replace (seq 0 (N p)) with (seq 0 (N p - 1) ++ [N p - 1]).
  2:{ rewrite <- seq_S. f_equal. lia. }
  rewrite rev_app_distr. cbn [rev app flat_map]. rewrite exec_app. unfold stage_backward. cbv zeta. unfold stage_at.
  rewrite (proj2 (Nat.ltb_lt (N p - 1) (N p))) by lia. cbn [exec step bind size]. rewrite L2.
  unfold count. cbn [fst snd]. rewrite Nat.mul_1_r, (proj2 (Nat.eqb_neq _ _) O). reflexivity.
Qed.
Example C65_copy_example : stops Malloc (exec (session true (prb 7 6 [2; 3] 3) (fun i => i) [Call Backward]) mem0).
Proof.
  apply (C65_copy_refuted 7 6); [|discriminate]. split; [vm_compute; lia|]. split; [reflexivity|]. split; [reflexivity|].
  split; [|reflexivity]. intros i I. change (i < 2) in I. do 2 (destruct i as [|i]; [repeat split|]). lia.
Qed.
(** The exception of the tests for NaN leaves the no-allocation scope without ending
    it.  When the line search gives up after it, the next evaluation runs with
    allocations forbidden, in any problem. *)
Theorem C65_nan_refuted X n p k :
  problem_ok X n p ->
  stops Malloc (exec (session true p (fun _ => 0)
    [Call (ForwardFails k true); Call Accept; Call Evaluate]) mem0).
Proof.
  intros W. unfold stops, session, events. rewrite exec_app.
  destruct (setup_ok p X n W) as (m0 & -> & A0 & L0). cbn [bind code]. rewrite app_nil_r, !exec_app.
  destruct (g_forward_fails true p X n W false k true (fun _ => eq_refl) m0 A0 L0) as (m1 & -> & A1 & L1).
  cbn [bind]. rewrite exec_app.
  destruct (g_accept p X n true m1 A1 L1) as (m2 & -> & A2 & L2). cbn [bind].
  unfold evaluate. cbn [app exec step]. destruct (A2 Rxs) as [-> _].
  cbn [elen]. rewrite Nat.eqb_refl. cbn [bind]. destruct (A2 Rus) as [-> _].
  cbn [elen]. rewrite Nat.eqb_refl. cbn [bind]. now rewrite L2.
Qed.
Example C65_nan_example :
  problem_ok 3 2 (prb 3 2 [1; 1] 1) /\
  stops Malloc (exec (session true (prb 3 2 [1; 1] 1) (fun _ => 0)
    (Call (Start Default false) :: Call Evaluate :: map Call [Infeasibility; Backward; Criterion; AcceptGains;
       UpdateImprovement; ForwardFails 0 true; ForwardFails 1 true; Accept; Evaluate])) mem0).
Proof.
  split; [|stopped]. split; [vm_compute; lia|]. split; [reflexivity|]. split; [reflexivity|]. split; [|reflexivity].
  intros i I. change (i < 2) in I. do 2 (destruct i as [|i]; [repeat split|]). lia.
Qed.
(** Cycling does not touch the results.  With controls of different dimensions, also
    when the stage that enters has the dimensions of the one that leaves, a warm start
    with the sizes of the new problem is refused, and without one the new gains
    allocate inside the no-allocation scope. *)
Theorem C65_periodic_refuted :
  let p := prb 2 2 [1; 2] 1 in let s := stg 2 2 1 in let l := [Cycle s; Call (Start Both false)] in
  integrity (cycled p s) = true /\ nu s = nu (st p 0) /\
  stops Throw (exec (session false p (fun _ => 0) l) mem0) /\
  stops Malloc (exec (session true p (fun _ => 0)
    ([Cycle s; Call (Start Default false)] ++
     map Call [Evaluate; Infeasibility; Backward; Criterion; AcceptGains])) mem0) /\
  exists m, exec (session false p (fun _ => 0) ([Cycle s; Call (Start Default false)] ++ iteration)) mem0 = Ok m.
Proof.
  split; [reflexivity|]. split; [reflexivity|]. split; [stopped|]. split; [stopped|].
  eexists. vm_compute. reflexivity.
Qed.
(** A stage with more controls enters: the Q-function keeps the size of the stage that
    left. *)
Theorem C65_new_control_refuted :
  let p := prb 2 2 [1; 1] 1 in let s := stg 2 2 2 in
  integrity (cycled p s) = true /\
  stops Assert (exec (session false p (fun _ => 0) ([Cycle s; Call (Start Default false)] ++ iteration)) mem0).
Proof. split; [reflexivity | stopped]. Qed.
(** Setup accepts an empty problem; run refuses it. *)
Theorem C65_empty chk owned g f n x t l :
  stops Throw (exec (session chk (Prob n n (Some x) [] x n t []) owned (Call (Start g f) :: l)) mem0).
Proof.
  unfold stops, session. rewrite exec_app. cbn [events]. reflexivity.
Qed.
