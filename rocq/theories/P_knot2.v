(** C70: vectors of knots. *)
From Coq Require Import ZArith List Bool Arith Lia.
From Verif Require Import ArenaModel P_arena KnotModel P_knot.
Import ListNotations.
Open Scope nat_scope.

Lemma kvrun_app v l v' l' v'' : kvrun v l v' -> kvrun v' l' v'' -> kvrun v (l ++ l') v''.
Proof. induction 1; simpl; auto. intro. econstructor; eauto. Qed.
(** a knot with a value, in the resource r *)
Definition full (kv : kvs) (r k : nat) : Prop := exists d f, kv k = Some (r, KV d f).

Ltac upds := repeat first [rewrite upd_same | rewrite upd_other by (first [assumption | congruence | lia])].

(** growth of a vector: the new knots have the values of the old ones, which are gone *)
Theorem C70_grow : forall r new old kv,
  length new = length old -> NoDup new -> NoDup old -> (forall k, In k new -> ~ In k old) ->
  (forall k, In k new -> kv k = None) -> (forall k, In k old -> full kv r k) ->
  exists kv', kvrun kv (grow r new old) kv' /\ map kv' new = map kv old /\
    (forall k, In k old -> kv' k = None) /\
    (forall k, ~ In k new -> ~ In k old -> kv' k = kv k).
Proof.
  intros r new. induction new as [|n new IH]; intros [|o old] kv Hl Nn No D Fn Fo; try discriminate.
  - exists kv. split; [exact (kvnil kv)|]. repeat split; auto; now intros k [].
  - injection Hl as Hl. apply NoDup_cons_iff in Nn as [Nn1 Nn]. apply NoDup_cons_iff in No as [No1 No].
    destruct (Fo o (or_introl eq_refl)) as (d & f & Eo). pose proof (Fn n (or_introl eq_refl)) as En.
    assert (no : n <> o) by congruence.
    set (kv1 := upd (upd kv n (Some (r, KV d f))) o (Some (r, KMoved d))).
    set (kv2 := upd kv1 o None).
    assert (A : forall k, k <> n -> k <> o -> kv2 k = kv k)
      by (intros k H1 H2; unfold kv2, kv1; now rewrite !upd_other).
    assert (B : forall k, In k new -> k <> n /\ k <> o).
    { intros k Hk. split; [intros ->; contradiction|intros ->; apply (D o); [now right|now left]]. }
    assert (C : forall k, In k old -> k <> n /\ k <> o).
    { intros k Hk. split; [intros ->; apply (D n); [now left|now right]|intros ->; contradiction]. }
    destruct (IH old kv2 Hl Nn No) as (kv' & R & M & Z & O).
    + intros k Hk Hk'. apply (D k); now right.
    + intros k Hk. destruct (B k Hk). rewrite A by assumption. apply Fn. now right.
    + intros k Hk. destruct (C k Hk). destruct (Fo k (or_intror Hk)) as (d' & f' & E). exists d', f'.
      now rewrite A.
    + exists kv'. split; [|split; [|split]].
      * cbn [grow combine flat_map fst snd app].
        apply kvcons with kv1; [now apply vKMoveExt|]. apply kvcons with kv2; [|exact R].
        apply vKDestroy with (r, KMoved d). unfold kv1. now upds.
      * cbn [map]. f_equal.
        -- rewrite O; [|assumption|intro; apply (D n); [now left|now right]].
           unfold kv2, kv1. rewrite !upd_other by assumption. now rewrite upd_same, Eo.
        -- rewrite M. apply map_ext_in. intros k Hk. destruct (C k Hk). now apply A.
      * intros k [<-|Hk]; [|now apply Z].
        rewrite O; [unfold kv2; apply upd_same| |assumption]. intro. apply (D o); [now right|now left].
      * intros k H1 H2. rewrite O; [|intro; apply H1; now right|intro; apply H2; now right].
        apply A; intros ->; [apply H1|apply H2]; now left.
Qed.

(** copies of a vector, into any resource: equal values, and the originals as they were *)
Theorem C70_copy_stages : forall r new old kv,
  length new = length old -> NoDup new -> (forall k, In k new -> ~ In k old) ->
  (forall k, In k new -> kv k = None) -> (forall k, In k old -> exists r', full kv r' k) ->
  exists kv', kvrun kv (copy_stages r new old) kv' /\
    map (fun k => option_map snd (kv' k)) new = map (fun k => option_map snd (kv k)) old /\
    (forall k, In k new -> full kv' r k) /\
    (forall k, ~ In k new -> kv' k = kv k).
Proof.
  intros r new. induction new as [|n new IH]; intros [|o old] kv Hl Nn D Fn Fo; try discriminate.
  - exists kv. split; [exact (kvnil kv)|]. repeat split; auto; now intros k [].
  - injection Hl as Hl. apply NoDup_cons_iff in Nn as [Nn1 Nn].
    destruct (Fo o (or_introl eq_refl)) as (r' & d & f & Eo). pose proof (Fn n (or_introl eq_refl)) as En.
    set (kv1 := upd kv n (Some (r, KV d f))).
    assert (A : forall k, k <> n -> kv1 k = kv k) by (intros k H1; unfold kv1; now rewrite upd_other).
    assert (C : forall k, In k old -> k <> n) by (intros k Hk ->; apply (D n); [now left|now right]).
    destruct (IH old kv1 Hl Nn) as (kv' & R & M & Z & O).
    + intros k Hk Hk'. apply (D k); now right.
    + intros k Hk. rewrite A by (intros ->; contradiction). apply Fn. now right.
    + intros k Hk. destruct (Fo k (or_intror Hk)) as (r'' & d' & f' & E). exists r'', d', f'.
      rewrite A by auto. exact E.
    + assert (En' : kv' n = Some (r, KV d f)) by (rewrite O by assumption; unfold kv1; apply upd_same).
      exists kv'. split; [|split; [|split]].
      * cbn [copy_stages combine map fst snd]. apply kvcons with kv1; [now apply vKCopy with r'|exact R].
      * cbn [map]. f_equal; [now rewrite En', Eo|].
        rewrite M. apply map_ext_in. intros k Hk. now rewrite A by auto.
      * intros k [<-|Hk]; [now exists d, f|now apply Z].
      * intros k H1. rewrite O; [|intro; apply H1; now right]. apply A. intros ->. apply H1. now left.
Qed.

Lemma swap_ok t a b r kv : t <> a -> t <> b -> a <> b -> kv t = None -> full kv r a -> full kv r b ->
  exists kv', kvrun kv (kswap t a b) kv' /\ kv' a = kv b /\ kv' b = kv a /\ forall k, k <> a -> k <> b -> kv' k = kv k.
Proof.
  intros ta tb ab Et (d & f & Ea) (d' & f' & Eb).
  set (k1 := upd (upd kv t (Some (r, KV d f))) a (Some (r, KMoved d))).
  set (k2 := upd k1 a (Some (r, KV d' f'))). set (k3 := upd k2 b (Some (r, KV d f))). set (k4 := upd k3 t None).
  exists k4. split; [|split; [|split]].
  - apply kvcons with k1; [now apply vKMove|].
    apply kvcons with k2.
    { apply vKMoveAssign with (w := KMoved d) (rj := r); unfold k1.
      - apply upd_same. - now rewrite !upd_other by congruence. }
    apply kvcons with k3.
    { apply vKMoveAssign with (w := KV d' f') (rj := r); unfold k2, k1.
      - now rewrite !upd_other by congruence.
      - rewrite !upd_other by congruence. apply upd_same. }
    apply kvcons with k4; [|constructor].
    apply vKDestroy with (r, KV d f). unfold k3, k2, k1. rewrite !upd_other by congruence. apply upd_same.
  - unfold k4, k3, k2. rewrite !upd_other by congruence. now rewrite upd_same.
  - unfold k4, k3. rewrite upd_other by congruence. now rewrite upd_same.
  - intros k H1 H2. unfold k4, k3, k2, k1. destruct (Nat.eq_dec k t) as [->|N].
    + now rewrite upd_same.
    + now rewrite !upd_other by congruence.
Qed.

(** rotation: the values move by one, cyclically *)
Definition rot {B} (l : list B) : list B := match l with [] => [] | x :: l => l ++ [x] end.
Theorem C70_rotate : forall r t ks kv,
  NoDup ks -> ~ In t ks -> kv t = None -> (forall k, In k ks -> full kv r k) ->
  exists kv', kvrun kv (rotate_left t ks) kv' /\ map kv' ks = rot (map kv ks) /\
    forall k, ~ In k ks -> kv' k = kv k.
Proof.
  intros r t ks. induction ks as [|a ks IH]; intros kv N Ht Et F.
  - exists kv. split; [exact (kvnil kv)|]. repeat split; auto.
  - destruct ks as [|b ks]; [exists kv; split; [exact (kvnil kv)|]; repeat split; auto|].
    apply NoDup_cons_iff in N as [Na N].
    destruct (swap_ok t a b r kv) as (k1 & R1 & Ea & Eb & O1); auto.
    { intros ->. apply Ht. now left. } { intros ->. apply Ht. right. now left. }
    { intros ->. apply Na. now left. } { apply F. now left. } { apply F. right. now left. }
    assert (Nb := N). apply NoDup_cons_iff in Nb as [Nb _].
    assert (A : forall k, In k ks -> k1 k = kv k).
    { intros k Hk. apply O1; intros ->; [apply Na; now right|contradiction]. }
    destruct (IH k1) as (k2 & R2 & M & O2); auto.
    { intro. apply Ht. now right. }
    { rewrite O1; auto; intros ->; apply Ht; [now left|right; now left]. }
    { intros k [<-|Hk].
      - destruct (F a (or_introl eq_refl)) as (d & f & E). exists d, f. now rewrite Eb.
      - destruct (F k (or_intror (or_intror Hk))) as (d & f & E). exists d, f. now rewrite A. }
    exists k2. split; [|split].
    + cbn [rotate_left]. apply kvrun_app with k1; assumption.
    + cbn [map] in M |- *. cbn [map rot] in M |- *.
      rewrite O2 by assumption. rewrite Ea. cbn [app]. f_equal.
      rewrite M, Eb. f_equal. apply map_ext_in. exact A.
    + intros k Hk. rewrite O2 by (intro; apply Hk; now right).
      apply O1; intros ->; apply Hk; [now left|right; now left].
Qed.

(** cycleAppend of the workspace: the first knot leaves, the others advance, a zero knot with
    the new dimensions is the last one before the terminal knot, which stays *)
Theorem C70_cycle : forall r t ks b e kv d,
  NoDup (ks ++ [b; e]) -> ~ In t (ks ++ [b; e]) -> kv t = None ->
  (forall k, In k (ks ++ [b; e]) -> full kv r k) ->
  exists kv', kvrun kv (cycle_append r t (ks ++ [b; e]) d) kv' /\
    map kv' (ks ++ [b; e]) = tl (map kv (ks ++ [b])) ++ [Some (r, KV (Some d) (fun i => zeros (shape d i))); kv e] /\
    forall k, ~ In k (ks ++ [b; e]) -> kv' k = kv k.
Proof.
  intros r t ks b e kv d N Ht Et F.
  change [b; e] with ([b] ++ [e]) in *. rewrite app_assoc in *.
  unfold cycle_append. rewrite removelast_last, last_last.
  assert (Ne : ~ In e (ks ++ [b])) by (apply NoDup_remove_2 in N; now rewrite app_nil_r in N).
  assert (Nk : NoDup (ks ++ [b])) by (apply NoDup_remove_1 in N; now rewrite app_nil_r in N).
  assert (Tk : ~ In t (ks ++ [b])) by (intro; apply Ht; apply in_or_app; now left).
  destruct (C70_rotate r t (ks ++ [b]) kv) as (k1 & R1 & M1 & O1); auto.
  { intros k Hk. apply F. apply in_or_app. now left. }
  assert (Nb : ~ In b ks) by (apply NoDup_remove_2 in Nk; now rewrite app_nil_r in Nk).
  assert (tb : t <> b) by (intros ->; apply Tk; apply in_or_app; right; now left).
  assert (Fb : full k1 r b).
  { assert (X : In (k1 b) (rot (map kv (ks ++ [b])))).
    { rewrite <- M1. apply in_map. apply in_or_app. right. now left. }
    assert (Y : In (k1 b) (map kv (ks ++ [b]))).
    { destruct (map kv (ks ++ [b])) as [|x l]; cbn [rot] in X; [easy|]. apply in_app_or in X.
      destruct X as [X|[X|[]]]; [now right|now left]. }
    apply in_map_iff in Y. destruct Y as (k & E & Hk).
    destruct (F k (in_or_app _ _ _ (or_introl Hk))) as (d1 & f1 & E1). exists d1, f1. congruence. }
  destruct Fb as (db & fb & Eb).
  set (z := Some (r, KV (Some d) (fun i => zeros (shape d i)))).
  set (k2 := upd k1 t z). set (k3 := upd k2 b z). set (k4 := upd k3 t None).
  assert (Et1 : k1 t = None) by (rewrite O1; assumption).
  exists k4. split; [|split].
  - apply kvrun_app with k1; [exact R1|].
    apply kvcons with k2; [now apply vKNew|].
    apply kvcons with k3.
    { apply vKMoveAssign with (w := KV db fb) (rj := r); unfold k2; [now rewrite upd_other by congruence|apply upd_same]. }
    apply kvcons with k4; [|constructor]. eapply vKDestroy. unfold k3, k2.
    rewrite upd_other by congruence. rewrite upd_same. reflexivity.
  - assert (Ek : forall k, In k ks -> k4 k = k1 k).
    { intros k Hk. unfold k4, k3, k2. rewrite !upd_other; auto; intros ->;
        first [contradiction | apply Tk; apply in_or_app; now left]. }
    assert (Ee : k4 e = kv e).
    { unfold k4, k3, k2. rewrite !upd_other.
      - now apply O1. - intros ->. apply Ht. apply in_or_app. right. now left.
      - intros ->. apply Ne. apply in_or_app. right. now left.
      - intros ->. apply Ht. apply in_or_app. right. now left. }
    assert (Ebb : k4 b = z) by (unfold k4, k3; rewrite upd_other by congruence; apply upd_same).
    rewrite !map_app in *. cbn [map] in *. rewrite Ee, Ebb.
    rewrite (map_ext_in _ _ _ Ek).
    assert (M2 : map k1 ks = tl (map kv ks ++ [kv b])).
    { destruct (map kv ks) as [|x l] eqn:Em; cbn [app rot tl] in M1 |- *.
      - destruct ks; [reflexivity|discriminate].
      - change (l ++ [kv b]) with (l ++ [kv b]) in M1.
        apply app_inj_tail in M1. apply M1. }
    rewrite M2. now rewrite <- app_assoc.
  - intros k Hk. unfold k4. destruct (Nat.eq_dec k t) as [->|Nt]; [now rewrite upd_same|].
    unfold k3, k2. rewrite !upd_other; auto.
    + apply O1. intro. apply Hk. apply in_or_app. now left.
    + intros ->. apply Hk. apply in_or_app. left. apply in_or_app. right. now left.
Qed.

(** addParameterization: every knot gets zero parameter matrices of the new sizes, and keeps
    the others *)
Definition param (w : option (nat * kval)) (n : nat) : option (nat * kval) :=
  match w with
  | Some (r, KV (Some d) f) =>
    Some (r, KV (Some (with_nth d n)) (fun i => if i <? 11 then f i else zeros (shape (with_nth d n) i)))
  | w => w
  end.
Theorem C70_param : forall n ks kv,
  NoDup ks -> (forall k, In k ks -> exists r d f, kv k = Some (r, KV (Some d) f)) ->
  exists kv', kvrun kv (add_parameterization ks n) kv' /\ map kv' ks = map (fun k => param (kv k) n) ks /\
    forall k, ~ In k ks -> kv' k = kv k.
Proof.
  intros n ks. induction ks as [|a ks IH]; intros kv N F.
  - exists kv. split; [exact (kvnil kv)|]. repeat split; auto.
  - apply NoDup_cons_iff in N as [Na N]. destruct (F a (or_introl eq_refl)) as (r & d & f & Ea).
    set (k1 := upd kv a (param (kv a) n)).
    assert (A : forall k, In k ks -> k1 k = kv k) by (intros k Hk; unfold k1; rewrite upd_other; auto; intros ->; contradiction).
    destruct (IH k1 N) as (k2 & R & M & O).
    { intros k Hk. rewrite A by assumption. apply F. now right. }
    exists k2. split; [|split].
    + cbn [add_parameterization map]. apply kvcons with k1; [|exact R].
      unfold k1. rewrite Ea. cbn [param]. now apply vKAddParam.
    + cbn [map]. rewrite O by assumption. unfold k1 at 1. rewrite upd_same. f_equal.
      rewrite M. apply map_ext_in. intros k Hk. now rewrite A.
    + intros k Hk. rewrite O by (intro; apply Hk; now right). unfold k1. apply upd_other.
      intros ->. apply Hk. now left.
Qed.

(** ** Counterexamples *)
Definition d1 : dims := Dims 2 1 0 2 0.
Definition mem (l : list kop) : option (list cell) := match krun kinit l with Ok s => Some (hp (ar s)) | Err _ => None end.
Definition in_use (c : cell) : bool := match c with Live _ (_ :: _) => true | _ => false end.
Definition val (l : list kop) (k i : nat) : option (res content) :=
  match krun kinit l with
  | Ok s => match mats (ar s) (at_ k i) with Some m => Some (read (hp (ar s)) m) | None => None end
  | Err _ => None
  end.

(** stages = std::move(other.stages) between resources: eight matrices that are not empty are
    never released *)
Theorem C70_move_stages_refuted :
  exists l, option_map (filter in_use) (mem ([KNew 0 5 d1] ++ move_stages 7 [] [1] [0] ++ [KDestroy 1])) = Some l /\
            length l = 8 /\ Forall (fun c => match c with Live r _ => r = 5 | Freed => False end) l.
Proof. eexists. split; [vm_compute; reflexivity|]. split; [reflexivity|]. repeat constructor. Qed.
(** the move assignment of knots copies: the source keeps its matrices, and the target its
    resource (documented: "Other allocator will be stolen") *)
Theorem C70_steal_refuted : forall kv k j r w rj d f kv',
  kv k = Some (r, w) -> kv j = Some (rj, KV d f) -> kvstep kv (KMoveAssign k j) kv' ->
  option_map fst (kv' k) = Some r /\ (k <> j -> kv' j = Some (rj, KV d f)).
Proof.
  intros kv k j r w rj d f kv' Ek Ej H. inversion H; subst. split.
  - rewrite upd_same. cbn. congruence.
  - intro N. now rewrite upd_other by congruence.
Qed.
(** a knot moved from keeps its dimensions, but has no matrices *)
Theorem C70_moved_refuted :
  (exists s, krun kinit [KNew 0 5 d1; KMove 1 0] = Ok s /\ kd s 0 = Some (Some d1)) /\
  val [KNew 0 5 d1; KMove 1 0] 0 0 = Some (Err BadAccess).
Proof. split; [eexists; split; vm_compute; reflexivity|vm_compute; reflexivity]. Qed.
(** the dimensions of a knot made from an allocator only have no value, and
    addParameterization reads them *)
Theorem C70_uninit_refuted : forall r n, krun kinit [KNew0 0 r; KAddParam 0 n] = Err BadAccess.
Proof. reflexivity. Qed.

(** ** Example: a vector of three knots grows, is copied into another resource, rotated and
    parameterised; the values are as prescribed *)
Definition ex : list kop :=
  [KNew 0 5 d1; KNew 1 5 d1; KNew 2 5 (Dims 2 0 1 0 0);
   KSet 0 3 [Some 1%Z; Some 2%Z]; KSet 1 3 [Some 3%Z; Some 4%Z]; KSet 2 10 [Some 6%Z]] ++
  grow 5 [3; 4; 5] [0; 1; 2] ++ copy_stages 7 [6; 7; 8] [3; 4; 5] ++
  cycle_append 5 9 [3; 4; 5] (Dims 2 3 1 2 0) ++ add_parameterization [3; 4; 5] 2.
Example C70_example :
  (val ex 3 3 = Some (Ok [Some 3%Z; Some 4%Z]) /\ val ex 4 3 = Some (Ok [Some 0%Z; Some 0%Z]) /\
   val ex 4 1 = Some (Ok (repeat (Some 0%Z) 6)) /\ val ex 5 10 = Some (Ok [Some 6%Z]) /\
   val ex 6 3 = Some (Ok [Some 1%Z; Some 2%Z]) /\ val ex 3 11 = Some (Ok (repeat (Some 0%Z) 4)) /\
   val ex 0 3 = None) /\
  option_map (forallb (fun c => negb (match c with Live _ _ => true | Freed => false end)))
    (mem (ex ++ map KDestroy [3; 4; 5; 6; 7; 8])) = Some true.
Proof. repeat split; vm_compute; reflexivity. Qed.
