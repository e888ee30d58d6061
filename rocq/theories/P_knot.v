(** C70: the knots of LQ problems are values and own their memory. *)
From Coq Require Import ZArith List Bool Arith Lia.
From Verif Require Import ArenaModel P_arena KnotModel.
Import ListNotations.
Open Scope nat_scope.

(** ** Specification: a knot has a resource, dimensions and sixteen matrices *)
Inductive kval := KV (d : option dims) (f : nat -> content) | KMoved (d : option dims).
Definition kvs := nat -> option (nat * kval).
Definition kdims (w : kval) : option dims := match w with KV d _ => d | KMoved d => d end.
Definition sh (d : option dims) (i : nat) : nat * nat := match d with Some d => shape d i | None => (0, 0) end.

Inductive kvstep (v : kvs) : kop -> kvs -> Prop :=
| vKNew0 k r : v k = None -> kvstep v (KNew0 k r) (upd v k (Some (r, KV None (fun _ => []))))
| vKNew k r d : v k = None ->
    kvstep v (KNew k r d) (upd v k (Some (r, KV (Some d) (fun i => zeros (shape d i)))))
| vKCopy k j r rj d f : v k = None -> v j = Some (rj, KV d f) ->
    kvstep v (KCopy k j r) (upd v k (Some (r, KV d f)))
| vKMove k j rj d f : v k = None -> v j = Some (rj, KV d f) ->
    kvstep v (KMove k j) (upd (upd v k (Some (rj, KV d f))) j (Some (rj, KMoved d)))
| vKMoveExt k j r d f : v k = None -> v j = Some (r, KV d f) ->
    kvstep v (KMoveExt k j r) (upd (upd v k (Some (r, KV d f))) j (Some (r, KMoved d)))
| vKAssign k j r w rj d f : v k = Some (r, w) -> v j = Some (rj, KV d f) ->
    kvstep v (KAssign k j) (upd v k (Some (r, KV d f)))
| vKMoveAssign k j r w rj d f : v k = Some (r, w) -> v j = Some (rj, KV d f) ->
    kvstep v (KMoveAssign k j) (upd v k (Some (r, KV d f)))
| vKAddParam k n r d f : v k = Some (r, KV (Some d) f) ->
    kvstep v (KAddParam k n)
      (upd v k (Some (r, KV (Some (with_nth d n))
                         (fun i => if i <? 11 then f i else zeros (shape (with_nth d n) i)))))
| vKSet k i l r d f : v k = Some (r, KV d f) -> i < 16 -> length l = fst (sh d i) * snd (sh d i) ->
    kvstep v (KSet k i l) (upd v k (Some (r, KV d (upd f i l))))
| vKDestroy k w : v k = Some w -> kvstep v (KDestroy k) (upd v k None).
Inductive kvrun : kvs -> list kop -> kvs -> Prop :=
| kvnil v : kvrun v [] v
| kvcons v o v' l v'' : kvstep v o v' -> kvrun v' l v'' -> kvrun v (o :: l) v''.

(** ** The matrices of a knot *)
Definition enc (o : option (nat * kval)) (i : nat) : option (nat * value) :=
  match o with
  | None => None
  | Some (r, KV d f) => Some (r, Val (fst (sh d i)) (snd (sh d i)) (f i))
  | Some (r, KMoved _) => Some (r, MovedC)
  end.
Definition Krel (v : vstate) (kv : kvs) : Prop := forall k i, i < 16 -> v (at_ k i) = enc (kv k) i.

Lemma at_inj k i j l : i < 16 -> l < 16 -> at_ k i = at_ j l -> k = j /\ i = l.
Proof. unfold at_. lia. Qed.
Lemma at_ex x : exists k i, i < 16 /\ x = at_ k i.
Proof.
  exists (x / 16), (x mod 16). split; [apply Nat.mod_upper_bound; lia|].
  unfold at_. rewrite <- Nat.div_mod_eq. reflexivity.
Qed.
Lemma upd_same {A} (f : nat -> A) x a : upd f x a x = a.
Proof. unfold upd. now rewrite Nat.eqb_refl. Qed.
Lemma upd_other {A} (f : nat -> A) x a y : y <> x -> upd f x a y = f y.
Proof. intro H. unfold upd. now destruct (Nat.eqb_spec y x). Qed.
Lemma vrun_app v l v' l' v'' : vrun v l v' -> vrun v' l' v'' -> vrun v (l ++ l') v''.
Proof. induction 1; simpl; auto. intro. econstructor; eauto. Qed.
Lemma run_app s l l' : run s (l ++ l') = bind (run s l) (fun s' => run s' l').
Proof.
  revert s. induction l as [|o l IH]; intro s; simpl; [reflexivity|].
  destruct (step s o); simpl; auto.
Qed.

(** operations on the matrices of the knots k and j, one field after the other: each changes
    only its field, to what [kv'] says *)
Definition local (k j : nat) (kv kv' : kvs) (g : nat -> op) (i : nat) : Prop :=
  forall v, v (at_ k i) = enc (kv k) i -> v (at_ j i) = enc (kv j) i ->
  exists v', vstep v (g i) v' /\ v' (at_ k i) = enc (kv' k) i /\ v' (at_ j i) = enc (kv' j) i /\
             forall x, x <> at_ k i -> x <> at_ j i -> v' x = v x.
Lemma fields_run k j kv kv' g l : forall v,
  NoDup l -> (forall i, In i l -> i < 16 /\ local k j kv kv' g i) ->
  (forall i, In i l -> v (at_ k i) = enc (kv k) i /\ v (at_ j i) = enc (kv j) i) ->
  exists v', vrun v (map g l) v' /\
    (forall i, In i l -> v' (at_ k i) = enc (kv' k) i /\ v' (at_ j i) = enc (kv' j) i) /\
    (forall x, (forall i, In i l -> x <> at_ k i /\ x <> at_ j i) -> v' x = v x).
Proof.
  induction l as [|i l IH]; intros v ND H V; simpl.
  - exists v. split; [constructor|]. split; [easy|]. reflexivity.
  - inversion ND as [|? ? Ni ND']; subst.
    destruct (H i (or_introl eq_refl)) as [Li Hi]. destruct (V i (or_introl eq_refl)) as [Vk Vj].
    destruct (Hi v Vk Vj) as (v1 & S1 & E1 & E2 & E3).
    assert (D : forall i', In i' l -> at_ k i' <> at_ k i /\ at_ k i' <> at_ j i /\ at_ j i' <> at_ k i /\ at_ j i' <> at_ j i).
    { intros i' Hi'. assert (i' <> i) by (intros ->; contradiction).
      destruct (H i' (or_intror Hi')) as [Li' _]. unfold at_. lia. }
    destruct (IH v1 ND') as (v2 & R2 & F2 & G2).
    + intros i' Hi'. apply H. now right.
    + intros i' Hi'. destruct (D i' Hi') as (? & ? & ? & ?).
      rewrite !E3 by assumption. apply V. now right.
    + exists v2. split; [econstructor; eassumption|]. split.
      * intros i' [<-|Hi']; [|now apply F2].
        rewrite !G2; [now split| |]; intros i' Hi'; destruct (D i' Hi') as (? & ? & ? & ?); auto.
      * intros x Hx. rewrite G2.
        -- apply E3; apply (Hx i (or_introl eq_refl)).
        -- intros i' Hi'. apply Hx. now right.
Qed.
Lemma fields_all k j kv kv' g v :
  Krel v kv -> (forall i, i < 16 -> local k j kv kv' g i) ->
  (forall x, x <> k -> x <> j -> kv' x = kv x) ->
  exists v', vrun v (fields g) v' /\ Krel v' kv'.
Proof.
  intros K L O.
  destruct (fields_run k j kv kv' g (seq 0 16) v) as (v' & R & F & G).
  - apply seq_NoDup.
  - intros i Hi. apply in_seq in Hi. split; [lia|]. apply L. lia.
  - intros i Hi. apply in_seq in Hi. split; apply K; lia.
  - exists v'. split; [exact R|]. intros x i Hi.
    destruct (Nat.eq_dec x k) as [->|Nk]; [apply F; apply in_seq; lia|].
    destruct (Nat.eq_dec x j) as [->|Nj]; [apply F; apply in_seq; lia|].
    rewrite G, (O x Nk Nj); [now apply K|]. intros i' Hi'. apply in_seq in Hi'. unfold at_. lia.
Qed.

Lemma local_new0 k r kv i : kv k = None ->
  local k k kv (upd kv k (Some (r, KV None (fun _ => [])))) (fun i => New0 (at_ k i) r) i.
Proof.
  intros H v E _. rewrite H in E. eexists. split; [apply vNew0; exact E|].
  rewrite !upd_same. repeat split. intros. now apply upd_other.
Qed.
Lemma local_new k r d kv i : kv k = None ->
  local k k kv (upd kv k (Some (r, KV (Some d) (fun i => repeat None (fst (shape d i) * snd (shape d i))))))
        (fun i => New (at_ k i) r (fst (shape d i)) (snd (shape d i))) i.
Proof.
  intros H v E _. rewrite H in E. eexists. split; [apply vNew; exact E|].
  rewrite !upd_same. repeat split. intros. now apply upd_other.
Qed.
Lemma local_fill k r d kv f f' i : kv k = Some (r, KV d f) -> length (f' i) = fst (sh d i) * snd (sh d i) ->
  local k k kv (upd kv k (Some (r, KV d f'))) (fun i => Fill (at_ k i) (f' i)) i.
Proof.
  intros H L v E _. rewrite H in E. eexists. split; [eapply vFill; [exact E|exact L]|].
  rewrite !upd_same. repeat split. intros. now apply upd_other.
Qed.
Lemma local_copy k j r rj d f kv i : k <> j -> kv k = None -> kv j = Some (rj, KV d f) ->
  local k j kv (upd kv k (Some (r, KV d f))) (fun i => CopyCtor (at_ k i) (at_ j i) r) i.
Proof.
  intros N H Hj v E Ej. rewrite H in E. rewrite Hj in Ej.
  eexists. split; [eapply vCopyCtor; [exact E|exact Ej]|].
  rewrite upd_same, (upd_same kv). repeat split.
  - rewrite !upd_other by (unfold at_; lia). now rewrite Hj.
  - intros. now apply upd_other.
Qed.
Lemma local_move k j r d f kv i : k <> j -> kv k = None -> kv j = Some (r, KV d f) ->
  local k j kv (upd (upd kv k (Some (r, KV d f))) j (Some (r, KMoved d))) (fun i => MoveCtor (at_ k i) (at_ j i)) i.
Proof.
  intros N H Hj v E Ej. rewrite H in E. rewrite Hj in Ej.
  eexists. split; [eapply vMoveCtor; [exact E|exact Ej]|].
  rewrite (upd_other (upd kv k _)) by easy. rewrite upd_other by (unfold at_; lia).
  rewrite !upd_same. repeat split. intros. now rewrite !upd_other by assumption.
Qed.
Lemma local_moveext k j r d f kv i : k <> j -> kv k = None -> kv j = Some (r, KV d f) ->
  local k j kv (upd (upd kv k (Some (r, KV d f))) j (Some (r, KMoved d))) (fun i => MoveExt (at_ k i) (at_ j i) r) i.
Proof.
  intros N H Hj v E Ej. rewrite H in E. rewrite Hj in Ej.
  eexists. split; [eapply vMoveExt; [exact E|exact Ej]|].
  rewrite (upd_other (upd kv k _)) by easy. rewrite upd_other by (unfold at_; lia).
  rewrite !upd_same. repeat split. intros. now rewrite !upd_other by assumption.
Qed.
Lemma local_assign k j r w rj d f kv i : kv k = Some (r, w) -> kv j = Some (rj, KV d f) ->
  local k j kv (upd kv k (Some (r, KV d f))) (fun i => CopyAssign (at_ k i) (at_ j i)) i.
Proof.
  intros H Hj v E Ej. rewrite H in E. rewrite Hj in Ej.
  assert (W : exists w', enc (Some (r, w)) i = Some (r, w') /\ w' <> MovedA)
    by (destruct w; cbn; eexists; split; try reflexivity; discriminate).
  destruct W as (w' & Ew & Nw). rewrite Ew in E.
  eexists. split; [eapply vCopyAssign; [exact E|exact Nw|exact Ej]|].
  rewrite upd_same, (upd_same kv). repeat split.
  - destruct (Nat.eq_dec j k) as [->|N]; [now rewrite !upd_same|].
    rewrite !upd_other by (try easy; unfold at_; lia). now rewrite Hj.
  - intros. now apply upd_other.
Qed.
Lemma local_destroy k w kv i : kv k = Some w ->
  local k k kv (upd kv k None) (fun i => Destroy (at_ k i)) i.
Proof.
  intros H v E _. rewrite H in E.
  assert (W : exists w', enc (Some w) i = Some w') by (destruct w as [r [d f|d]]; cbn; eauto).
  destruct W as (w' & Ew). rewrite Ew in E.
  eexists. split; [eapply vDestroy; exact E|].
  rewrite !upd_same. repeat split. intros. now apply upd_other.
Qed.
Lemma zeros_length s : length (zeros s) = fst s * snd s.
Proof. apply repeat_length. Qed.

(** ** Invariant *)
Record J (s : kstate) (kv : kvs) (L : list op) (v : vstate) : Prop := {
  j_v : vrun (fun _ => None) L v;
  j_run : run init L = Ok (ar s);
  j_rel : Krel v kv;
  j_d : forall k, kd s k = option_map (fun w => kdims (snd w)) (kv k) }.

Lemma J_run1 s kv L v l v' kv' k d :
  J s kv L v -> vrun v l v' -> Krel v' kv' ->
  (forall x, upd (kd s) k d x = option_map (fun w => kdims (snd w)) (kv' x)) ->
  exists s', krun1 s l k d = Ok s' /\ J s' kv' (L ++ l) v'.
Proof.
  intros [Jv Jr Jrel Jd] R K D.
  pose proof (vrun_app _ _ _ _ _ Jv R) as RV.
  destruct (C48_memory_partial _ _ RV) as (a & Ea & _).
  assert (E := Ea). rewrite run_app, Jr in E. simpl in E.
  eexists. split; [unfold krun1; rewrite E; reflexivity|].
  constructor; auto.
Qed.
Lemma dims_upd kd0 (kv : kvs) k w :
  (forall x, kd0 x = option_map (fun w => kdims (snd w)) (kv x)) ->
  forall x, upd kd0 k (option_map (fun w => kdims (snd w)) w) x =
            option_map (fun w => kdims (snd w)) (upd kv k w x).
Proof. intros H x. unfold upd. destruct (x =? k); auto. Qed.

Lemma kstep_ok s kv L v o kv' : J s kv L v -> kvstep kv o kv' ->
  exists s' L' v', kstep s o = Ok s' /\ J s' kv' L' v'.
Proof.
  intros H St. pose proof H as [Jv Jr Jrel Jd].
  assert (Dn : forall k, kv k = None -> kfresh s k = Ok tt)
    by (intros k E; unfold kfresh; now rewrite Jd, E).
  assert (Dl : forall k r w, kv k = Some (r, w) -> klive s k = Ok (kdims w))
    by (intros k r w E; unfold klive; now rewrite Jd, E).
  destruct St as [k r E|k r d E|k j r rj d f E Ej|k j rj d f E Ej|k j r d f E Ej|k j r w rj d f E Ej|k j r w rj d f E Ej|k n r d f E|k i l r d f E Li Ll|k w E];
    cbn [kstep].
  - rewrite (Dn k E). cbn [bind].
    destruct (fields_all k k kv _ _ v Jrel (fun i _ => local_new0 k r kv i E)) as (v' & R & K);
      [intros; now apply upd_other|].
    destruct (J_run1 s kv L v _ v' _ k (Some None) H R K) as (s' & Es & Js); [|now exists s', (L ++ fields (fun i => New0 (at_ k i) r)), v'].
    exact (dims_upd _ kv k (Some (r, KV None _)) Jd).
  - rewrite (Dn k E). cbn [bind].
    destruct (fields_all k k kv _ _ v Jrel (fun i _ => local_new k r d kv i E)) as (v1 & R1 & K1);
      [intros; now apply upd_other|].
    set (kv1 := upd kv k _) in K1.
    destruct (fields_all k k kv1 (upd kv1 k (Some (r, KV (Some d) (fun i => zeros (shape d i)))))
               (fun i => Fill (at_ k i) (zeros (shape d i))) v1 K1) as (v2 & R2 & K2).
    { intros i _. apply (local_fill k r (Some d) kv1 (fun i => repeat None (fst (shape d i) * snd (shape d i))) (fun i => zeros (shape d i))).
      - apply upd_same. - apply zeros_length. }
    { intros; now apply upd_other. }
    assert (K3 : Krel v2 (upd kv k (Some (r, KV (Some d) (fun i => zeros (shape d i)))))).
    { intros x i Hi. rewrite (K2 x i Hi). f_equal. unfold kv1, upd. now destruct (x =? k). }
    destruct (J_run1 s kv L v _ v2 _ k (Some (Some d)) H (vrun_app _ _ _ _ _ R1 R2) K3) as (s' & Es & Js).
    { exact (dims_upd _ kv k (Some (r, KV (Some d) _)) Jd). }
    eexists; eexists; eexists; split; [exact Es|exact Js].
  - rewrite (Dn k E). cbn [bind]. rewrite (Dl _ _ _ Ej). cbn [bind kdims].
    assert (N : k <> j) by congruence.
    destruct (fields_all k j kv _ _ v Jrel (fun i _ => local_copy k j r rj d f kv i N E Ej)) as (v' & R & K);
      [intros; now apply upd_other|].
    destruct (J_run1 s kv L v _ v' _ k (Some d) H R K) as (s' & Es & Js).
    { exact (dims_upd _ kv k (Some (r, KV d f)) Jd). }
    eexists; eexists; eexists; split; [exact Es|exact Js].
  - rewrite (Dn k E). cbn [bind]. rewrite (Dl _ _ _ Ej). cbn [bind kdims].
    assert (N : k <> j) by congruence.
    destruct (fields_all k j kv _ _ v Jrel (fun i _ => local_move k j rj d f kv i N E Ej)) as (v' & R & K);
      [intros; now rewrite !upd_other|].
    destruct (J_run1 s kv L v _ v' _ k (Some d) H R K) as (s' & Es & Js).
    { intro x. rewrite (dims_upd _ kv k (Some (rj, KV d f)) Jd). unfold upd at 2.
      destruct (Nat.eqb_spec x j) as [->|]; [|reflexivity].
      rewrite upd_other by congruence. now rewrite Ej. }
    eexists; eexists; eexists; split; [exact Es|exact Js].
  - rewrite (Dn k E). cbn [bind]. rewrite (Dl _ _ _ Ej). cbn [bind kdims].
    assert (N : k <> j) by congruence.
    destruct (fields_all k j kv _ _ v Jrel (fun i _ => local_moveext k j r d f kv i N E Ej)) as (v' & R & K);
      [intros; now rewrite !upd_other|].
    destruct (J_run1 s kv L v _ v' _ k (Some d) H R K) as (s' & Es & Js).
    { intro x. rewrite (dims_upd _ kv k (Some (r, KV d f)) Jd). unfold upd at 2.
      destruct (Nat.eqb_spec x j) as [->|]; [|reflexivity].
      rewrite upd_other by congruence. now rewrite Ej. }
    eexists; eexists; eexists; split; [exact Es|exact Js].
  - rewrite (Dl _ _ _ E). cbn [bind]. rewrite (Dl _ _ _ Ej). cbn [bind kdims].
    destruct (fields_all k j kv _ _ v Jrel (fun i _ => local_assign k j r w rj d f kv i E Ej)) as (v' & R & K);
      [intros; now apply upd_other|].
    destruct (J_run1 s kv L v _ v' _ k (Some d) H R K) as (s' & Es & Js).
    { exact (dims_upd _ kv k (Some (r, KV d f)) Jd). }
    eexists; eexists; eexists; split; [exact Es|exact Js].
  - rewrite (Dl _ _ _ E). cbn [bind]. rewrite (Dl _ _ _ Ej). cbn [bind kdims].
    destruct (fields_all k j kv _ _ v Jrel (fun i _ => local_assign k j r w rj d f kv i E Ej)) as (v' & R & K);
      [intros; now apply upd_other|].
    destruct (J_run1 s kv L v _ v' _ k (Some d) H R K) as (s' & Es & Js).
    { exact (dims_upd _ kv k (Some (r, KV d f)) Jd). }
    eexists; eexists; eexists; split; [exact Es|exact Js].
  - rewrite (Dl _ _ _ E). cbn [bind kdims]. cbv zeta.
    set (d' := with_nth d n). set (f' := fun i => if i <? 11 then f i else zeros (shape d' i)).
    set (kv1 := upd kv k (Some (r, KV (Some d') f'))).
    destruct (fields_run k k kv kv1
      (fun i => Assign (at_ k i) (fst (shape d' i)) (snd (shape d' i)) (zeros (shape d' i))) (seq 11 5) v) as (v' & R & F & G).
    { apply seq_NoDup. }
    { intros i Hi. apply in_seq in Hi. split; [lia|]. intros u Eu _. rewrite E in Eu. cbn [enc] in Eu.
      eexists. split; [eapply vAssign; [exact Eu|discriminate|apply zeros_length]|].
      unfold kv1. rewrite !upd_same. cbn [enc sh]. unfold f'.
      destruct (Nat.ltb_spec i 11) as [?|_]; [lia|].
      repeat split. intros. now apply upd_other. }
    { intros i Hi. apply in_seq in Hi. split; apply Jrel; lia. }
    assert (K : Krel v' kv1).
    { intros x i Hi. destruct (Nat.eq_dec x k) as [->|N].
      - destruct (le_lt_dec 11 i) as [Hl|Hl]; [apply F; apply in_seq; lia|].
        rewrite G by (intros i' Hi'; apply in_seq in Hi'; unfold at_; lia).
        rewrite (Jrel k i Hi), E. unfold kv1. rewrite upd_same. cbn [enc sh]. unfold f'.
        destruct (Nat.ltb_spec i 11) as [_|?]; [|lia].
        do 11 (destruct i as [|i]; [reflexivity|]). lia.
      - rewrite G by (intros i' Hi'; apply in_seq in Hi'; unfold at_; lia).
        rewrite (Jrel x i Hi). unfold kv1. now rewrite upd_other. }
    destruct (J_run1 s kv L v _ v' _ k (Some (Some d')) H R K) as (s' & Es & Js).
    { exact (dims_upd _ kv k (Some (r, KV (Some d') f')) Jd). }
    eexists; eexists; eexists; split; [exact Es|exact Js].
  - rewrite (Dl _ _ _ E). cbn [bind kdims].
    set (f' := upd f i l). set (kv1 := upd kv k (Some (r, KV d f'))).
    assert (R : vrun v [Fill (at_ k i) l] (upd v (at_ k i) (Some (r, Val (fst (sh d i)) (snd (sh d i)) l)))).
    { econstructor; [|constructor]. eapply vFill; [|exact Ll]. rewrite (Jrel k i Li), E. reflexivity. }
    assert (K : Krel (upd v (at_ k i) (Some (r, Val (fst (sh d i)) (snd (sh d i)) l))) kv1).
    { intros x i' Hi'. unfold kv1. destruct (Nat.eq_dec x k) as [->|N].
      - rewrite upd_same. cbn [enc]. unfold f'. destruct (Nat.eq_dec i' i) as [->|Ni].
        + now rewrite !upd_same.
        + rewrite !upd_other by (try easy; unfold at_; lia). now rewrite (Jrel k i' Hi'), E.
      - rewrite !upd_other by (try easy; unfold at_; lia). now apply Jrel. }
    destruct (J_run1 s kv L v _ _ _ k (Some d) H R K) as (s' & Es & Js).
    { exact (dims_upd _ kv k (Some (r, KV d f')) Jd). }
    eexists; eexists; eexists; split; [exact Es|exact Js].
  - destruct w as [r w]. rewrite (Dl _ _ _ E). cbn [bind].
    destruct (fields_all k k kv _ _ v Jrel (fun i _ => local_destroy k (r, w) kv i E)) as (v' & R & K);
      [intros; now apply upd_other|].
    destruct (J_run1 s kv L v _ v' _ k None H R K) as (s' & Es & Js).
    { exact (dims_upd _ kv k None Jd). }
    eexists; eexists; eexists; split; [exact Es|exact Js].
Qed.
Lemma krun_ok l : forall s kv L v kv', J s kv L v -> kvrun kv l kv' ->
  exists s' L' v', krun s l = Ok s' /\ J s' kv' L' v'.
Proof.
  induction l as [|o l IH]; intros s kv L v kv' H R; inversion R; subst.
  - now exists s, L, v.
  - destruct (kstep_ok s kv L v o v') as (s1 & L1 & v1 & E & H1); auto.
    cbn [krun]. rewrite E. cbn [bind]. eapply IH; eauto.
Qed.
Lemma J_init : J kinit (fun _ => None) [] (fun _ => None).
Proof. constructor; [constructor|reflexivity|intros k i _; reflexivity|reflexivity]. Qed.

(** ** Theorem: any program on knots runs, the knots have the values prescribed, share no
    storage, and own all the storage in use *)
Theorem C70_knots : forall l kv, kvrun (fun _ => None) l kv ->
  exists s, krun kinit l = Ok s /\
    (forall k r d f, kv k = Some (r, KV d f) ->
       kd s k = Some d /\
       forall i, i < 16 -> exists m, mats (ar s) (at_ k i) = Some m /\ rs m = r /\
         (rows m, cols m) = sh d i /\ read (hp (ar s)) m = Ok (f i)) /\
    (forall x y mx my b, mats (ar s) x = Some mx -> mats (ar s) y = Some my ->
       dat mx = Some b -> dat my = Some b -> x = y) /\
    (forall b r c, nth_error (hp (ar s)) b = Some (Live r c) ->
       exists k i m, kv k <> None /\ i < 16 /\ mats (ar s) (at_ k i) = Some m /\ dat m = Some b /\ rs m = r) /\
    ((forall k, kv k = None) -> forall c, In c (hp (ar s)) -> c = Freed).
Proof.
  intros l kv H. destruct (krun_ok l kinit _ _ _ kv J_init H) as (s & L & v & E & [Jv Jr Jrel Jd]).
  exists s. split; [exact E|].
  destruct (C48_memory_partial L v Jv) as (a & Ea & P1 & P2 & P3 & P4).
  rewrite Jr in Ea. injection Ea as <-.
  split; [|split; [|split]].
  - intros k r d f Ek. split; [now rewrite Jd, Ek|]. intros i Hi.
    destruct (P1 (at_ k i) r (fst (sh d i)) (snd (sh d i)) (f i)) as (m & Em & Er & E1 & E2 & Ed).
    { rewrite (Jrel k i Hi), Ek. reflexivity. }
    exists m. repeat split; auto. rewrite E1, E2. now destruct (sh d i).
  - exact P2.
  - intros b r c Hb. destruct (P3 b r c Hb) as (x & m & Em & Ed & Er & _).
    destruct (at_ex x) as (k & i & Hi & ->). exists k, i, m. repeat split; auto.
    intro Ek. assert (N : v (at_ k i) = None) by (rewrite (Jrel k i Hi), Ek; reflexivity).
    destruct (run_ok L init (fun _ => None) v) as (s2 & E2 & R2); auto.
    { split; [|split].
      - intros y. exact I.
      - intros y z d (m' & Em' & _). discriminate.
      - intros d r' c' Hd. destruct d; discriminate. }
    rewrite Jr in E2. injection E2 as <-.
    assert (Hx := rel_sim _ v R2 (at_ k i)). rewrite Em, N in Hx. exact Hx.
  - intros Hn. apply P4. intro x. destruct (at_ex x) as (k & i & Hi & ->).
    rewrite (Jrel k i Hi), Hn. reflexivity.
Qed.
