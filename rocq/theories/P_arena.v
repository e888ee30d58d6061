(** C48: arena matrices. *)
From Coq Require Import ZArith List Bool Arith Lia.
From Verif Require Import ArenaModel.
Import ListNotations.
Open Scope nat_scope.

(** ** Specification: value semantics.  Each live object has a resource and a
    value; the relation is defined on the uses allowed. *)
Inductive value :=
  | Val (nr nc : nat) (l : content)
  | MovedC      (* moved from by a constructor *)
  | MovedA.     (* moved from by an assignment *)
Definition vstate := nat -> option (nat * value).

Definition resized (w : value) (n : nat) : content :=
  match w with
  | Val _ _ l => if length l =? n then l else repeat None n
  | _ => repeat None n
  end.

Inductive vstep (v : vstate) : op -> vstate -> Prop :=
  | vNew0 x r : v x = None -> vstep v (New0 x r) (upd v x (Some (r, Val 0 0 [])))
  | vNew x r nr nc : v x = None ->
      vstep v (New x r nr nc) (upd v x (Some (r, Val nr nc (repeat None (nr * nc)))))
  | vCopyCtor x y r ry a b l : v x = None -> v y = Some (ry, Val a b l) ->
      vstep v (CopyCtor x y r) (upd v x (Some (r, Val a b l)))
  | vMoveCtor x y ry a b l : v x = None -> v y = Some (ry, Val a b l) ->
      vstep v (MoveCtor x y)
        (upd (upd v x (Some (ry, Val a b l))) y (Some (ry, MovedC)))
  | vMoveExt x y ry a b l : v x = None -> v y = Some (ry, Val a b l) ->
      vstep v (MoveExt x y ry)
        (upd (upd v x (Some (ry, Val a b l))) y (Some (ry, MovedC)))
  | vCopyAssign x y rx w ry a b l : v x = Some (rx, w) -> w <> MovedA ->
      v y = Some (ry, Val a b l) ->
      vstep v (CopyAssign x y) (upd v x (Some (rx, Val a b l)))
  | vMoveAssign x y r w a b l : x <> y -> v x = Some (r, w) ->
      v y = Some (r, Val a b l) ->
      vstep v (MoveAssign x y)
        (upd (upd v x (Some (r, Val a b l))) y (Some (r, MovedA)))
  | vMoveSelf x w : v x = Some w -> vstep v (MoveAssign x x) v
  | vAssign x r w nr nc l : v x = Some (r, w) -> w <> MovedA ->
      length l = nr * nc ->
      vstep v (Assign x nr nc l) (upd v x (Some (r, Val nr nc l)))
  | vFill x r a b l0 l : v x = Some (r, Val a b l0) -> length l = a * b ->
      vstep v (Fill x l) (upd v x (Some (r, Val a b l)))
  | vResize x r w nr nc : v x = Some (r, w) -> w <> MovedA ->
      vstep v (Resize x nr nc) (upd v x (Some (r, Val nr nc (resized w (nr * nc)))))
  | vConsResize x r a b l nr nc : v x = Some (r, Val a b l) ->
      length l <= nr * nc ->
      vstep v (ConsResize x nr nc)
        (upd v x (Some (r, Val nr nc (l ++ repeat None (nr * nc - length l)))))
  | vConsResizeC x r nr nc : v x = Some (r, MovedC) ->
      vstep v (ConsResize x nr nc)
        (upd v x (Some (r, Val nr nc (repeat None (nr * nc)))))
  | vDestroy x w : v x = Some w -> vstep v (Destroy x) (upd v x None).

Inductive vrun : vstate -> list op -> vstate -> Prop :=
  | vnil v : vrun v [] v
  | vcons v o v' l v'' : vstep v o v' -> vrun v' l v'' -> vrun v (o :: l) v''.

(** ** The relation between the two machines *)
Definition holds (h : heap) (m : mat) (w : value) : Prop :=
  match w with
  | Val a b l => rows m = a /\ cols m = b /\ length l = a * b /\ asz m = a * b /\
      ((exists d, dat m = Some d /\ nth_error h d = Some (Live (rs m) l)) \/
       (dat m = None /\ a * b = 0))
  | MovedC => dat m = None /\ asz m = 0
  | MovedA => dat m = None
  end.

Definition sim (h : heap) (o : option mat) (w : option (nat * value)) : Prop :=
  match o, w with
  | None, None => True
  | Some m, Some (r, w) => rs m = r /\ holds h m w
  | _, _ => False
  end.

Definition owns (M : nat -> option mat) (x d : nat) : Prop :=
  exists m, M x = Some m /\ dat m = Some d.

Definition related (s : state) (v : vstate) : Prop :=
  (forall x, sim (hp s) (mats s x) (v x)) /\
  (forall x y d, owns (mats s) x d -> owns (mats s) y d -> x = y) /\
  (forall d r l, nth_error (hp s) d = Some (Live r l) -> exists x, owns (mats s) x d).

Lemma nth_setc h b c : b < length h ->
  forall d, nth_error (setc h b c) d = if d =? b then Some c else nth_error h d.
Proof.
  revert b. induction h as [|a h IH]; intros b L d; simpl in L; [lia|].
  destruct b as [|b], d as [|d]; simpl; auto. apply IH. lia.
Qed.

Lemma nth_len {A} (h : list A) b c : nth_error h b = Some c -> b < length h.
Proof. intros E. apply nth_error_Some. congruence. Qed.

Lemma setc_length h b c : length (setc h b c) = length h.
Proof. revert b. induction h; intros [|b]; simpl; auto. Qed.

Lemma setc_app h t d c : d < length h -> setc (h ++ t) d c = setc h d c ++ t.
Proof.
  revert d. induction h as [|a h IH]; intros d L; simpl in L; [lia|].
  destruct d; simpl; auto. rewrite IH by lia. reflexivity.
Qed.

Lemma nth_alloc h r n d :
  nth_error (fst (alloc h r n)) d =
  if d =? length h then Some (Live r (repeat None n)) else nth_error h d.
Proof.
  simpl. destruct (d =? length h) eqn:E.
  - apply Nat.eqb_eq in E. subst. rewrite nth_error_app2, Nat.sub_diag by lia. reflexivity.
  - apply Nat.eqb_neq in E. destruct (Nat.lt_ge_cases d (length h)).
    + now apply nth_error_app1.
    + rewrite (proj2 (nth_error_None _ _)), (proj2 (nth_error_None _ _)); auto.
      rewrite app_length. simpl. lia.
Qed.

Lemma sim_live h m w r d : sim h (Some m) (Some (r, w)) -> dat m = Some d ->
  exists l, w = Val (rows m) (cols m) l /\ length l = size m /\ asz m = size m /\
    nth_error h d = Some (Live r l).
Proof.
  intros [<- H] E. destruct w as [a b l| |]; simpl in H.
  - destruct H as (<- & <- & L & Z & [(d' & E' & N)|[E' _]]); [|congruence].
    rewrite E in E'. injection E' as <-. exists l. auto.
  - destruct H as [H _]. congruence.
  - congruence.
Qed.

Lemma owned_live s v x d : related s v -> owns (mats s) x d ->
  exists r l, nth_error (hp s) d = Some (Live r l).
Proof.
  intros (S & _) (m & E & D). specialize (S x). rewrite E in S.
  destruct (v x) as [[r w]|]; [|destruct S]. 
  destruct (sim_live _ _ _ _ _ S D) as (l & _ & _ & _ & N). eauto.
Qed.

(** Frame rule: objects outside [t] are untouched. *)
Lemma related_change s v s' v' (t : nat -> bool) : related s v ->
  (forall z, t z = false -> mats s' z = mats s z /\ v' z = v z) ->
  (forall z, t z = true -> sim (hp s') (mats s' z) (v' z)) ->
  (forall z d, t z = false -> owns (mats s) z d ->
     nth_error (hp s') d = nth_error (hp s) d) ->
  (forall z z' d, t z = true -> owns (mats s') z d -> owns (mats s') z' d -> z = z') ->
  (forall d r l, nth_error (hp s') d = Some (Live r l) -> exists z, owns (mats s') z d) ->
  related s' v'.
Proof.
  intros (S & U & N) A B C D E. split; [|split]; auto.
  - intros z. destruct (t z) eqn:T; auto. destruct (A z T) as [-> ->].
    specialize (S z). destruct (mats s z) as [m|] eqn:Em, (v z) as [[r w]|] eqn:Ev; auto.
    destruct S as [Hr H]. split; auto. destruct w as [a b l| |]; auto.
    destruct H as (H1 & H2 & H3 & H4 & [(d & Ed & En)|H5]); simpl; repeat split; auto.
    left. exists d. split; auto. rewrite (C z d T); auto. exists m. auto.
  - intros x y d Hx Hy. destruct (t x) eqn:Tx; [eapply D; eauto|].
    destruct (t y) eqn:Ty; [symmetry; eapply D; eauto|].
    apply (U x y d).
    + destruct Hx as (m & Ex & Dx). exists m. destruct (A x Tx) as [<- _]. auto.
    + destruct Hy as (m & Ey & Dy). exists m. destruct (A y Ty) as [<- _]. auto.
Qed.

Lemma upd_same {A} (f : nat -> A) x a : upd f x a x = a.
Proof. unfold upd. now rewrite Nat.eqb_refl. Qed.
Lemma upd_other {A} (f : nat -> A) x a y : y <> x -> upd f x a y = f y.
Proof. unfold upd. intros H. apply Nat.eqb_neq in H. now rewrite H. Qed.

(** Changing one object [x]: [m] replaces it, [w] is its new value. *)
Lemma related_one s v x h o w : related s v ->
  sim h o w ->
  (forall z d, z <> x -> owns (mats s) z d -> nth_error h d = nth_error (hp s) d) ->
  (forall m d, o = Some m -> dat m = Some d -> forall z, z <> x -> ~ owns (mats s) z d) ->
  (forall d r l, nth_error h d = Some (Live r l) ->
     (exists m, o = Some m /\ dat m = Some d) \/ exists z, z <> x /\ owns (mats s) z d) ->
  related {| hp := h; mats := upd (mats s) x o |} (upd v x w).
Proof.
  intros Hr Hs Hf Ho Hl.
  assert (OO : forall z d, z <> x -> (owns (upd (mats s) x o) z d <-> owns (mats s) z d)).
  { intros z d Hz. unfold owns. now rewrite upd_other. }
  apply (related_change s v _ _ (fun z => z =? x) Hr); simpl.
  - intros z Hz. apply Nat.eqb_neq in Hz. now rewrite !upd_other.
  - intros z Hz. apply Nat.eqb_eq in Hz. subst. now rewrite !upd_same.
  - intros z d Hz Hd. apply Nat.eqb_neq in Hz. eauto.
  - intros z z' d Hz Hd Hd'. apply Nat.eqb_eq in Hz. subst z.
    destruct (Nat.eq_dec z' x) as [->|Hn]; auto. exfalso.
    apply OO in Hd'; auto. destruct Hd as (m & Em & Ed). rewrite upd_same in Em.
    exact (Ho m d Em Ed z' Hn Hd').
  - intros d r l Hd. destruct (Hl d r l Hd) as [(m & Em & Ed)|(z & Hz & Hd')].
    + exists x. exists m. now rewrite upd_same.
    + exists z. now apply OO.
Qed.

Section Prims.
  Variables (s : state) (v : vstate).
  Hypothesis R : related s v.

  Lemma rel_sim x : sim (hp s) (mats s x) (v x).
  Proof. apply R. Qed.

  Lemma live_of x r w : v x = Some (r, w) ->
    exists m, mats s x = Some m /\ rs m = r /\ holds (hp s) m w.
  Proof.
    intros E. assert (H := rel_sim x). rewrite E in H.
    destruct (mats s x) as [m|]; [|destruct H]. exists m. now destruct H.
  Qed.

  Lemma fresh_of x : v x = None -> mats s x = None.
  Proof.
    intros E. assert (H := rel_sim x). rewrite E in H.
    destruct (mats s x) as [m|]; [destruct H|]; auto.
  Qed.

  (** Deallocating a live object succeeds and frees its buffer alone. *)
  Lemma dealloc_ok x m r w : mats s x = Some m -> v x = Some (r, w) ->
    exists h, deallocate (hp s) m = Ok h /\ length h = length (hp s) /\
      (forall z d, z <> x -> owns (mats s) z d -> nth_error h d = nth_error (hp s) d) /\
      (forall d r' l, nth_error h d = Some (Live r' l) ->
         nth_error (hp s) d = Some (Live r' l) /\ exists z, z <> x /\ owns (mats s) z d).
  Proof.
    intros Em Ev. assert (Hx := rel_sim x). rewrite Em, Ev in Hx.
    unfold deallocate. destruct (dat m) as [d|] eqn:Ed.
    - destruct (sim_live _ _ _ _ _ Hx Ed) as (l & Hw & L & Z & N). rewrite N.
      destruct Hx as [Hr _]. rewrite Hr, Nat.eqb_refl, L, Nat.eqb_refl. simpl.
      exists (setc (hp s) d Freed). split; auto. split; [apply setc_length|].
      assert (B := nth_len _ _ _ N). split.
      + intros z d' Hz Hd. rewrite nth_setc by auto. destruct (d' =? d) eqn:E; auto.
        apply Nat.eqb_eq in E. subst. exfalso. apply Hz.
        apply (proj1 (proj2 R) z x d); auto. exists m. auto.
      + intros d' r' l' H. rewrite nth_setc in H by auto.
        destruct (d' =? d) eqn:E; [discriminate|]. split; auto.
        destruct (proj2 (proj2 R) d' r' l' H) as (z & Hz). exists z. split; auto.
        intros ->. destruct Hz as (m' & Em' & Ed'). rewrite Em in Em'. injection Em' as <-.
        rewrite Ed in Ed'. injection Ed' as <-. rewrite Nat.eqb_refl in E. discriminate.
    - exists (hp s). repeat split; auto. intros.
      destruct (proj2 (proj2 R) d r' l H) as (z & Hz). exists z. split; auto.
      intros ->. destruct Hz as (m' & Em' & Ed'). congruence.
  Qed.

  (** Allocation on top of a heap in which [x] owns nothing. *)
  Lemma alloc_rel x h nr nc r : length h = length (hp s) ->
    (forall z d, z <> x -> owns (mats s) z d -> nth_error h d = nth_error (hp s) d) ->
    (forall d r' l, nth_error h d = Some (Live r' l) ->
         exists z, z <> x /\ owns (mats s) z d) ->
    forall l, length l = nr * nc ->
    related (put s (h ++ [Live r l]) x
      {| dat := Some (length h); rows := nr; cols := nc; asz := nr * nc; rs := r |})
      (upd v x (Some (r, Val nr nc l))).
  Proof.
    intros L F Lk l Hl.
    assert (NA : forall d, nth_error (h ++ [Live r l]) d =
      if d =? length h then Some (Live r l) else nth_error h d).
    { intros d. destruct (d =? length h) eqn:E.
      - apply Nat.eqb_eq in E. subst. rewrite nth_error_app2, Nat.sub_diag by lia. reflexivity.
      - apply Nat.eqb_neq in E. destruct (Nat.lt_ge_cases d (length h)).
        + now apply nth_error_app1.
        + rewrite (proj2 (nth_error_None _ _)), (proj2 (nth_error_None _ _)); auto.
          rewrite app_length. simpl. lia. }
    apply related_one; auto.
    - split; auto. simpl. repeat split; auto. left. exists (length h). split; auto.
      now rewrite NA, Nat.eqb_refl.
    - intros z d Hz Hd. rewrite NA. destruct (d =? length h) eqn:E; [|eauto].
      apply Nat.eqb_eq in E. destruct (owned_live _ _ _ _ R Hd) as (r' & l' & N).
      apply nth_len in N. lia.
    - intros m d Em Ed z Hz Hd. injection Em as <-. simpl in Ed. injection Ed as <-.
      destruct (owned_live _ _ _ _ R Hd) as (r' & l' & N). apply nth_len in N. lia.
    - intros d r' l' H. rewrite NA in H. destruct (d =? length h) eqn:E.
      + apply Nat.eqb_eq in E. subst. left. eexists. split; reflexivity.
      + right. eauto.
  Qed.

  (** Remapping [x] onto the same storage with other dimensions. *)
  Lemma remap_rel x m r a b l nr nc : mats s x = Some m ->
    v x = Some (r, Val a b l) -> length l = nr * nc ->
    related (put s (hp s) x {| dat := dat m; rows := nr; cols := nc; asz := asz m; rs := rs m |})
      (upd v x (Some (r, Val nr nc l))).
  Proof.
    intros Em Ev L. assert (Hx := rel_sim x). rewrite Em, Ev in Hx.
    destruct Hx as [Hr (A & B & C & D & E)].
    apply related_one; auto.
    - split; auto. simpl. repeat split; auto; [congruence|].
      destruct E as [E|[E F]]; [left; exact E|right; split; auto; congruence].
    - intros m' d Em' Ed z Hz Hd. injection Em' as <-. simpl in Ed. apply Hz.
      apply (proj1 (proj2 R) z x d); auto. exists m. auto.
    - intros d r' l' H. destruct (proj2 (proj2 R) d r' l' H) as (z & Hz).
      destruct (Nat.eq_dec z x) as [->|Hn].
      + left. destruct Hz as (m' & Em' & Ed). rewrite Em in Em'. injection Em' as <-.
        eexists. split; [reflexivity|]. exact Ed.
      + right. eauto.
  Qed.

  Lemma resize_rel x m r w nr nc : mats s x = Some m -> v x = Some (r, w) ->
    w <> MovedA ->
    exists h m', resize (hp s) m nr nc = Ok (h, m') /\
      rows m' = nr /\ cols m' = nc /\ rs m' = r /\
      related (put s h x m') (upd v x (Some (r, Val nr nc (resized w (nr * nc))))).
  Proof.
    intros Em Ev Hw. assert (Hx := rel_sim x). rewrite Em, Ev in Hx.
    destruct Hx as [Hr Hh]. unfold resize.
    destruct (asz m =? nr * nc) eqn:Ea; simpl.
    - do 2 eexists. split; [reflexivity|]. simpl. do 3 (split; [auto|]).
      apply Nat.eqb_eq in Ea. destruct w as [a b l| |]; [| |now elim Hw].
      + assert (L : length l = nr * nc).
        { destruct Hh as (_ & _ & H1 & H2 & _). congruence. }
        unfold resized. rewrite L, Nat.eqb_refl. eapply remap_rel; eauto.
      + destruct Hh as [H1 H2]. simpl. rewrite <- Ea, H2. simpl.
        apply related_one; auto.
        * split; auto. simpl. rewrite <- Ea, H2. repeat split; auto.
        * intros m' d Em' Ed. injection Em' as <-. simpl in Ed. congruence.
        * intros d r' l' H. destruct (proj2 (proj2 R) d r' l' H) as (z & Hz).
          right. exists z. split; auto. intros ->. destruct Hz as (m' & Em' & Ed).
          congruence.
    - destruct (dealloc_ok x m r w Em Ev) as (h & Eh & L & F & Lk). rewrite Eh. simpl.
      do 2 eexists. split; [reflexivity|]. simpl. do 3 (split; [auto|]).
      assert (Ec : resized w (nr * nc) = repeat None (nr * nc)).
      { destruct w as [a b l| |]; auto. simpl. destruct (length l =? nr * nc) eqn:E; auto.
        apply Nat.eqb_eq in E. apply Nat.eqb_neq in Ea. exfalso. apply Ea.
        destruct Hh as (_ & _ & H1 & H2 & _). congruence. }
      rewrite Ec, <- Hr. apply alloc_rel; auto.
      + intros d r' l H. now apply Lk in H.
      + apply repeat_length.
  Qed.

  Lemma read_ok x m r a b l : mats s x = Some m -> v x = Some (r, Val a b l) ->
    read (hp s) m = Ok l.
  Proof.
    intros Em Ev. assert (Hx := rel_sim x). rewrite Em, Ev in Hx.
    destruct Hx as [_ (A & B & C & D & E)]. unfold read, size. rewrite A, B.
    destruct (a * b =? 0) eqn:Z.
    - apply Nat.eqb_eq in Z. rewrite Z in C. now destruct l.
    - destruct E as [(d & Ed & N)|[_ E]].
      + rewrite Ed, N, <- C, Nat.leb_refl. now rewrite firstn_all.
      + rewrite E in Z. discriminate.
  Qed.

  Lemma store_rel x m r a b l l' : mats s x = Some m -> v x = Some (r, Val a b l) ->
    length l' = a * b ->
    exists h, store (hp s) m l' = Ok h /\
      related (put s h x m) (upd v x (Some (r, Val a b l'))).
  Proof.
    intros Em Ev L. assert (Hx := rel_sim x). rewrite Em, Ev in Hx.
    destruct Hx as [Hr (A & B & C & D & E)]. unfold store, size. rewrite A, B.
    assert (Same : forall z, z <> x -> forall d, owns (mats s) z d -> dat m <> Some d).
    { intros z Hz d Hd Ed. apply Hz. apply (proj1 (proj2 R) z x d); auto. exists m. auto. }
    assert (Lk : forall d r' l0, nth_error (hp s) d = Some (Live r' l0) ->
       (exists m0, Some m = Some m0 /\ dat m0 = Some d) \/
       exists z, z <> x /\ owns (mats s) z d).
    { intros d r' l0 H. destruct (proj2 (proj2 R) d r' l0 H) as (z & Hz).
      destruct (Nat.eq_dec z x) as [->|Hn].
      - left. destruct Hz as (m' & Em' & Ed). rewrite Em in Em'. injection Em' as <-. eauto.
      - right. eauto. }
    destruct (a * b =? 0) eqn:Z.
    - apply Nat.eqb_eq in Z. eexists. split; [reflexivity|].
      assert (l' = l) as ->.
      { rewrite Z in L, C. destruct l, l'; simpl in *; congruence. }
      apply related_one; auto.
      + split; auto. simpl. auto.
      + intros m' d Em' Ed z Hz Hd. injection Em' as <-. exact (Same z Hz d Hd Ed).
    - destruct E as [(d & Ed & N)|[_ E]].
      2:{ rewrite E in Z. discriminate. }
      rewrite Ed, N, <- C, Nat.leb_refl, C, L, Nat.eqb_refl. simpl.
      rewrite (skipn_all2 l) by lia. rewrite app_nil_r.
      eexists. split; [reflexivity|]. assert (Bd := nth_len _ _ _ N).
      apply related_one; auto.
      + split; auto. simpl. repeat split; auto. left. exists d. split; auto.
        now rewrite nth_setc, Nat.eqb_refl by auto.
      + intros z d' Hz Hd. rewrite nth_setc by auto. destruct (d' =? d) eqn:X; auto.
        apply Nat.eqb_eq in X. subst. exfalso. exact (Same z Hz d Hd Ed).
      + intros m' d' Em' Ed' z Hz Hd. injection Em' as <-. exact (Same z Hz d' Hd Ed').
      + intros d' r' l0 H. rewrite nth_setc in H by auto. destruct (d' =? d) eqn:X.
        * apply Nat.eqb_eq in X. subst. left. eauto.
        * eauto.
  Qed.
End Prims.

(** Passing the storage of [y] to [x], which owns nothing in heap [h]. *)
Lemma transfer_rel s v x y my r a b l h my' w' : related s v -> x <> y ->
  mats s y = Some my -> v y = Some (r, Val a b l) ->
  (forall z d, z <> x -> owns (mats s) z d -> nth_error h d = nth_error (hp s) d) ->
  (forall d r' l, nth_error h d = Some (Live r' l) -> exists z, z <> x /\ owns (mats s) z d) ->
  dat my' = None -> sim h (Some my') (Some (r, w')) ->
  related (put (put s h x (steal my r)) h y my')
    (upd (upd v x (Some (r, Val a b l))) y (Some (r, w'))).
Proof.
  intros R Hxy Em Ev F Lk Dn Sm. assert (Hy := rel_sim s v R y). rewrite Em, Ev in Hy.
  destruct Hy as [Hr Hh].
  apply (related_change s v _ _ (fun z => (z =? x) || (z =? y)) R); simpl.
  - intros z Hz. apply orb_false_iff in Hz. destruct Hz as [Hx Hy].
    apply Nat.eqb_neq in Hx. apply Nat.eqb_neq in Hy. now rewrite !upd_other.
  - intros z Hz. destruct (Nat.eq_dec z y) as [->|Hn].
    + rewrite !upd_same. exact Sm.
    + rewrite !(upd_other _ y) by auto. apply orb_true_iff in Hz.
      destruct Hz as [Hz|Hz]; apply Nat.eqb_eq in Hz; [|congruence]. subst z.
      rewrite !upd_same. split; auto. destruct Hh as (A & B & C & D & E). simpl.
      repeat split; auto. destruct E as [(d & Ed & N)|E]; [left|right; auto].
      exists d. split; auto. rewrite F with (z := y); auto.
      * now rewrite <- Hr.
      * exists my. auto.
  - intros z d Hz Hd. apply orb_false_iff in Hz. destruct Hz as [Hx _].
    apply Nat.eqb_neq in Hx. eauto.
  - intros z z' d Hz (m & E1 & D1) (m' & E2 & D2).
    destruct (Nat.eq_dec z y) as [->|Hn].
    { rewrite upd_same in E1. injection E1 as <-. congruence. }
    rewrite upd_other in E1 by auto. apply orb_true_iff in Hz.
    destruct Hz as [Hz|Hz]; apply Nat.eqb_eq in Hz; [|congruence]. subst z.
    rewrite upd_same in E1. injection E1 as <-. simpl in D1.
    destruct (Nat.eq_dec z' y) as [->|Hn'].
    { rewrite upd_same in E2. injection E2 as <-. congruence. }
    rewrite upd_other in E2 by auto.
    destruct (Nat.eq_dec z' x) as [->|Hn'']; auto. rewrite upd_other in E2 by auto.
    exfalso. apply Hn'. apply (proj1 (proj2 R) z' y d); [exists m'|exists my]; auto.
  - intros d r' l' H. destruct (Lk d r' l' H) as (z & Hz & m & E1 & D1).
    destruct (Nat.eq_dec z y) as [->|Hn].
    + exists x. exists (steal my r). rewrite upd_other, upd_same by auto. split; auto.
      simpl. congruence.
    + exists z. exists m. rewrite !upd_other; auto.
Qed.

Lemma upd_upd_related s v h h' x m m' w w' :
  related (put (put s h x m) h' x m') (upd (upd v x w) x w') ->
  related (put s h' x m') (upd v x w').
Proof.
  intros R. assert (Q : forall z, mats (put (put s h x m) h' x m') z = mats (put s h' x m') z).
  { intros z. simpl. unfold upd. destruct (z =? x); auto. }
  destruct R as (S & U & N). split; [|split].
  - intros z. specialize (S z). rewrite Q in S. simpl in *.
    replace (upd v x w' z) with (upd (upd v x w) x w' z); auto.
    unfold upd. destruct (z =? x); auto.
  - intros a b d (m1 & E1 & D1) (m2 & E2 & D2). apply (U a b d).
    + exists m1. now rewrite Q.
    + exists m2. now rewrite Q.
  - intros d r l H. destruct (N d r l H) as (z & m1 & E1 & D1). exists z, m1.
    now rewrite <- Q.
Qed.

Lemma leak_free_null s v x : related s v -> mats s x = None ->
  (forall d r' l, nth_error (hp s) d = Some (Live r' l) ->
     exists z, z <> x /\ owns (mats s) z d).
Proof.
  intros R E d r l H. destruct (proj2 (proj2 R) d r l H) as (z & Hz).
  exists z. split; auto. intros ->. destruct Hz as (m & Em & _). congruence.
Qed.

Lemma step_ok s v o v' : related s v -> vstep v o v' ->
  exists s', step s o = Ok s' /\ related s' v'.
Proof.
  intros R H. destruct H.
  - (* New0 *)
    simpl. unfold fresh. rewrite (fresh_of s v R x H). simpl.
    eexists. split; [reflexivity|]. apply related_one; auto.
    + split; auto. simpl. repeat split; auto.
    + intros m d Em Ed. injection Em as <-. discriminate.
    + intros d r' l Hd. right. eapply leak_free_null; eauto. eapply fresh_of; eauto.
  - (* New *)
    simpl. unfold fresh. rewrite (fresh_of s v R x H). simpl.
    eexists. split; [reflexivity|]. apply alloc_rel; auto.
    + eapply leak_free_null; eauto. eapply fresh_of; eauto.
    + apply repeat_length.
  - (* CopyCtor *)
    destruct (live_of s v R y ry _ H0) as (my & Ey & Hr & Hh).
    assert (Fx := fresh_of s v R x H).
    assert (Hxy : y <> x) by (intros ->; congruence).
    simpl. unfold fresh, live. rewrite Fx, Ey. simpl.
    assert (Rn : rows my = a /\ cols my = b /\ length l = a * b).
    { destruct Hh as (A & B & C & _). auto. }
    destruct Rn as (Ra & Rb & Ll).
    set (m := {| dat := Some (length (hp s)); rows := rows my; cols := cols my;
                 asz := rows my * cols my; rs := r |}).
    set (h := hp s ++ [Live r (repeat None (rows my * cols my))]).
    assert (R1 : related (put s h x m)
       (upd v x (Some (r, Val (rows my) (cols my) (repeat None (rows my * cols my)))))).
    { apply alloc_rel; auto.
      - eapply leak_free_null; eauto.
      - apply repeat_length. }
    assert (E1 : read h my = Ok l).
    { apply (read_ok (put s h x m) _ R1 y my ry a b l).
      - simpl. now rewrite upd_other.
      - now rewrite upd_other. }
    rewrite E1. simpl.
    destruct (store_rel (put s h x m) _ R1 x m r (rows my) (cols my)
        (repeat None (rows my * cols my)) l) as (h' & E2 & R2).
    + simpl. now rewrite upd_same.
    + now rewrite upd_same.
    + congruence.
    + simpl in E2. rewrite E2. simpl. eexists. split; [reflexivity|].
      apply upd_upd_related in R2. now rewrite Ra, Rb in R2.
  - (* MoveCtor *)
    destruct (live_of s v R y ry _ H0) as (my & Ey & Hr & Hh).
    assert (Fx := fresh_of s v R x H).
    simpl. unfold fresh, live. rewrite Fx, Ey. simpl.
    eexists. split; [reflexivity|]. rewrite Hr.
    apply transfer_rel; auto.
    + intros ->. congruence.
    + eapply leak_free_null; eauto.
    + split; simpl; auto.
  - (* MoveExt *)
    destruct (live_of s v R y ry _ H0) as (my & Ey & Hr & Hh).
    assert (Fx := fresh_of s v R x H).
    simpl. unfold fresh, live. rewrite Fx, Ey. simpl. rewrite Hr, Nat.eqb_refl.
    eexists. split; [reflexivity|].
    apply transfer_rel; auto.
    + intros ->. congruence.
    + eapply leak_free_null; eauto.
    + split; simpl; auto.
  - (* CopyAssign *)
    destruct (live_of s v R x rx _ H) as (mx & Ex & Hrx & Hhx).
    destruct (live_of s v R y ry _ H1) as (my & Ey & Hry & Hhy).
    simpl. unfold live at 1 2. rewrite Ex, Ey. simpl.
    assert (Rn : rows my = a /\ cols my = b /\ length l = a * b).
    { destruct Hhy as (A & B & C & _). auto. }
    destruct Rn as (Ra & Rb & Ll). rewrite Ra, Rb.
    destruct (resize_rel s v R x mx rx w a b Ex H H0) as (h & m' & E1 & A1 & A2 & A3 & R1).
    rewrite E1. simpl.
    assert (E2 : exists my', live (put s h x m') y = Ok my' /\ read h my' = Ok l).
    { destruct (Nat.eq_dec y x) as [->|Hn].
      - exists m'. unfold live. simpl. rewrite upd_same. split; auto.
        apply (read_ok (put s h x m') _ R1 x m' rx a b l).
        + simpl. now rewrite upd_same.
        + rewrite upd_same. rewrite H in H1. injection H1 as -> ->. simpl.
          now rewrite Ll, Nat.eqb_refl.
      - exists my. unfold live. simpl. rewrite upd_other by auto. rewrite Ey. split; auto.
        apply (read_ok (put s h x m') _ R1 y my ry a b l).
        + simpl. now rewrite upd_other.
        + now rewrite upd_other. }
    destruct E2 as (my' & E2 & E3). rewrite E2. simpl. rewrite E3. simpl.
    destruct (store_rel (put s h x m') _ R1 x m' rx a b (resized w (a * b)) l)
      as (h' & E4 & R2); auto.
    + simpl. now rewrite upd_same.
    + now rewrite upd_same.
    + simpl in E4. rewrite E4. simpl. eexists. split; [reflexivity|].
      now apply upd_upd_related in R2.
  - (* MoveAssign *)
    destruct (live_of s v R x r _ H0) as (mx & Ex & Hrx & Hhx).
    destruct (live_of s v R y r _ H1) as (my & Ey & Hry & Hhy).
    simpl. unfold live. rewrite Ex, Ey. simpl.
    rewrite (proj2 (Nat.eqb_neq x y) H), Hrx, Hry, Nat.eqb_refl.
    destruct (dealloc_ok s v R x mx r w Ex H0) as (h & Eh & L & F & Lk).
    rewrite Eh. simpl. eexists. split; [reflexivity|].
    apply transfer_rel; auto.
    + intros d r' l' Hd. now apply Lk in Hd.
    + split; simpl; auto.
  - (* self move *)
    destruct w as [r w]. destruct (live_of s v R x r _ H) as (mx & Ex & Hrx & Hhx).
    simpl. unfold live. rewrite Ex. simpl. rewrite Nat.eqb_refl. eauto.
  - (* Assign *)
    destruct (live_of s v R x r _ H) as (mx & Ex & Hrx & Hhx).
    simpl. unfold live. rewrite Ex. simpl.
    destruct (resize_rel s v R x mx r w nr nc Ex H H0) as (h & m' & E1 & A1 & A2 & A3 & R1).
    rewrite E1. simpl.
    destruct (store_rel (put s h x m') _ R1 x m' r nr nc (resized w (nr * nc)) l)
      as (h' & E4 & R2); auto.
    + simpl. now rewrite upd_same.
    + now rewrite upd_same.
    + simpl in E4. rewrite E4. simpl. eexists. split; [reflexivity|].
      now apply upd_upd_related in R2.
  - (* Fill *)
    destruct (live_of s v R x r _ H) as (mx & Ex & Hrx & Hhx).
    simpl. unfold live. rewrite Ex. simpl.
    destruct (store_rel s v R x mx r a b l0 l Ex H H0) as (h & E & R1).
    rewrite E. simpl. eauto.
  - (* Resize *)
    destruct (live_of s v R x r _ H) as (mx & Ex & Hrx & Hhx).
    simpl. unfold live. rewrite Ex. simpl.
    destruct (resize_rel s v R x mx r w nr nc Ex H H0) as (h & m' & E1 & A1 & A2 & A3 & R1).
    rewrite E1. simpl. eauto.
  - (* ConsResize, live value *)
    destruct (live_of s v R x r _ H) as (mx & Ex & Hrx & Hhx).
    simpl. unfold live. rewrite Ex. simpl.
    destruct Hhx as (A & B & C & D & E).
    unfold conservativeResize. destruct (asz mx <? nr * nc) eqn:Lt.
    + apply Nat.ltb_lt in Lt. simpl.
      set (n := nr * nc) in *.
      assert (E1 : read_n (hp s ++ [Live (rs mx) (repeat None n)]) (dat mx) (asz mx) = Ok l).
      { unfold read_n. destruct (asz mx =? 0) eqn:Z.
        - apply Nat.eqb_eq in Z. rewrite <- D, Z in C. now destruct l.
        - destruct E as [(d & Ed & N)|[_ E]].
          2:{ rewrite D, E in Z. discriminate. }
          rewrite Ed, nth_error_app1 by (eapply nth_len; eauto). rewrite N, D, <- C.
          now rewrite Nat.leb_refl, firstn_all. }
      rewrite E1. simpl.
      (* deallocation commutes with the new buffer on top *)
      assert (E2 : setc (hp s ++ [Live (rs mx) (repeat None n)]) (length (hp s))
                     (Live (rs mx) (l ++ repeat None (n - asz mx))) =
                   hp s ++ [Live (rs mx) (l ++ repeat None (n - asz mx))]).
      { generalize (hp s). induction h as [|c h IH]; simpl; auto. now rewrite IH. }
      rewrite E2.
      destruct (dealloc_ok s v R x mx r _ Ex H) as (h & Eh & L & F & Lk).
      assert (E3 : deallocate (hp s ++ [Live (rs mx) (l ++ repeat None (n - asz mx))]) mx =
                   Ok (h ++ [Live (rs mx) (l ++ repeat None (n - asz mx))])).
      { clear - Eh. unfold deallocate in *. destruct (dat mx) as [d|].
        - destruct (nth_error (hp s) d) as [[r' c|]|] eqn:N; try discriminate.
          rewrite nth_error_app1 by (eapply nth_len; eauto). rewrite N.
          destruct ((r' =? rs mx) && (length c =? size mx)); [|discriminate].
          injection Eh as <-. f_equal. apply setc_app. eapply nth_len; eauto.
        - injection Eh as <-. reflexivity. }
      rewrite E3. simpl. eexists. split; [reflexivity|].
      rewrite <- Hrx. replace (length l) with (asz mx) by congruence.
      rewrite <- L. apply alloc_rel; auto.
      * intros d r' l' Hd. now apply Lk in Hd.
      * rewrite app_length, repeat_length. unfold n in *. lia.
    + apply Nat.ltb_ge in Lt. eexists. split; [reflexivity|].
      assert (length l = nr * nc) by lia.
      replace (nr * nc - length l) with 0 by lia. simpl. rewrite app_nil_r.
      eapply remap_rel; eauto.
  - (* ConsResize, moved from *)
    destruct (live_of s v R x r _ H) as (mx & Ex & Hrx & Hhx).
    simpl. unfold live. rewrite Ex. simpl.
    destruct Hhx as [D Z]. unfold conservativeResize. rewrite Z.
    destruct (0 <? nr * nc) eqn:Lt.
    + simpl. unfold read_n. simpl. unfold deallocate. rewrite D. simpl.
      eexists. split; [reflexivity|].
      assert (E2 : setc (hp s ++ [Live (rs mx) (repeat None (nr * nc))]) (length (hp s))
                     (Live (rs mx) (repeat None (nr * nc - 0))) =
                   hp s ++ [Live (rs mx) (repeat None (nr * nc))]).
      { rewrite Nat.sub_0_r.
        generalize (hp s). induction h as [|c h IH]; simpl; auto. now rewrite IH. }
      rewrite E2. rewrite <- Hrx. apply alloc_rel; auto.
      * intros d r' l' Hd. destruct (proj2 (proj2 R) d r' l' Hd) as (z & Hz).
        exists z. split; auto. intros ->. destruct Hz as (m & Em & Ed). congruence.
      * apply repeat_length.
    + apply Nat.ltb_ge in Lt. assert (Z' : nr * nc = 0) by lia. rewrite Z'. simpl.
      eexists. split; [reflexivity|]. apply related_one; auto.
      * split; auto. simpl. rewrite Z'. repeat split; auto.
      * intros m d Em Ed. injection Em as <-. simpl in Ed. congruence.
      * intros d r' l' Hd. destruct (proj2 (proj2 R) d r' l' Hd) as (z & Hz).
        right. exists z. split; auto. intros ->. destruct Hz as (m & Em & Ed). congruence.
  - (* Destroy *)
    destruct w as [r w]. destruct (live_of s v R x r _ H) as (mx & Ex & Hrx & Hhx).
    simpl. unfold live. rewrite Ex. simpl.
    destruct (dealloc_ok s v R x mx r w Ex H) as (h & Eh & L & F & Lk).
    rewrite Eh. simpl. eexists. split; [reflexivity|]. apply related_one; auto.
    + simpl. auto.
    + intros; discriminate.
    + intros d r' l' Hd. right. now apply Lk in Hd.
Qed.

Lemma run_ok l : forall s v v', related s v -> vrun v l v' ->
  exists s', run s l = Ok s' /\ related s' v'.
Proof.
  induction l as [|o l IH]; intros s v v' R H; inversion H; subst.
  - exists s. now split.
  - destruct (step_ok s v o v'0 R) as (s1 & E & R1); auto. simpl. rewrite E. simpl.
    eapply IH; eauto.
Qed.

(** C48: every sequence of allowed operations, on any number of matrices and
    resources, runs without a bad access or a bad release, gives each object
    exactly the value that value semantics prescribes, no two objects share a
    buffer, every buffer still allocated belongs to an object with its size and
    resource, and once all objects are destroyed everything has been released. *)
Theorem C48_memory_partial : forall l v', vrun (fun _ => None) l v' ->
  exists s, run init l = Ok s /\
    (forall x r a b c, v' x = Some (r, Val a b c) ->
       exists m, mats s x = Some m /\ rs m = r /\ rows m = a /\ cols m = b /\
         read (hp s) m = Ok c) /\
    (forall x y mx my d, mats s x = Some mx -> mats s y = Some my ->
       dat mx = Some d -> dat my = Some d -> x = y) /\
    (forall d r c, nth_error (hp s) d = Some (Live r c) ->
       exists x m, mats s x = Some m /\ dat m = Some d /\ rs m = r /\ size m = length c) /\
    ((forall x, v' x = None) -> forall c, In c (hp s) -> c = Freed).
Proof.
  intros l v' H. destruct (run_ok l init (fun _ => None) v') as (s & E & R); auto.
  { split; [|split].
    - intros x. exact I.
    - intros x y d (m & Em & _). discriminate.
    - intros d r c Hd. destruct d; discriminate. }
  exists s. split; auto. repeat split.
  - intros x r a b c Ev. destruct (live_of s v' R x r _ Ev) as (m & Em & Hr & Hh).
    exists m. assert (Hh' := Hh). destruct Hh as (A & B & _). repeat split; auto.
    eapply read_ok; eauto.
  - intros x y mx my d Ex Ey Dx Dy. apply (proj1 (proj2 R) x y d).
    + exists mx. auto.
    + exists my. auto.
  - intros d r c Hd. destruct (proj2 (proj2 R) d r c Hd) as (x & m & Em & Ed).
    exists x, m. split; auto. split; auto.
    assert (Hx := rel_sim s v' R x). rewrite Em in Hx.
    destruct (v' x) as [[r' w]|]; [|destruct Hx].
    destruct (sim_live _ _ _ _ _ Hx Ed) as (c' & _ & L & _ & N).
    rewrite Hd in N. injection N as -> ->. split; [apply Hx|auto].
  - intros Hn c Hc. destruct c as [r c|]; auto. exfalso.
    apply In_nth_error in Hc. destruct Hc as (d & Hd).
    destruct (proj2 (proj2 R) d r c Hd) as (x & m & Em & _).
    assert (Hx := rel_sim s v' R x). rewrite Em, Hn in Hx. exact Hx.
Qed.

(** Writing through one object never changes another (copies do not share). *)
Theorem C48_copies : forall l v x y o s s' m c,
  vrun (fun _ => None) l v -> run init l = Ok s -> step s (Fill x o) = Ok s' ->
  x <> y -> mats s y = Some m -> read (hp s) m = Ok c ->
  mats s' y = Some m /\ read (hp s') m = Ok c.
Proof.
  intros l v x y o s s' m c Hv Er Es Hxy Em Ec.
  destruct (run_ok l init (fun _ => None) v) as (s1 & E & R); auto.
  { split; [|split].
    - intros z. exact I.
    - intros z z' d (m' & Em' & _). discriminate.
    - intros d r c' Hd. destruct d; discriminate. }
  rewrite Er in E. injection E as <-.
  simpl in Es. unfold live in Es. destruct (mats s x) as [mx|] eqn:Ex; [|discriminate].
  simpl in Es. destruct (store (hp s) mx o) as [h|] eqn:Eh; [|discriminate].
  simpl in Es. injection Es as <-. simpl. rewrite upd_other by auto. split; auto.
  unfold store in Eh. destruct (size mx =? 0); [injection Eh as <-; auto|].
  destruct (dat mx) as [d|] eqn:Ed; [|discriminate].
  destruct (nth_error (hp s) d) as [[r c0|]|] eqn:N; try discriminate.
  destruct (_ && _); [|discriminate]. injection Eh as <-.
  unfold read in *. destruct (size m =? 0); auto.
  destruct (dat m) as [d'|] eqn:Ed'; auto.
  rewrite nth_setc by (eapply nth_len; eauto).
  destruct (d' =? d) eqn:Q; auto. apply Nat.eqb_eq in Q. subst. exfalso. apply Hxy.
  apply (proj1 (proj2 R) x y d); [exists mx|exists m]; auto.
Qed.

(** Refuted: after a conservativeResize to fewer coefficients, the buffer is
    released with another size than it was allocated with. *)
Theorem C48_shrink_refuted : forall r nr nc nr' nc', nr' * nc' < nr * nc ->
  run init [New 0 r nr nc; ConsResize 0 nr' nc'; Destroy 0] = Err BadFree.
Proof.
  intros r nr nc nr' nc' H. simpl. unfold conservativeResize. simpl.
  destruct (Nat.ltb_spec (nr * nc) (nr' * nc')) as [L|L]; [lia|]. simpl.
  unfold deallocate, size. simpl. rewrite repeat_length, Nat.eqb_refl.
  destruct (Nat.eqb_spec (nr * nc) (nr' * nc')); [lia|]. reflexivity.
Qed.

(** Refuted: moving between different resources never releases the buffer of the
    source, neither by assignment nor by construction. *)
Theorem C48_leak_refuted :
  (exists s, run init [New 0 0 2 3; Fill 0 (repeat (Some 1%Z) 6); New0 1 1;
       MoveAssign 1 0; Destroy 1; Destroy 0] = Ok s /\
     (forall x, mats s x = None) /\ In (Live 0 (repeat (Some 1%Z) 6)) (hp s)) /\
  (exists s, run init [New 0 0 2 3; Fill 0 (repeat (Some 1%Z) 6);
       MoveExt 1 0 1; Destroy 1; Destroy 0] = Ok s /\
     (forall x, mats s x = None) /\ In (Live 0 (repeat (Some 1%Z) 6)) (hp s)).
Proof.
  split; eexists; (split; [reflexivity|]); split;
    try (intros [|[|x]]; reflexivity); left; reflexivity.
Qed.

(** Refuted: an object moved from by assignment keeps its allocated size; giving it
    a value of the same size writes through a null pointer. *)
Theorem C48_reuse_refuted : forall r nr nc l, 0 < nr * nc -> length l = nr * nc ->
  run init [New 0 r nr nc; New0 1 r; MoveAssign 1 0; Assign 0 nr nc l] = Err BadAccess.
Proof.
  intros r nr nc l H L. simpl. rewrite Nat.eqb_refl. simpl.
  unfold resize. simpl. rewrite Nat.eqb_refl. simpl.
  unfold store, size. simpl. destruct (nr * nc); [lia|]. reflexivity.
Qed.

(** Moves, copies, reuse and resizing of two matrices on two resources. *)
Example C48_example :
  exists v, vrun (fun _ => None)
    [New 0 0 2 1; Fill 0 [Some 1%Z; Some 2%Z]; CopyCtor 1 0 1; MoveCtor 2 0;
     Resize 0 1 1; Assign 0 1 1 [Some 5%Z]; MoveAssign 2 0; ConsResize 1 3 1;
     Destroy 0; Destroy 1; CopyCtor 1 2 1; Fill 2 [Some 7%Z]] v /\
    v 1 = Some (1, Val 1 1 [Some 5%Z]) /\ v 2 = Some (0, Val 1 1 [Some 7%Z]).
Proof.
  eexists. split.
  - eapply vcons; [now apply vNew|].
    eapply vcons; [eapply vFill; reflexivity|].
    eapply vcons; [eapply vCopyCtor; reflexivity|].
    eapply vcons; [eapply vMoveCtor; reflexivity|].
    eapply vcons; [eapply vResize; [reflexivity|discriminate]|].
    eapply vcons; [eapply vAssign; [reflexivity|discriminate|reflexivity]|].
    eapply vcons; [eapply vMoveAssign; [discriminate|reflexivity|reflexivity]|].
    eapply vcons; [eapply vConsResize; [reflexivity|simpl; lia]|].
    eapply vcons; [eapply vDestroy; reflexivity|].
    eapply vcons; [eapply vDestroy; reflexivity|].
    eapply vcons; [eapply vCopyCtor; reflexivity|].
    eapply vcons; [eapply vFill; reflexivity|].
    apply vnil.
  - split; reflexivity.
Qed.

Print Assumptions C48_memory_partial.
Print Assumptions C48_copies.
Print Assumptions C48_shrink_refuted.
Print Assumptions C48_leak_refuted.
Print Assumptions C48_reuse_refuted.
