(** Property C69: C++ objects with virtual methods overridden in Python keep a value each and
    own their Python part. *)
From Coq Require Import List Arith Bool Lia.
From Verif Require Import PyWrapModel.
Import ListNotations.

Section Spec.
Variables A W : Type.
Variable w0 : W.
Notation st := (st A W). Notation op := (op A W).

(** ** Specification: every object has a value, and no object shares it *)
Definition values := obj -> option (A * W).
Definition obj_eqb (x y : obj) : bool :=
  match x, y with Py p, Py q => Nat.eqb p q | Cpp c, Cpp d => Nat.eqb c d | _, _ => false end.
Definition put (m : values) (o : obj) (v : option (A * W)) : values := fun x => if obj_eqb x o then v else m x.
(** the programs: objects are made by Python, copied, assigned in C++, changed and destroyed;
    no move, no object of Python escaping through [self], no exception in an assignment *)
Definition allowed (m : values) (o : op) : Prop :=
  match o with
  | New _ _ => True
  | Copy _ o => m o <> None
  | Assign fails t o => fails = false /\ m (Cpp t) <> None /\ m o <> None
  | Move _ | Keep _ => False
  | SetAttrs p _ => m (Py p) <> None
  | SetPay o _ => m o <> None
  | Drop p => m (Py p) <> None
  | Destroy c => m (Cpp c) <> None
  end.
Definition result (o : op) (r : ret) (m : values) : values :=
  match o, r with
  | New a w, Obj x => put m x (Some (a, w))
  | Copy _ o, Obj x => put m x (m o)
  | Assign _ t o, _ => put m (Cpp t) (m o)
  | SetAttrs p a, _ => put m (Py p) (match m (Py p) with Some (_, w) => Some (a, w) | None => None end)
  | SetPay o w, _ => put m o (match m o with Some (a, _) => Some (a, w) | None => None end)
  | Drop p, _ => put m (Py p) None
  | Destroy c, _ => put m (Cpp c) None
  | _, _ => m
  end.
(** an execution, with the values the objects should have *)
Inductive steps : list op -> st -> values -> st -> values -> Prop :=
| s_nil s m : steps [] s m s m
| s_ok o l s m s1 r s2 m2 :
    allowed m o -> step w0 o s = Ok s1 r -> steps l s1 (result o r m) s2 m2 -> steps (o :: l) s m s2 m2
| s_raise o l s m s1 s2 m2 :
    allowed m o -> step w0 o s = Raise s1 -> steps l s1 m s2 m2 -> steps (o :: l) s m s2 m2.
(** the object an operation returns is new *)
Definition fresh (r : ret) (m : values) : Prop := match r with Unit => True | Obj x => m x = None end.
Definition may_raise (o : op) : bool := match o with Copy fails _ => fails | _ => false end.

(** ** Invariant *)
Definition own_of (h : holder) (p : nat) : option nat := match h with Own _ => None | Ptr _ => Some p end.
Record Inv (s : st) : Prop := {
  i_py : forall p o, py s p = Some o ->
         refs o = 1 /\ exists w, cp s (get_ptr _ o) = Some (Inst w (Some p) (own_of (held o) p));
  i_cp : forall c i, cp s c = Some i -> exists p o, self i = Some p /\ py s p = Some o /\ get_ptr _ o = c;
  i_np : forall p, np s <= p -> py s p = None;
  i_nc : forall c, nc s <= c -> cp s c = None }.
Definition vw (s : st) (x : obj) : option (A * W) :=
  match x with
  | Py p =>
    match py s p with
    | Some (PyObj a (Own c) _) => match cp s c with Some i => Some (a, pay i) | None => None end
    | _ => None
    end
  | Cpp c =>
    match cp s c with
    | Some (Inst w _ (Some p)) => match py s p with Some o => Some (attrs o, w) | None => None end
    | _ => None
    end
  end.
Definition key (h : holder) (p : nat) : obj := match h with Own _ => Py p | Ptr c => Cpp c end.
Definition hptr (h : holder) : nat := match h with Own c => c | Ptr c => c end.

Lemma upd_eq {B} (f : nat -> option B) i v : upd f i v i = v.
Proof. unfold upd; now rewrite Nat.eqb_refl. Qed.
Lemma upd_ne {B} (f : nat -> option B) i v j : j <> i -> upd f i v j = f j.
Proof. unfold upd; intro H; now destruct (Nat.eqb_spec j i). Qed.
Lemma get_hptr (o : pyobj A) : get_ptr _ o = hptr (held o).
Proof. now destruct o as [a [c|c] n]. Qed.

(** a pair of a Python object and its C++ part is made *)
Lemma add_ok s s' p h a w :
  Inv s -> py s p = None -> cp s (hptr h) = None ->
  (forall x, py s' x = upd (py s) p (Some (PyObj a h 1)) x) ->
  (forall x, cp s' x = upd (cp s) (hptr h) (Some (Inst w (Some p) (own_of h p))) x) ->
  p < np s' -> hptr h < nc s' -> np s <= np s' -> nc s <= nc s' ->
  Inv s' /\ forall x, vw s' x = put (vw s) (key h p) (Some (a, w)) x.
Proof.
  intros [I1 I2 I3 I4] Hp Hc Ep Ec Lp Lc Gp Gc.
  assert (D : forall q o, py s q = Some o -> get_ptr _ o <> hptr h).
  { intros q o Hq E. destruct (I1 q o Hq) as (_ & v & Hv). rewrite E in Hv. congruence. }
  assert (D' : forall c i, cp s c = Some i -> self i <> Some p).
  { intros c i Hi E. destruct (I2 c i Hi) as (q & o & Hs & Hq & _). congruence. }
  split.
  - constructor.
    + intros q o. rewrite Ep. destruct (Nat.eq_dec q p) as [->|N].
      * rewrite upd_eq. intros [= <-]. split; [easy|]. exists w.
        rewrite get_hptr, Ec. cbn. now rewrite upd_eq.
      * rewrite upd_ne by easy. intro Hq. destruct (I1 q o Hq) as (Hr & v & Hv). split; [easy|].
        exists v. rewrite Ec, upd_ne; [easy|]. now apply D with q.
    + intros c i. rewrite Ec. destruct (Nat.eq_dec c (hptr h)) as [->|N].
      * rewrite upd_eq. intros [= <-]. exists p, (PyObj a h 1). rewrite Ep, upd_eq, get_hptr. easy.
      * rewrite upd_ne by easy. intro Hi. destruct (I2 c i Hi) as (q & o & Hs & Hq & Hg).
        exists q, o. rewrite Ep, upd_ne; [easy|]. intros ->. congruence.
    + intros q Hq. rewrite Ep, upd_ne by lia. apply I3; lia.
    + intros c Hq. rewrite Ec, upd_ne by lia. apply I4; lia.
  - intros [q|c]; unfold put; cbn [vw].
    + rewrite Ep. destruct (Nat.eq_dec q p) as [->|N].
      * rewrite upd_eq. destruct h as [c|c]; cbn [key obj_eqb].
        { rewrite Nat.eqb_refl, Ec. cbn [hptr]. now rewrite upd_eq. }
        { now rewrite Hp. }
      * rewrite upd_ne by easy.
        replace (obj_eqb (Py q) (key h p)) with false
          by (destruct h; cbn; [symmetry; now apply Nat.eqb_neq|easy]).
        destruct (py s q) as [[a' [c|c] n]|] eqn:Hq; try easy.
        rewrite Ec, upd_ne; [easy|]. exact (D _ _ Hq).
    + rewrite Ec. destruct (Nat.eq_dec c (hptr h)) as [->|N].
      * rewrite upd_eq. destruct h as [c|c]; cbn [key obj_eqb own_of hptr].
        { cbn in Hc. now rewrite Hc. }
        { now rewrite Nat.eqb_refl, Ep, upd_eq. }
      * rewrite upd_ne by easy.
        replace (obj_eqb (Cpp c) (key h p)) with false
          by (destruct h; cbn; [easy|symmetry; now apply Nat.eqb_neq]).
        destruct (cp s c) as [[v sf [q|]]|] eqn:Hi; try easy.
        rewrite Ep. destruct (Nat.eq_dec q p) as [->|]; [|now rewrite upd_ne].
        exfalso. destruct (I2 _ _ Hi) as (q & o & Hs & Hq & Hg). cbn in Hs.
        destruct (I1 q o Hq) as (_ & v' & Hv). rewrite Hg, Hi in Hv. injection Hv as -> -> E.
        destruct (held o); cbn in E; congruence.
Qed.

(** a pair is removed *)
Lemma del_ok s s' p a h n :
  Inv s -> py s p = Some (PyObj a h n) ->
  (forall x, py s' x = upd (py s) p None x) ->
  (forall x, cp s' x = upd (cp s) (hptr h) None x) ->
  np s' = np s -> nc s' = nc s ->
  Inv s' /\ forall x, vw s' x = put (vw s) (key h p) None x.
Proof.
  intros [I1 I2 I3 I4] Hp Ep Ec Gp Gc.
  destruct (I1 _ _ Hp) as (_ & w & Hw). rewrite get_hptr in Hw. cbn [held] in Hw.
  assert (D : forall q o, py s q = Some o -> q <> p -> get_ptr _ o <> hptr h).
  { intros q o Hq N E. destruct (I1 q o Hq) as (_ & v & Hv). rewrite E, Hw in Hv. congruence. }
  assert (D' : forall c i, cp s c = Some i -> c <> hptr h -> self i <> Some p).
  { intros c i Hi N E. destruct (I2 c i Hi) as (q & o & Hs & Hq & Hg). rewrite get_hptr in Hg.
    assert (q = p) by congruence; subst q. rewrite Hp in Hq. injection Hq as <-. cbn in Hg. congruence. }
  split.
  - constructor.
    + intros q o. rewrite Ep. destruct (Nat.eq_dec q p) as [->|N].
      * rewrite upd_eq. easy.
      * rewrite upd_ne by easy. intro Hq. destruct (I1 q o Hq) as (Hr & v & Hv). split; [easy|].
        exists v. rewrite Ec, upd_ne; [easy|]. now apply D with q.
    + intros c i. rewrite Ec. destruct (Nat.eq_dec c (hptr h)) as [->|N].
      * rewrite upd_eq. easy.
      * rewrite upd_ne by easy. intro Hi. destruct (I2 c i Hi) as (q & o & Hs & Hq & Hg).
        exists q, o. rewrite Ep, upd_ne; [easy|]. intros ->. now apply (D' c i).
    + intros q Hq. rewrite Ep. destruct (Nat.eq_dec q p) as [->|N]; [now rewrite upd_eq|].
      rewrite upd_ne by easy. apply I3; lia.
    + intros c Hq. rewrite Ec. destruct (Nat.eq_dec c (hptr h)) as [->|N]; [now rewrite upd_eq|].
      rewrite upd_ne by easy. apply I4; lia.
  - intros [q|c]; unfold put; cbn [vw].
    + rewrite Ep. destruct (Nat.eq_dec q p) as [->|N].
      * rewrite upd_eq. destruct h as [c|c]; cbn [key obj_eqb].
        { now rewrite Nat.eqb_refl. }
        { now rewrite Hp. }
      * rewrite upd_ne by easy.
        replace (obj_eqb (Py q) (key h p)) with false
          by (destruct h; cbn; [symmetry; now apply Nat.eqb_neq|easy]).
        destruct (py s q) as [[a' [c|c] m]|] eqn:Hq; try easy.
        rewrite Ec, upd_ne; [easy|]. exact (D _ _ Hq N).
    + rewrite Ec. destruct (Nat.eq_dec c (hptr h)) as [->|N].
      * rewrite upd_eq. destruct h as [c|c]; cbn [key obj_eqb own_of hptr].
        { cbn in Hw. now rewrite Hw. }
        { now rewrite Nat.eqb_refl. }
      * rewrite upd_ne by easy.
        replace (obj_eqb (Cpp c) (key h p)) with false
          by (destruct h; cbn; [easy|symmetry; now apply Nat.eqb_neq]).
        destruct (cp s c) as [[v sf [q|]]|] eqn:Hi; try easy.
        rewrite Ep. destruct (Nat.eq_dec q p) as [->|]; [|now rewrite upd_ne].
        exfalso. destruct (I2 _ _ Hi) as (q & o & Hs & Hq & Hg). cbn in Hs.
        destruct (I1 q o Hq) as (_ & v' & Hv). rewrite Hg, Hi in Hv. injection Hv as -> -> E.
        destruct (held o) eqn:Ho; cbn in E; [congruence|]. injection E as <-.
        rewrite Hp in Hq. injection Hq as <-. rewrite get_hptr in Hg. cbn in Hg. congruence.
Qed.

(** ** Reading values *)
Lemma vw_pair s x a w : Inv s -> vw s x = Some (a, w) ->
  exists p h, x = key h p /\ py s p = Some (PyObj a h 1) /\
              cp s (hptr h) = Some (Inst w (Some p) (own_of h p)).
Proof.
  intros [I1 I2 _ _]. destruct x as [p|c]; cbn [vw].
  - destruct (py s p) as [[a' [c|c] n]|] eqn:Hp; try easy.
    destruct (I1 _ _ Hp) as (Hn & v & Hv). cbn in Hn, Hv. rewrite Hv. intros [= <- <-]. subst n.
    now exists p, (Own c).
  - destruct (cp s c) as [[v sf [q|]]|] eqn:Hi; try easy.
    destruct (I2 _ _ Hi) as (p & o & Hs & Hq & Hg). cbn in Hs. subst sf.
    destruct (I1 _ _ Hq) as (Hn & v' & Hv). rewrite Hg, Hi in Hv. injection Hv as <- E.
    destruct o as [b h n]. cbn in Hn, E. subst n.
    destruct h as [d|d]; cbn in E; [easy|]. injection E as ->.
    rewrite Hq. intros [= <- <-]. cbn in Hg. subst d. now exists p, (Ptr c).
Qed.
Lemma addr_key s h p a n : py s p = Some (PyObj a h n) -> addr A W (key h p) s = Some (hptr h).
Proof. intro H. destruct h; cbn; [|easy]. unfold part. now rewrite H. Qed.

Definition Rel (s : st) (m : values) : Prop := Inv s /\ forall x, m x = vw s x.

Lemma put_ext m m' o v : (forall x, m x = m' x) -> forall x, put m o v x = put m' o v x.
Proof. intros E x. unfold put. now destruct obj_eqb. Qed.
Lemma put_put m o v v' x : put (put m o v) o v' x = put m o v' x.
Proof. unfold put. now destruct obj_eqb. Qed.

Lemma Rel_add s s' m p h a w :
  Rel s m -> py s p = None -> cp s (hptr h) = None ->
  (forall x, py s' x = upd (py s) p (Some (PyObj a h 1)) x) ->
  (forall x, cp s' x = upd (cp s) (hptr h) (Some (Inst w (Some p) (own_of h p))) x) ->
  p < np s' -> hptr h < nc s' -> np s <= np s' -> nc s <= nc s' ->
  Rel s' (put m (key h p) (Some (a, w))).
Proof.
  intros [I E] **. destruct (add_ok s s' p h a w) as [I' E']; try easy. split; [easy|].
  intro x. rewrite E'. now apply put_ext.
Qed.
Lemma Rel_del s s' m p a h n :
  Rel s m -> py s p = Some (PyObj a h n) ->
  (forall x, py s' x = upd (py s) p None x) ->
  (forall x, cp s' x = upd (cp s) (hptr h) None x) ->
  np s' = np s -> nc s' = nc s -> Rel s' (put m (key h p) None).
Proof.
  intros [I E] **. destruct (del_ok s s' p a h n) as [I' E']; try easy. split; [easy|].
  intro x. rewrite E'. now apply put_ext.
Qed.
Lemma Rel_ext s m m' : Rel s m -> (forall x, m' x = m x) -> Rel s m'.
Proof. intros [I E] H. split; [easy|]. intro x. now rewrite H. Qed.

(** the pair of p is replaced *)
Lemma Rel_replace s s' m p a h n q k b w :
  Rel s m -> py s p = Some (PyObj a h n) -> hptr k = hptr h -> q = p \/ py s q = None ->
  (forall x, py s' x = upd (upd (py s) p None) q (Some (PyObj b k 1)) x) ->
  (forall x, cp s' x = upd (cp s) (hptr h) (Some (Inst w (Some q) (own_of k q))) x) ->
  q < np s' -> hptr h < nc s' -> np s <= np s' -> nc s <= nc s' ->
  Rel s' (put (put m (key h p) None) (key k q) (Some (b, w))).
Proof.
  intros R Hp Hk Hq Ep Ec **.
  assert (R1 : Rel (St (upd (py s) p None) (upd (cp s) (hptr h) None) (np s) (nc s)) (put m (key h p) None))
    by (now apply (Rel_del s _ m p a h n)).
  apply (Rel_add _ s' _ q k b w R1); cbn; try easy.
  - destruct Hq as [->|Hq]; [now rewrite upd_eq|]. destruct (Nat.eq_dec q p) as [->|N]; [now rewrite upd_eq|now rewrite upd_ne].
  - now rewrite Hk, upd_eq.
  - intro x. rewrite Ec, Hk. unfold upd. now destruct Nat.eqb.
  - now rewrite Hk.
Qed.

(** ** Steps *)
Lemma Rel_np s m p o : Rel s m -> py s p = Some o -> p < np s.
Proof. intros [[_ _ I _] _] H. destruct (le_lt_dec (np s) p) as [L|]; [|easy]. rewrite (I p L) in H. easy. Qed.
Lemma Rel_nc s m c i : Rel s m -> cp s c = Some i -> c < nc s.
Proof. intros [[_ _ _ I] _] H. destruct (le_lt_dec (nc s) c) as [L|]; [|easy]. rewrite (I c L) in H. easy. Qed.
Lemma Rel_pair s m x : Rel s m -> m x <> None ->
  exists a w p h, m x = Some (a, w) /\ x = key h p /\ py s p = Some (PyObj a h 1) /\
              cp s (hptr h) = Some (Inst w (Some p) (own_of h p)).
Proof.
  intros [I E] H. destruct (m x) as [[a w]|] eqn:Hx; [|easy]. rewrite E in Hx.
  destruct (vw_pair s x a w I Hx) as (p & h & ? & ? & ?). now exists a, w, p, h.
Qed.

Ltac ue := repeat first [rewrite upd_eq | rewrite upd_ne by lia].
Ltac pw := let x := fresh in intro x; cbn [py cp]; unfold upd;
  repeat match goal with |- context [Nat.eqb x ?y] => destruct (Nat.eqb_spec x y) end; subst; try reflexivity; try lia; try congruence.

(** what deepcopy_owner does to an instance d whose m_self is the Python object of another
    pair, and which owned the object q or nothing *)
Lemma deepcopy_run s d w p a h n ow :
  cp s d = Some (Inst w (Some p) ow) -> py s p = Some (PyObj a h n) -> p < np s -> d < nc s ->
  match ow with Some q => py s q = Some (PyObj (match py s q with Some o => attrs o | None => a end) (Ptr d) 1) /\ q < np s | None => True end ->
  exists s', deepcopy_owner A W w0 false d s = Ok s' tt /\ np s' = S (np s) /\ nc s' = S (nc s) /\
    (forall x, py s' x = upd (match ow with Some q => upd (py s) q None | None => py s end) (np s) (Some (PyObj a (Ptr d) 1)) x) /\
    (forall x, cp s' x = upd (upd (cp s) (nc s) None) d (Some (Inst w (Some (np s)) (Some (np s)))) x).
Proof.
  intros Hd Hp Lp Ld Ho. unfold deepcopy_owner. rewrite Hd. cbn [self]. rewrite Hp.
  cbn [py_new attrs pay owner]. unfold destroy, set_py, set_cp. cbn [py cp np nc].
  destruct ow as [q|].
  - destruct Ho as [Hq Lq]. cbn [decref_opt]. unfold decref_ptr. cbn [py]. rewrite (upd_ne _ _ _ q) by lia.
    rewrite Hq. unfold set_py. cbn [py cp np nc]. ue. cbn [attrs held refs get_ptr py cp np nc]. ue.
    cbn [owner decref_opt cp]. ue. cbn [pay owner py cp np nc].
    eexists; split; [reflexivity|]. cbn [np nc]. repeat split; pw.
  - cbn [decref_opt py]. ue. cbn [attrs held refs get_ptr py cp np nc]. ue.
    cbn [owner decref_opt cp]. ue. cbn [pay owner py cp np nc].
    eexists; split; [reflexivity|]. cbn [np nc]. repeat split; pw.
Qed.

Lemma step_ok s m o : Rel s m -> allowed m o ->
  match step w0 o s with
  | Ok s' r => may_raise o = false /\ fresh r m /\ Rel s' (result o r m)
  | Raise s' => may_raise o = true /\ Rel s' m
  | Ub => False
  end.
Proof.
  intros R Ha. pose proof R as [[I1 I2 I3 I4] E].
  destruct o as [a w|fails o|fails t o|c|c|p a|o w|p|c]; cbn [allowed] in Ha; cbn [step]; try easy.
  - (* New *)
    cbn. split; [easy|]. split.
    + rewrite E. cbn. now rewrite (I3 (np s) (le_n _)).
    + change (Py (np s)) with (key (Own (nc s)) (np s)). apply Rel_add with s; cbn; try easy; try lia.
      * now apply I3. * now apply I4.
  - (* Copy *)
    destruct (Rel_pair s m o R Ha) as (a & w & p & h & Hv & -> & Hp & Hc).
    rewrite (addr_key s h p a 1 Hp). unfold copy. rewrite Hc. cbn [pay self].
    set (s0 := St _ _ _ _).
    pose proof (Rel_np s m _ _ R Hp) as Lp. pose proof (Rel_nc s m _ _ R Hc) as Lc.
    destruct fails.
    + subst s0. unfold deepcopy_owner. cbn [cp py]. ue. cbn [self]. rewrite Hp. cbn [bindr]. unfold set_cp. cbn [cp py np nc]. split; [easy|].
      split; [|intro x; rewrite E].
      * constructor; cbn [py cp np nc].
        -- intros q o Hq. destruct (I1 q o Hq) as (Hr & v & Hw). split; [easy|]. exists v.
           pose proof (Rel_nc s m _ _ R Hw). now ue.
        -- intros c i. destruct (Nat.eq_dec c (nc s)) as [->|N]; [now rewrite upd_eq|]. ue. apply I2.
        -- exact I3.
        -- intros c L. ue. apply I4; lia.
      * destruct x as [q|c]; cbn [vw py cp].
        -- destruct (py s q) as [[b [c|c] k]|] eqn:Hq; try easy.
           destruct (I1 _ _ Hq) as (_ & v & Hw). cbn in Hw. pose proof (Rel_nc s m _ _ R Hw). ue. reflexivity.
        -- destruct (Nat.eq_dec c (nc s)) as [->|N]; ue; [|reflexivity].
           now rewrite (I4 (nc s) (le_n _)).
    + destruct (deepcopy_run s0 (nc s) w p a h 1 None) as (s' & -> & Np & Nc & Ep & Ec); cbn [s0 cp py np nc]; try easy; try lia.
      { now rewrite upd_eq. }
      cbn [bindr]. split; [easy|]. cbn [fresh result]. split.
      { rewrite E. cbn. now rewrite (I4 (nc s) (le_n _)). }
      rewrite Hv. change (Cpp (nc s)) with (key (Ptr (nc s)) (np s)).
      cbn [s0 np nc] in Np, Nc. cbn [s0 cp py np nc] in Ep, Ec.
      apply Rel_add with s; cbn [hptr own_of]; try easy; try lia.
      * now apply I3. * now apply I4.
      * intro x. rewrite Ec. unfold upd. destruct (Nat.eqb_spec x (nc s)); [easy|].
        destruct (Nat.eqb_spec x (S (nc s))); [|easy]. subst. symmetry. apply I4. lia.
  - (* Assign *)
    destruct Ha as (-> & Ht & Ho).
    destruct (Rel_pair s m _ R Ht) as (a' & w' & p' & h' & Hv' & Et & Hp' & Hc').
    destruct h' as [c'|c']; cbn in Et; [easy|]. injection Et as <-. cbn [hptr own_of] in Hc'.
    destruct (Rel_pair s m o R Ho) as (a & w & p & h & Hv & -> & Hp & Hc).
    rewrite (addr_key s h p a 1 Hp). unfold assign.
    destruct (Nat.eqb_spec t (hptr h)) as [Eq|Nt].
    + cbn [bindr result]. split; [easy|]. split; [easy|].
      destruct h as [c|c]; cbn [hptr] in *.
      { exfalso. subst c. rewrite Hc' in Hc. cbn in Hc. congruence. }
      subst c. cbn [key]. apply Rel_ext with m; [easy|]. intro x. unfold put.
      destruct x as [q|c]; cbn [obj_eqb key]; [easy|]. destruct (Nat.eqb_spec c t); now subst.
    + rewrite Hc', Hc. cbn [pay self owner].
      pose proof (Rel_np s m _ _ R Hp) as Lp. pose proof (Rel_nc s m _ _ R Hc) as Lc.
      pose proof (Rel_np s m _ _ R Hp') as Lp'. pose proof (Rel_nc s m _ _ R Hc') as Lc'.
      destruct (deepcopy_run (set_cp s t (Some (Inst w (Some p) (Some p')))) t w p a h 1 (Some p')) as (s' & -> & Np & Nc & Ep & Ec);
        cbn [set_cp cp py np nc]; try easy; try lia.
      { now rewrite upd_eq. }
      { rewrite Hp'. easy. }
      cbn [bindr result]. split; [easy|]. split; [easy|].
      cbn [set_cp cp py np nc] in *.
      rewrite Hv. apply Rel_ext with (put (put m (key (Ptr t) p') None) (key (Ptr t) (np s)) (Some (a, w))).
      2:{ intro x. cbn [key]. now rewrite put_put. }
      apply Rel_replace with (a := a') (n := 1) (s := s); cbn [hptr own_of]; try easy; try lia.
      * right. now apply I3.
      * intro x. rewrite Ec. unfold upd. destruct (Nat.eqb_spec x t); [easy|].
        destruct (Nat.eqb_spec x (nc s)); [|easy]. subst. symmetry. now apply I4.
  - (* SetAttrs *)
    destruct (Rel_pair s m _ R Ha) as (a' & w' & p' & h' & Hv' & Et & Hp' & Hc').
    destruct h' as [c'|c']; cbn in Et; [|easy]. injection Et as <-. cbn [hptr own_of] in Hc'.
    unfold py_set. rewrite Hp'. cbn [bindr held refs result]. split; [easy|]. split; [easy|].
    rewrite Hv'. pose proof (Rel_np s m _ _ R Hp'). pose proof (Rel_nc s m _ _ R Hc').
    apply Rel_ext with (put (put m (key (Own c') p) None) (key (Own c') p) (Some (a, w'))).
    2:{ intro x. cbn [key]. now rewrite put_put. }
    apply Rel_replace with (a := a') (n := 1) (s := s); unfold set_py; cbn [hptr own_of np nc]; try easy; auto; pw.
  - (* SetPay *)
    destruct (Rel_pair s m o R Ha) as (a & w' & p & h & Hv & -> & Hp & Hc).
    rewrite (addr_key s h p a 1 Hp). unfold cpp_set. rewrite Hc. cbn [bindr self owner result].
    split; [easy|]. split; [easy|].
    rewrite Hv. pose proof (Rel_np s m _ _ R Hp). pose proof (Rel_nc s m _ _ R Hc).
    apply Rel_ext with (put (put m (key h p) None) (key h p) (Some (a, w))).
    2:{ intro x. now rewrite put_put. }
    apply Rel_replace with (a := a) (n := 1) (s := s); unfold set_cp; cbn [np nc]; try easy; auto; pw.
  - (* Drop *)
    destruct (Rel_pair s m _ R Ha) as (a' & w' & p' & h' & Hv' & Et & Hp' & Hc').
    destruct h' as [c'|c']; cbn in Et; [|easy]. injection Et as <-. cbn [hptr own_of] in Hc'.
    unfold decref. rewrite Hp'. unfold destroy. cbn [set_py cp]. rewrite Hc'. cbn [owner decref_opt lift bindr result].
    split; [easy|]. split; [easy|]. change (Py p) with (key (Own c') p).
    now apply Rel_del with (s := s) (a := a') (n := 1).
  - (* Destroy *)
    destruct (Rel_pair s m _ R Ha) as (a' & w' & p' & h' & Hv' & Et & Hp' & Hc').
    destruct h' as [c'|c']; cbn in Et; [easy|]. injection Et as <-. cbn [hptr own_of] in Hc'.
    unfold destroy. rewrite Hc'. cbn [owner decref_opt]. unfold decref_ptr. cbn [set_cp py]. rewrite Hp'.
    cbn [lift bindr result].
    split; [easy|]. split; [easy|]. change (Cpp c) with (key (Ptr c) p').
    now apply Rel_del with (s := s) (a := a') (n := 1).
Qed.

Lemma Rel_empty : Rel empty (fun _ => None).
Proof. split; [constructor; easy|]. now intros [p|c]. Qed.
Lemma steps_Rel l s m s' m' : steps l s m s' m' -> Rel s m -> Rel s' m'.
Proof.
  induction 1 as [|o l s m s1 r s2 m2 Ha Hs _ IH|o l s m s1 s2 m2 Ha Hs _ IH]; intro R; [easy| |];
    pose proof (step_ok s m o R Ha) as H; rewrite Hs in H; apply IH; apply H.
Qed.

(** ** Theorems *)
(** after any program, every object has its value, seen from C++ and from Python *)
Theorem C69_values : forall l s m x a w,
  steps l empty (fun _ => None) s m -> m x = Some (a, w) -> see x s = Ok s (Some a, w).
Proof.
  intros l s m x a w H Hx. pose proof (steps_Rel _ _ _ _ _ H Rel_empty) as R.
  destruct (Rel_pair s m x R) as (a' & w' & p & h & Hv & -> & Hp & Hc); [congruence|].
  rewrite Hx in Hv. injection Hv as <- <-.
  destruct h as [c|c]; cbn [key see]; cbn [hptr] in Hc.
  - unfold py_use. rewrite Hp. cbn [get_ptr held]. now rewrite Hc.
  - unfold call. rewrite Hc. cbn [self]. rewrite Hp. cbn [get_ptr held]. now rewrite Hc.
Qed.
(** nothing dangles: the next operation is defined, raises only if deepcopy does and then
    changes nothing, and returns a new object *)
Theorem C69_safe : forall l s m o,
  steps l empty (fun _ => None) s m -> allowed m o ->
  match step w0 o s with
  | Ok s' r => may_raise o = false /\ fresh r m
  | Raise s' => may_raise o = true
  | Ub => False
  end.
Proof.
  intros l s m o H Ha. pose proof (step_ok s m o (steps_Rel _ _ _ _ _ H Rel_empty) Ha) as K.
  destruct (step w0 o s); try easy; tauto.
Qed.
(** nothing leaks: the objects of Python and the instances in memory are those of the live
    objects of the program, and when there are none the memory is empty *)
Theorem C69_leak : forall l s m,
  steps l empty (fun _ => None) s m -> (forall x, m x = None) ->
  (forall p, py s p = None) /\ (forall c, cp s c = None).
Proof.
  intros l s m H Hm. pose proof (steps_Rel _ _ _ _ _ H Rel_empty) as [I E].
  assert (P : forall p, py s p = None).
  { intro p. destruct (py s p) as [[a h n]|] eqn:Hp; [|easy].
    destruct (i_py _ I _ _ Hp) as (_ & w & Hw). destruct h as [c|c]; cbn in Hw.
    - specialize (E (Py p)). rewrite Hm in E. cbn in E. rewrite Hp, Hw in E. easy.
    - specialize (E (Cpp c)). rewrite Hm in E. cbn in E. rewrite Hw, Hp in E. easy. }
  split; [easy|]. intro c. destruct (cp s c) as [i|] eqn:Hi; [|easy].
  destruct (i_cp _ I _ _ Hi) as (p & o & _ & Hp & _). now rewrite P in Hp.
Qed.
End Spec.

(** ** Counterexamples: attributes and payloads are numbers *)
Fixpoint run (l : list (op nat nat)) (s : st nat nat) : res nat nat unit :=
  match l with
  | [] => Ok s tt
  | o :: l => match step 0 o s with Ok s _ | Raise s => run l s | Ub => Ub end
  end.
Definition after (l : list (op nat nat)) (x : obj) : option (option (option nat * nat)) :=
  match run l empty with
  | Ok s _ => Some (match see x s with Ok _ v => Some v | _ => None end)
  | _ => None
  end.

(** an object moved from a copy is used after the copy is destroyed: the Python object still
    points to the copy *)
Theorem C69_move_refuted :
  exists l, after l (Cpp 3) = Some (Some (Some 7, 5)) /\ after (l ++ [Destroy 1]) (Cpp 3) = Some None.
Proof. exists [New 7 5; Copy false (Py 0); Move 1]. split; vm_compute; reflexivity. Qed.
(** an override keeps self, the C++ object is destroyed, and Python uses what it kept *)
Theorem C69_keep_refuted :
  exists l, after l (Py 1) = Some (Some (Some 7, 5)) /\ after (l ++ [Destroy 1]) (Py 1) = Some None.
Proof. exists [New 7 5; Copy false (Py 0); Keep 1]. split; vm_compute; reflexivity. Qed.
(** deepcopy raises in an assignment: the target then dispatches to the Python object of the
    source, with the C++ part of the source, and dangles when the source is destroyed *)
Theorem C69_assign_raise_refuted :
  exists l, after l (Cpp 2) = Some (Some (Some 7, 5)) /\
            after (l ++ [Assign true 2 (Cpp 4); SetPay (Cpp 4) 9]) (Cpp 2) = Some (Some (Some 8, 9)) /\
            after (l ++ [Assign true 2 (Cpp 4); Destroy 4]) (Cpp 2) = Some None.
Proof.
  exists [New 7 5; New 8 6; Copy false (Py 0); Copy false (Py 1)]. repeat split; vm_compute; reflexivity.
Qed.
(** assignment to the C++ part of a Python object: C++ then calls the copy, Python the object *)
Theorem C69_split_refuted :
  exists l, after l (Py 0) = Some (Some (Some 7, 6)) /\ after l (Cpp 0) = Some (Some (Some 8, 6)) /\
            after (l ++ [SetAttrs 0 3]) (Cpp 0) = Some (Some (Some 8, 6)).
Proof. exists [New 7 5; New 8 6; Assign false 0 (Py 1)]. repeat split; vm_compute; reflexivity. Qed.

(** a program of all allowed operations, with what the objects show in the middle and an empty
    memory at the end *)
Definition prog : list (op nat nat) :=
  [New 7 5; New 8 6; Copy false (Py 0); Copy false (Cpp 2); Copy true (Py 1); Drop 0; SetAttrs 1 9;
   Assign false 2 (Py 1); SetPay (Cpp 2) 4; SetPay (Py 1) 3].
Definition rest : list (op nat nat) := [Drop 1; Destroy 4; Destroy 2].
Definition is (v : option (nat * nat)) : bool := match v with Some _ => true | None => false end.
Definition allowedb (m : values nat nat) (o : op nat nat) : bool :=
  match o with
  | New _ _ => true
  | Copy _ o => is (m o)
  | Assign fails t o => negb fails && is (m (Cpp t)) && is (m o)
  | Move _ | Keep _ => false
  | SetAttrs p _ => is (m (Py p))
  | SetPay o _ => is (m o)
  | Drop p => is (m (Py p))
  | Destroy c => is (m (Cpp c))
  end.
Fixpoint runv (l : list (op nat nat)) (s : st nat nat) (m : values nat nat) : option (st nat nat * values nat nat) :=
  match l with
  | [] => Some (s, m)
  | o :: l =>
    if allowedb m o then
      match step 0 o s with
      | Ok s1 r => runv l s1 (result nat nat o r m)
      | Raise s1 => runv l s1 m
      | Ub => None
      end
    else None
  end.
Lemma is_some v : is v = true -> v <> None.
Proof. now destruct v. Qed.
Lemma allowedb_ok m o : allowedb m o = true -> allowed nat nat m o.
Proof.
  destruct o as [| | [|] | | | | | |]; cbn; try easy; try apply is_some.
  intro H. apply andb_prop in H. destruct H. repeat split; now apply is_some.
Qed.
Lemma runv_ok l : forall s m s' m', runv l s m = Some (s', m') -> steps nat nat 0 l s m s' m'.
Proof.
  induction l as [|o l IH]; intros s m s' m'; cbn [runv]; [intros [= <- <-]; constructor|].
  destruct (allowedb m o) eqn:Ha; [|easy]. apply allowedb_ok in Ha.
  destruct (step 0 o s) as [s1 r|s1|] eqn:Hs; [| |easy]; intro H; apply IH in H.
  - now apply s_ok with s1 r.
  - now apply s_raise with s1.
Qed.
Definition is_run (l : list (op nat nat)) : bool :=
  match runv l empty (fun _ => None) with Some _ => true | None => false end.
Definition value_at (l : list (op nat nat)) (x : obj) : option (nat * nat) :=
  match runv l empty (fun _ => None) with Some (_, m) => m x | None => None end.
Definition size_at (l : list (op nat nat)) : nat * nat :=
  match runv l empty (fun _ => None) with Some (s, _) => (np s, nc s) | None => (0, 0) end.
Example C69_example :
  exists s m, steps nat nat 0 prog empty (fun _ => None) s m /\
    m (Cpp 2) = Some (9, 4) /\ m (Cpp 4) = Some (7, 5) /\ m (Py 1) = Some (9, 3) /\ m (Py 0) = None /\
    see (Cpp 2) s = Ok s (Some 9, 4) /\ see (Cpp 4) s = Ok s (Some 7, 5) /\
    exists s' m', steps nat nat 0 (prog ++ rest) empty (fun _ => None) s' m' /\ forall x, m' x = None.
Proof.
  destruct (runv prog empty (fun _ => None)) as [[s m]|] eqn:E.
  2:{ assert (D : is_run prog = true) by (vm_compute; reflexivity). unfold is_run in D. now rewrite E in D. }
  destruct (runv (prog ++ rest) empty (fun _ => None)) as [[s' m']|] eqn:E'.
  2:{ assert (D : is_run (prog ++ rest) = true) by (vm_compute; reflexivity). unfold is_run in D. now rewrite E' in D. }
  pose proof (runv_ok _ _ _ _ _ E) as H. pose proof (runv_ok _ _ _ _ _ E') as H'.
  assert (V : forall l s m x, runv l empty (fun _ => None) = Some (s, m) -> m x = value_at l x)
    by (intros l ? ? x K; unfold value_at; now rewrite K).
  assert (V1 : m (Cpp 2) = Some (9, 4)) by (rewrite (V _ _ _ _ E); vm_compute; reflexivity).
  assert (V2 : m (Cpp 4) = Some (7, 5)) by (rewrite (V _ _ _ _ E); vm_compute; reflexivity).
  assert (V3 : m (Py 1) = Some (9, 3)) by (rewrite (V _ _ _ _ E); vm_compute; reflexivity).
  assert (V4 : m (Py 0) = None) by (rewrite (V _ _ _ _ E); vm_compute; reflexivity).
  exists s, m. repeat (split; [assumption|]).
  split; [exact (C69_values _ _ _ _ _ _ _ _ _ H V1)|]. split; [exact (C69_values _ _ _ _ _ _ _ _ _ H V2)|].
  exists s', m'. split; [assumption|].
  destruct (steps_Rel _ _ _ _ _ _ _ _ H' (Rel_empty _ _)) as [I R].
  assert (N : np s' = 5 /\ nc s' = 8).
  { assert (D : size_at (prog ++ rest) = (5, 8)) by (vm_compute; reflexivity). unfold size_at in D.
    rewrite E' in D. injection D as D1 D2. split; assumption. }
  destruct N as [Np Nc].
  intros [p|c].
  - destruct (le_lt_dec 5 p) as [L|L].
    + rewrite R. cbn. rewrite (i_np _ _ _ I p); [reflexivity|rewrite Np; exact L].
    + rewrite (V _ _ _ _ E').
      do 5 (destruct p as [|p]; [vm_compute; reflexivity|]). lia.
  - destruct (le_lt_dec 8 c) as [L|L].
    + rewrite R. cbn. rewrite (i_nc _ _ _ I c); [reflexivity|rewrite Nc; exact L].
    + rewrite (V _ _ _ _ E').
      do 8 (destruct c as [|c]; [vm_compute; reflexivity|]). lia.
Qed.
