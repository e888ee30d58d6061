(** Properties of the conversion of Crocoddyl problems (CrocModel.v). *)
Require Import Reals Arith Bool List Lia Lra.
Require Import Verif.CentroidalModel Verif.DynSumModel Verif.CrocModel Verif.P_dynsum.
Import ListNotations.
Open Scope R_scope.

Section Props.
Variable ext : Type.
Notation adata := (adata ext). Notation action := (action ext). Notation sdata := (sdata ext).
Notation pdata := (pdata ext). Notation problem := (problem ext). Notation shooting := (shooting ext).
Notation cmodel := (cmodel ext).

(** ** What Crocoddyl promises *)
(** the mathematical action: running cost, dynamics and derivatives; terminal cost and derivatives *)
Record spec := Spec {
  s_c : svec -> svec -> R; s_f : svec -> svec -> svec;
  s_lx : svec -> svec -> svec; s_lu : svec -> svec -> svec;
  s_lxx : svec -> svec -> smtx; s_lxu : svec -> svec -> smtx; s_luu : svec -> svec -> smtx;
  s_fx : svec -> svec -> smtx; s_fu : svec -> svec -> smtx;
  t_c : svec -> R; t_lx : svec -> svec; t_lu : svec -> svec;
  t_lxx : svec -> smtx; t_lxu : svec -> smtx; t_luu : svec -> smtx }.
Definition m_size (A : smtx) (r c : nat) : Prop := sm_r A = r /\ sm_c A = c.
Definition sized (ndx nu : nat) (a : adata) : Prop :=
  sv_n (a_Lx _ a) = ndx /\ sv_n (a_Lu _ a) = nu /\ m_size (a_Lxx _ a) ndx ndx /\ m_size (a_Lxu _ a) ndx nu /\
  m_size (a_Luu _ a) nu nu /\ m_size (a_Fx _ a) ndx ndx /\ m_size (a_Fu _ a) ndx nu.

(** calc computes cost and next state; calcDiff computes the derivatives after a calc at the same
    point (and possibly other calcDiff there); in all other uses the data only keep their sizes.
    [here x u] and [there x] say that the data were last computed at that point. *)
Definition valid (m : action) (x u : svec) : Prop := sv_n x = cs_nx (ac_state _ m) /\ sv_n u = ac_nu _ m.
Definition validT (m : action) (x : svec) : Prop := sv_n x = cs_nx (ac_state _ m).
Definition contract (m : action) (s : spec) (ok : adata -> Prop) (here : svec -> svec -> adata -> Prop)
    (there : svec -> adata -> Prop) : Prop :=
  (exists a, ac_create _ m = Some a /\ ok a) /\
  (forall a, ok a -> sized (cs_ndx (ac_state _ m)) (ac_nu _ m) a) /\
  (forall a x u, ok a -> valid m x u -> let b := ac_calc _ m a x u in
     ok b /\ here x u b /\ a_cost _ b = s_c s x u /\ a_xnext _ b = s_f s x u) /\
  (forall a x u, ok a -> valid m x u -> ok (ac_calcDiff _ m a x u)) /\
  (forall a x u, ok a -> valid m x u -> here x u a -> let b := ac_calcDiff _ m a x u in here x u b /\
     a_Lx _ b = s_lx s x u /\ a_Lu _ b = s_lu s x u /\ a_Lxx _ b = s_lxx s x u /\ a_Lxu _ b = s_lxu s x u /\ a_Luu _ b = s_luu s x u /\
     a_Fx _ b = s_fx s x u /\ a_Fu _ b = s_fu s x u) /\
  (forall a x, ok a -> validT m x -> let b := ac_calcT _ m a x in ok b /\ there x b /\ a_cost _ b = t_c s x) /\
  (forall a x, ok a -> validT m x -> ok (ac_calcDiffT _ m a x)) /\
  (forall a x, ok a -> validT m x -> there x a -> let b := ac_calcDiffT _ m a x in there x b /\
     a_Lx _ b = t_lx s x /\ a_Lu _ b = t_lu s x /\ a_Lxx _ b = t_lxx s x /\ a_Lxu _ b = t_lxu s x /\ a_Luu _ b = t_luu s x).
Definition meets (m : action) (s : spec) : Prop := exists ok here there, contract m s ok here there.

(** a shooting problem, its mathematical actions, and points for it *)
Definition meets_all (c : shooting) (ss : list spec) (t : spec) : Prop :=
  sh_T _ c = length (sh_running _ c) /\ Forall2 meets (sh_running _ c) ss /\ meets (sh_terminal _ c) t.
Fixpoint points (l : list action) (xs us : list svec) (t : action) : Prop :=
  match l, xs, us with
  | [], [x], [] => validT t x
  | m :: l, x :: xs, u :: us => valid m x u /\ points l xs us t
  | _, _, _ => False
  end.

(** data reachable by evaluations and derivatives at any points *)
Inductive reach (p : problem) (t : action) : pdata -> Prop :=
| reach_create d : p_create _ p = Some d -> reach p t d
| reach_eval d xs us d' : reach p t d -> points (p_stages _ p) xs us t -> p_evaluate _ p xs us d = Some d' -> reach p t d'
| reach_deriv d b xs us d' : reach p t d -> points (p_stages _ p) xs us t -> p_derivatives _ b p xs us d = Some d' -> reach p t d'.

(** ** Invariants *)
Definition cd_dim (c : cost_data) (ndx nu : nat) : Prop := cd_ndx c = ndx /\ cd_nu c = nu /\ forall i j, cd_Lux c i j = 0.


Definition good (m : action) (ok : adata -> Prop) (d : sdata) : Prop :=
  ok (sd_croc _ d) /\ cd_dim (sd_cost _ d) (cs_ndx (ac_state _ m)) (ac_nu _ m) /\
  ed_ndx1 (sd_dyn _ d) = cs_ndx (ac_state _ m) /\ ed_nu (sd_dyn _ d) = ac_nu _ m /\ ed_ndx2 (sd_dyn _ d) = cs_ndx (ac_state _ m).

Definition block_is (A : mtx) (r c : nat) (B : smtx) : Prop := m_size B r c /\ forall i j, (i < r)%nat -> (j < c)%nat -> A i j = sm_at B i j.
Definition vec_is (v : vec) (n : nat) (w : svec) : Prop := sv_n w = n /\ forall i, (i < n)%nat -> v i = sv_at w i.

(** the derivatives in the data of a stage are those of the action *)
Definition grad_is (c : cost_data) (ndx nu : nat) (lx lu : svec) : Prop := vec_is (cd_Lx c) ndx lx /\ vec_is (cd_Lu c) nu lu.
Definition hess_is (c : cost_data) (ndx nu : nat) (lxx lxu luu : smtx) : Prop :=
  block_is (cd_Lxx c) ndx ndx lxx /\ block_is (cd_Lxu c) ndx nu lxu /\ block_is (cd_Luu c) nu nu luu.
Definition stage_deriv (m : action) (s : spec) (x u : svec) (d : sdata) : Prop :=
  let ndx := cs_ndx (ac_state _ m) in let nu := ac_nu _ m in
  grad_is (sd_cost _ d) ndx nu (s_lx s x u) (s_lu s x u) /\ hess_is (sd_cost _ d) ndx nu (s_lxx s x u) (s_lxu s x u) (s_luu s x u) /\
  block_is (ed_Jx (sd_dyn _ d)) ndx ndx (s_fx s x u) /\ block_is (ed_Ju (sd_dyn _ d)) ndx nu (s_fu s x u).
Definition stage_value (s : spec) (x u : svec) (d : sdata) : Prop :=
  cd_value (sd_cost _ d) = s_c s x u /\ ed_xnext (sd_dyn _ d) = s_f s x u.

Lemma create_good m s ok here there : contract m s ok here there -> exists d, wrap_create _ m = Some d /\ good m ok d.
Proof.
  intros (C1 & C2 & _). destruct C1 as (a & E & O). unfold wrap_create. rewrite E. eexists. split; [reflexivity|].
  destruct (C2 a O) as (S1 & S2 & _). unfold good, cd_dim, cost_make. cbn. rewrite S1, S2. repeat split; auto.
Qed.
Lemma evaluate_good m s ok here there x u d : contract m s ok here there -> good m ok d -> valid m x u ->
  good m ok (wrap_evaluate _ m x u d) /\ here x u (sd_croc _ (wrap_evaluate _ m x u d)) /\ stage_value s x u (wrap_evaluate _ m x u d).
Proof.
  intros (_ & _ & C3 & _) (G1 & G2 & G3) V. destruct (C3 _ _ _ G1 V) as (O & H & A & B).
  unfold wrap_evaluate, good, stage_value. cbn. repeat split; auto; try apply G2; try apply G3; auto.
Qed.

Lemma setv_some n s : sv_n s = n -> setv n s = Some (sv_at s).
Proof. intros <-. unfold setv. now rewrite Nat.eqb_refl. Qed.
Lemma setm_some r c s : m_size s r c -> setm r c s = Some (sm_at s).
Proof. intros [<- <-]. unfold setm. now rewrite !Nat.eqb_refl. Qed.

Lemma put_Jx_all e B : m_size B (ed_ndx2 e) (ed_ndx1 e) ->
  exists e', put_Jx e 0 0 (ed_ndx2 e) (ed_ndx1 e) (sm_r B) (sm_c B) (sm_at B) = Some e' /\
    ed_ndx1 e' = ed_ndx1 e /\ ed_nu e' = ed_nu e /\ ed_ndx2 e' = ed_ndx2 e /\ ed_xnext e' = ed_xnext e /\
    ed_jac e' = bset (ed_jac e) 0 0 (ed_ndx2 e) (ed_ndx1 e) (sm_at B).
Proof.
  intros [H1 H2]. unfold put_Jx, put. rewrite H1, H2, !Nat.eqb_refl. rewrite !(proj2 (Nat.leb_le _ _)) by lia. cbn [andb].
  eexists. split; [reflexivity|]. cbn. auto.
Qed.
Lemma put_Ju_all e B : m_size B (ed_ndx2 e) (ed_nu e) ->
  exists e', put_Ju e 0 0 (ed_ndx2 e) (ed_nu e) (sm_r B) (sm_c B) (sm_at B) = Some e' /\
    ed_ndx1 e' = ed_ndx1 e /\ ed_nu e' = ed_nu e /\ ed_ndx2 e' = ed_ndx2 e /\ ed_xnext e' = ed_xnext e /\
    ed_jac e' = bset (ed_jac e) 0 (ed_ndx1 e) (ed_ndx2 e) (ed_nu e) (sm_at B).
Proof.
  intros [H1 H2]. unfold put_Ju, put. rewrite H1, H2, !Nat.eqb_refl. rewrite !(proj2 (Nat.leb_le _ _)) by lia. cbn [andb].
  eexists. split; [reflexivity|]. cbn. repeat split. f_equal. lia.
Qed.

Lemma first_good m s ok here there x u d : contract m s ok here there -> good m ok d -> valid m x u ->
  exists d', wrap_first _ m x u d = Some d' /\ good m ok d' /\
    cd_value (sd_cost _ d') = cd_value (sd_cost _ d) /\ ed_xnext (sd_dyn _ d') = ed_xnext (sd_dyn _ d) /\
    (here x u (sd_croc _ d) -> here x u (sd_croc _ d') /\ stage_deriv m s x u d').
Proof.
  intros (_ & C2 & _ & C4 & C5 & _) (G1 & (D1 & D2 & D3) & E1 & E2 & E3) V. pose proof (C4 _ _ _ G1 V) as O.
  unfold wrap_first. set (b := ac_calcDiff _ m (sd_croc _ d) x u) in *.
  destruct (C2 b O) as (S1 & S2 & S3 & S4 & S5 & S6 & S7).
  unfold set_grad. rewrite D1, D2, (setv_some _ _ S1), (setv_some _ _ S2). cbn [cd_ndx cd_nu].
  unfold set_hess. cbn [cd_ndx cd_nu cd_value cd_Lx cd_Lu cd_Lux]. rewrite (setm_some _ _ _ S3), (setm_some _ _ _ S4), (setm_some _ _ _ S5).
  set (e := sd_dyn _ d) in *.
  destruct (put_Jx_all e (a_Fx _ b)) as (e1 & -> & H1 & H2 & H3 & H4 & H5); [rewrite E1, E3; exact S6|].
  destruct (put_Ju_all e1 (a_Fu _ b)) as (e2 & -> & K1 & K2 & K3 & K4 & K5); [rewrite H2, H3, E2, E3; exact S7|].
  eexists. split; [reflexivity|]. cbn [sd_croc sd_cost sd_dyn]. split; [|split; [reflexivity|split; [congruence|]]].
  - unfold good, cd_dim. cbn. repeat split; auto; congruence.
  - intros H. destruct (C5 _ _ _ G1 V H) as (H' & F1 & F2 & F3 & F4 & F5 & F6 & F7). fold b in F1, F2, F3, F4, F5, F6, F7, H'.
    split; [exact H'|]. unfold stage_deriv, grad_is, hess_is, block_is, vec_is. cbn [sd_cost sd_dyn cd_Lx cd_Lu cd_Lxx cd_Lxu cd_Luu].
    rewrite <- F1, <- F2, <- F3, <- F4, <- F5, <- F6, <- F7.
    split; [split; split; auto|]. split; [split; [|split]; split; auto|].
    unfold ed_Jx, ed_Ju. rewrite K5, H5, K1, K2, H1, H2, H3, E1, E2, E3.
    split; (split; [assumption|]); intros i j Hi Hj; unfold bset.
    + unfold in_seg. rewrite (proj2 (Nat.leb_gt _ _) Hj), andb_false_r. cbn [Nat.leb Nat.add].
      rewrite (proj2 (Nat.ltb_lt _ _) Hi), (proj2 (Nat.ltb_lt _ _) Hj). cbn [andb]. now rewrite !Nat.sub_0_r.
    + unfold in_seg. cbn [Nat.leb Nat.add]. rewrite (proj2 (Nat.ltb_lt _ _) Hi).
      rewrite (proj2 (Nat.leb_le _ _)), (proj2 (Nat.ltb_lt _ _)) by lia. cbn [andb]. f_equal; lia.
Qed.

(** ** All stages *)
Record keep := Keep { k_ok : adata -> Prop; k_here : svec -> svec -> adata -> Prop; k_there : svec -> adata -> Prop }.
Definition con (m : action) (s : spec) (k : keep) : Prop := contract m s (k_ok k) (k_here k) (k_there k).
Inductive all3 : list action -> list spec -> list keep -> Prop :=
| all3_nil : all3 [] [] []
| all3_cons m s k l ss ks : con m s k -> all3 l ss ks -> all3 (m :: l) (s :: ss) (k :: ks).
Inductive goods : list action -> list keep -> list sdata -> Prop :=
| goods_nil : goods [] [] []
| goods_cons m k d l ks ds : good m (k_ok k) d -> goods l ks ds -> goods (m :: l) (k :: ks) (d :: ds).
Inductive heres : list keep -> list svec -> list svec -> list sdata -> Prop :=
| heres_nil xs us : heres [] xs us []
| heres_cons k x u d ks xs us ds : k_here k x u (sd_croc _ d) -> heres ks xs us ds -> heres (k :: ks) (x :: xs) (u :: us) (d :: ds).

(** what is wanted of the data of all stages *)
Fixpoint values (ss : list spec) (xs us : list svec) (ds : list sdata) : Prop :=
  match ss, xs, us, ds with
  | [], _, _, [] => True
  | s :: ss, x :: xs, u :: us, d :: ds => stage_value s x u d /\ values ss xs us ds
  | _, _, _, _ => False
  end.
Fixpoint derivs (l : list action) (ss : list spec) (xs us : list svec) (ds : list sdata) : Prop :=
  match l, ss, xs, us, ds with
  | [], [], _, _, [] => True
  | m :: l, s :: ss, x :: xs, u :: us, d :: ds => stage_deriv m s x u d /\ derivs l ss xs us ds
  | _, _, _, _, _ => False
  end.
Fixpoint total (ss : list spec) (xs us : list svec) : R :=
  match ss, xs, us with s :: ss, x :: xs, u :: us => s_c s x u + total ss xs us | _, _, _ => 0 end.

Lemma all3_of l ss : Forall2 meets l ss -> exists ks, all3 l ss ks.
Proof.
  induction 1 as [|m s l ss (ok & here & there & C) _ (ks & IH)]; [exists []; constructor|].
  exists (Keep ok here there :: ks). constructor; auto.
Qed.
Lemma create_goods l ss ks : all3 l ss ks -> exists ds, create_stages _ l = Some ds /\ goods l ks ds.
Proof.
  induction 1 as [|m s k l ss ks C _ (ds & E & G)]; [exists []; split; [reflexivity|constructor]|].
  destruct (create_good _ _ _ _ _ C) as (d & Ed & Gd). exists (d :: ds). cbn. rewrite Ed, E. split; [reflexivity|constructor; auto].
Qed.
Lemma eval_goods l ss ks t : all3 l ss ks -> forall xs us ds, goods l ks ds -> points l xs us t ->
  exists ds', eval_stages _ l xs us ds = Some ds' /\ goods l ks ds' /\ heres ks xs us ds' /\ values ss xs us ds' /\
    (forall a, fold_left (fun a d => a + cd_value (sd_cost _ d)) ds' a = a + total ss xs us).
Proof.
  induction 1 as [|m s k l ss ks C _ IH]; intros xs us ds G P.
  - inversion G; subst. exists []. split; [reflexivity|]. split; [constructor|]. split; [constructor|]. split; [exact I|].
    intros a. destruct xs; cbn; lra.
  - inversion G as [|? ? d ? ? ds0 Gd Gds]; subst. destruct xs as [|x xs]; [contradiction|]. destruct us as [|u us]; [contradiction|]. destruct P as [V P].
    destruct (IH xs us ds0 Gds P) as (ds' & E & G' & H' & V' & F'). cbn [eval_stages]. rewrite E.
    destruct (evaluate_good _ _ _ _ _ x u d C Gd V) as (A1 & A2 & A3).
    eexists. split; [reflexivity|]. split; [constructor; auto|]. split; [constructor; auto|]. split; [cbn; auto|].
    intros a. cbn [fold_left]. rewrite F'. cbn [total]. destruct A3 as [A3 _]. rewrite A3. lra.
Qed.
Lemma deriv_goods b l ss ks t : all3 l ss ks -> forall xs us ds, goods l ks ds -> points l xs us t ->
  exists ds', deriv_stages _ b l xs us ds = Some ds' /\ goods l ks ds' /\
    (values ss xs us ds -> values ss xs us ds') /\
    (heres ks xs us ds -> heres ks xs us ds' /\ derivs l ss xs us ds').
Proof.
  induction 1 as [|m s k l ss ks C _ IH]; intros xs us ds G P.
  - inversion G; subst. exists []. split; [reflexivity|]. split; [constructor|]. split; [auto|]. intros H; split; [constructor|exact I].
  - inversion G as [|? ? d ? ? ds0 Gd Gds]; subst. destruct xs as [|x xs]; [contradiction|]. destruct us as [|u us]; [contradiction|]. destruct P as [V P].
    destruct (IH xs us ds0 Gds P) as (ds' & E & G' & V' & H'). cbn [deriv_stages]. rewrite E.
    destruct (first_good _ _ _ _ _ x u d C Gd V) as (d' & -> & A1 & A2 & A3 & A4).
    exists (d' :: ds'). split; [destruct b; reflexivity|]. split; [constructor; auto|]. split.
    + cbn [values]. intros [[W1 W2] W]. split; [|auto]. split; congruence.
    + intros H. inversion H as [|? ? ? ? ? ? ? ? Hh Ht]; subst. destruct (A4 Hh). destruct (H' Ht). split; [constructor; auto|cbn; auto].
Qed.

(** ** The terminal cost *)
Definition goodT (m : action) (k : keep) (d : cwdata ext) : Prop :=
  exists a, cwd_act _ d = Some a /\ k_ok k a /\ cd_dim (cwd _ d) (cs_ndx (ac_state _ m)) (ac_nu _ m).
Definition thereT (k : keep) (x : svec) (d : cwdata ext) : Prop := exists a, cwd_act _ d = Some a /\ k_there k x a.

Lemma termcreate m s k : con m s k -> exists d, cw_create _ (cw_of_action _ m) = Some d /\ goodT m k d.
Proof.
  intros (C1 & C2 & _). destruct C1 as (a & E & O). unfold cw_create. cbn. rewrite E. eexists. split; [reflexivity|].
  exists a. destruct (C2 a O) as (S1 & S2 & _). cbn. unfold cd_dim. cbn. auto.
Qed.
Lemma termeval m s k x u d : con m s k -> goodT m k d -> validT m x ->
  exists d', cw_evaluate _ (cw_of_action _ m) x u d = Some d' /\ goodT m k d' /\ thereT k x d' /\ cd_value (cwd _ d') = t_c s x.
Proof.
  intros (_ & _ & _ & _ & _ & C6 & _) (a & E & O & D) V. destruct (C6 a x O V) as (A1 & A2 & A3).
  unfold cw_evaluate. cbn [cw_of_action cw_cost cw_act]. rewrite E. eexists. split; [reflexivity|].
  split; [eexists; cbn; split; [reflexivity|split; auto]|]. split; [eexists; cbn; split; [reflexivity|auto]|]. exact A3.
Qed.
Lemma termgrad m s k x u d : con m s k -> goodT m k d -> validT m x ->
  exists d', cw_gradients _ (cw_of_action _ m) x u d = Some d' /\ goodT m k d' /\ cd_value (cwd _ d') = cd_value (cwd _ d) /\
   (thereT k x d -> thereT k x d' /\ grad_is (cwd _ d') (cs_ndx (ac_state _ m)) (ac_nu _ m) (t_lx s x) (t_lu s x)).
Proof.
  intros (_ & C2 & _ & _ & _ & _ & C7 & C8) (a & E & O & D1 & D2 & D3) V. pose proof (C7 a x O V) as O'.
  destruct (C2 _ O') as (S1 & S2 & _).
  unfold cw_gradients. cbn [cw_of_action cw_cost cw_act]. rewrite E. unfold set_grad. rewrite D1, D2, (setv_some _ _ S1), (setv_some _ _ S2).
  eexists. split; [reflexivity|]. split; [eexists; cbn; split; [reflexivity|split; [exact O'|split; auto]]|]. split; [reflexivity|].
  intros (a' & Ea & T). rewrite E in Ea. injection Ea as <-. destruct (C8 a x O V T) as (T' & F1 & F2 & _).
  split; [eexists; cbn; split; [reflexivity|exact T']|]. unfold grad_is, vec_is. cbn. rewrite <- F1, <- F2. auto.
Qed.
Lemma termhess m s k x u d : con m s k -> goodT m k d -> validT m x ->
  exists d', cw_hessians _ (cw_of_action _ m) x u d = Some d' /\ goodT m k d' /\ cd_value (cwd _ d') = cd_value (cwd _ d) /\
   cd_Lx (cwd _ d') = cd_Lx (cwd _ d) /\ cd_Lu (cwd _ d') = cd_Lu (cwd _ d) /\
   (thereT k x d -> hess_is (cwd _ d') (cs_ndx (ac_state _ m)) (ac_nu _ m) (t_lxx s x) (t_lxu s x) (t_luu s x)).
Proof.
  intros (_ & C2 & _ & _ & _ & _ & C7 & C8) (a & E & O & D1 & D2 & D3) V. pose proof (C7 a x O V) as O'.
  destruct (C2 _ O') as (_ & _ & S3 & S4 & S5 & _).
  unfold cw_hessians. cbn [cw_of_action cw_cost cw_act]. rewrite E. unfold set_hess. rewrite D1, D2, (setm_some _ _ _ S3), (setm_some _ _ _ S4), (setm_some _ _ _ S5).
  eexists. split; [reflexivity|]. split; [eexists; cbn; split; [reflexivity|split; [exact O'|split; auto]]|]. split; [reflexivity|]. split; [reflexivity|]. split; [reflexivity|].
  intros (a' & Ea & T). rewrite E in Ea. injection Ea as <-. destruct (C8 a x O V T) as (T' & _ & _ & F3 & F4 & F5).
  unfold hess_is, block_is. cbn. rewrite <- F3, <- F4, <- F5. auto.
Qed.

Lemma points_len l t : forall xs us, points l xs us t -> length xs = (length l + 1)%nat /\ length us = length l /\ validT t (last_x xs) /\ xs <> [].
Proof.
  induction l as [|m l IH]; intros xs us P.
  - destruct xs as [|x [|y xs]]; try contradiction. destruct us; [|contradiction]. cbn in *. repeat split; auto. discriminate.
  - destruct xs as [|x xs]; [contradiction|]. destruct us as [|u us]; [contradiction|]. destruct P as [V P].
    destruct (IH _ _ P) as (A & B & C & D). cbn. repeat split; try lia; [|discriminate].
    unfold last_x in *. destruct xs; [congruence|exact C].
Qed.

(** ** The theorems *)
Lemma take_all l : take ext (length l) l = Some l.
Proof. induction l as [|m l IH]; cbn; [reflexivity|now rewrite IH]. Qed.
Lemma take_short n : forall l, (length l < n)%nat -> take ext n l = None.
Proof. induction n as [|n IH]; intros [|m l] H; cbn in *; try lia; [reflexivity|]. rewrite IH by lia. reflexivity. Qed.

(** conversion: the running models in order, each one a stage; without running models it fails *)
Theorem C61_convert : forall (c : shooting), sh_T _ c = length (sh_running _ c) ->
  (sh_running _ c = [] -> convert _ c = None) /\
  (sh_running _ c <> [] -> exists p, convert _ c = Some p /\ p_stages _ p = sh_running _ c /\ p_x0 _ p = sh_x0 _ c /\
     (forall m, nth_error (sh_running _ c) 0 = Some m -> p_init _ p = ac_state _ m) /\
     p_term _ p = cw_of_action _ (sh_terminal _ c) /\
     (check_integrity _ p = true <->
      forall i m m', nth_error (sh_running _ c ++ [sh_terminal _ c]) i = Some m -> nth_error (sh_running _ c ++ [sh_terminal _ c]) (S i) = Some m' ->
        cs_nx (ac_state _ m) = cs_nx (ac_state _ m') /\ cs_ndx (ac_state _ m) = cs_ndx (ac_state _ m'))).
Proof.
  intros c E. unfold convert. rewrite E, take_all. destruct (sh_running _ c) as [|m l] eqn:El; split; intros H; try congruence; try discriminate; try reflexivity.
  eexists. split; [reflexivity|]. cbn [p_stages p_x0 p_init p_term]. split; [reflexivity|]. split; [reflexivity|]. split; [cbn; intros m' Em; congruence|]. split; [reflexivity|].
  unfold check_integrity. cbn [p_stages p_init]. rewrite Nat.eqb_refl. cbn [andb p_term]. clear - m.
  generalize (sh_terminal ext c) as t. clear c. revert m. induction l as [|m1 l IH]; intros m t; cbn [chain app].
  - cbn [cw_of_action cw_state]. rewrite andb_true_iff, !Nat.eqb_eq. split.
    + intros [A B] [|[|i]] a b Ea Eb; cbn in *; try discriminate; try congruence; try (destruct i; discriminate). injection Ea as <-. injection Eb as <-. auto.
    + intros F. apply (F 0%nat m t); reflexivity.
  - rewrite !andb_true_iff, !Nat.eqb_eq, IH. split.
    + intros [[A B] F] [|i] a b Ea Eb; cbn in *; [injection Ea as <-; injection Eb as <-; auto|]. eapply F; eassumption.
    + intros F. split; [apply (F 0%nat m m1); reflexivity|]. intros i a b Ea Eb. apply (F (S i) a b); assumption.
Qed.

Definition pinv (p : problem) (ks : list keep) (t : action) (kt : keep) (d : pdata) : Prop :=
  goods (p_stages _ p) ks (pd_stages _ d) /\ goodT t kt (pd_term _ d).

Lemma eval_inv p ss ks t st kt xs us d : all3 (p_stages _ p) ss ks -> con t st kt -> p_term _ p = cw_of_action _ t ->
  pinv p ks t kt d -> points (p_stages _ p) xs us t ->
  exists d', p_evaluate _ p xs us d = Some d' /\ pinv p ks t kt d' /\
    heres ks xs us (pd_stages _ d') /\ values ss xs us (pd_stages _ d') /\ thereT kt (last_x xs) (pd_term _ d') /\
    cd_value (cwd _ (pd_term _ d')) = t_c st (last_x xs) /\
    pd_cost _ d' = total ss xs us + t_c st (last_x xs) /\
    (forall x0, hd_error xs = Some x0 -> pd_init _ d' = cs_diff (p_init _ p) (sv_at (p_x0 _ p)) (sv_at x0)).
Proof.
  intros A C T [G GT] P. destruct (points_len _ _ _ _ P) as (L1 & L2 & VT & N). unfold p_evaluate. rewrite L1, L2, !Nat.eqb_refl. cbn [andb].
  destruct (eval_goods _ _ _ _ A xs us _ G P) as (ds & E & G' & H' & V' & F').
  destruct xs as [|x0 xs]; [congruence|]. rewrite E. rewrite T. destruct (termeval _ _ _ (last_x (x0 :: xs)) (unone _ p) _ C GT VT) as (d' & -> & A1 & A2 & A3).
  eexists. split; [reflexivity|]. cbn [pd_stages pd_term pd_cost pd_init]. split; [split; assumption|]. do 4 (split; [assumption|]). split.
  - unfold traj_cost. rewrite F', A3. lra.
  - cbn. intros x1 [= <-]. reflexivity.
Qed.
Lemma deriv_inv b p ss ks t st kt xs us d : all3 (p_stages _ p) ss ks -> con t st kt -> p_term _ p = cw_of_action _ t ->
  pinv p ks t kt d -> points (p_stages _ p) xs us t ->
  exists d', p_derivatives _ b p xs us d = Some d' /\ pinv p ks t kt d' /\
    (forall x0, hd_error xs = Some x0 -> pd_Jinit _ d' = snd (cs_Jdiff (p_init _ p) (sv_at (p_x0 _ p)) (sv_at x0))) /\
    pd_cost _ d' = pd_cost _ d /\ pd_init _ d' = pd_init _ d /\
    (values ss xs us (pd_stages _ d) -> values ss xs us (pd_stages _ d')) /\
    (heres ks xs us (pd_stages _ d) -> derivs (p_stages _ p) ss xs us (pd_stages _ d')) /\
    (thereT kt (last_x xs) (pd_term _ d) ->
       grad_is (cwd _ (pd_term _ d')) (cs_ndx (ac_state _ t)) (ac_nu _ t) (t_lx st (last_x xs)) (t_lu st (last_x xs)) /\
       (b = true -> hess_is (cwd _ (pd_term _ d')) (cs_ndx (ac_state _ t)) (ac_nu _ t) (t_lxx st (last_x xs)) (t_lxu st (last_x xs)) (t_luu st (last_x xs)))).
Proof.
  intros A C T [G GT] P. destruct (points_len _ _ _ _ P) as (L1 & L2 & VT & N). unfold p_derivatives. rewrite L1, L2, !Nat.eqb_refl. cbn [andb].
  destruct (deriv_goods b _ _ _ _ A xs us _ G P) as (ds & E & G' & V' & H').
  destruct xs as [|x0 xs]; [congruence|]. unfold sw_Jdifference, sw_J. cbn [sm_r sm_c]. rewrite !Nat.eqb_refl. cbn [andb]. rewrite E. rewrite T.
  destruct (termgrad _ _ _ (last_x (x0 :: xs)) (unone _ p) _ C GT VT) as (d1 & -> & A1 & A2 & A3).
  destruct b.
  - destruct (termhess _ _ _ (last_x (x0 :: xs)) (unone _ p) _ C A1 VT) as (d2 & -> & B1 & B2 & B3 & B4 & B5).
    eexists. split; [reflexivity|]. cbn [pd_stages pd_term pd_cost pd_init pd_Jinit]. split; [split; assumption|].
    split; [cbn; intros x1 [= <-]; reflexivity|]. split; [reflexivity|]. split; [reflexivity|]. split; [assumption|]. split; [intros H; apply (H' H)|].
    intros Th. destruct (A3 Th) as [Th' Gr]. split; [|intros _; auto]. unfold grad_is in *. now rewrite B3, B4.
  - eexists. split; [reflexivity|]. cbn [pd_stages pd_term pd_cost pd_init pd_Jinit]. split; [split; assumption|].
    split; [cbn; intros x1 [= <-]; reflexivity|]. split; [reflexivity|]. split; [reflexivity|]. split; [assumption|]. split; [intros H; apply (H' H)|].
    intros Th. destruct (A3 Th) as [Th' Gr]. split; [exact Gr|discriminate].
Qed.

Lemma reach_inv c ss st p : meets_all c ss st -> convert _ c = Some p ->
  exists ks kt, all3 (p_stages _ p) ss ks /\ con (sh_terminal _ c) st kt /\ p_term _ p = cw_of_action _ (sh_terminal _ c) /\
    (exists d0, p_create _ p = Some d0) /\ forall d, reach p (sh_terminal _ c) d -> pinv p ks (sh_terminal _ c) kt d.
Proof.
  intros (HT & F & (okt & ht & tt & Ct)) Hc. destruct (C61_convert c HT) as [N Y].
  destruct (sh_running _ c) as [|m l] eqn:Er; [rewrite N in Hc by reflexivity; discriminate|].
  destruct (Y ltac:(discriminate)) as (p' & Ep & P1 & _ & _ & P4 & _). rewrite Hc in Ep. injection Ep as <-.
  destruct (all3_of _ _ F) as (ks & A). rewrite <- P1 in A. exists ks, (Keep okt ht tt).
  assert (Cr : exists d0, p_create _ p = Some d0 /\ pinv p ks (sh_terminal _ c) (Keep okt ht tt) d0).
  { unfold p_create. destruct (create_goods _ _ _ A) as (ds & -> & G). rewrite P4.
    destruct (termcreate (sh_terminal _ c) st (Keep okt ht tt) Ct) as (dt & -> & GT). eexists. split; [reflexivity|]. split; assumption. }
  split; [exact A|]. split; [exact Ct|]. split; [exact P4|]. destruct Cr as (d0 & E0 & I0). split; [now exists d0|].
  induction 1 as [d E|d xs us d' _ IH P E|d b xs us d' _ IH P E].
  - congruence.
  - destruct (eval_inv p ss ks _ st (Keep okt ht tt) xs us d A Ct P4 IH P) as (d1 & E1 & I1 & _). congruence.
  - destruct (deriv_inv b p ss ks _ st (Keep okt ht tt) xs us d A Ct P4 IH P) as (d1 & E1 & I1 & _). congruence.
Qed.

(** evaluating the converted problem gives Crocoddyl's costs and next states, from any data *)
Theorem C61_evaluate : forall (c : shooting) ss st p d xs us, meets_all c ss st -> convert _ c = Some p -> reach p (sh_terminal _ c) d ->
  points (sh_running _ c) xs us (sh_terminal _ c) ->
  exists d', p_evaluate _ p xs us d = Some d' /\
    pd_cost _ d' = total ss xs us + t_c st (last_x xs) /\ values ss xs us (pd_stages _ d') /\
    cd_value (cwd _ (pd_term _ d')) = t_c st (last_x xs) /\
    (forall m x0, hd_error (sh_running _ c) = Some m -> hd_error xs = Some x0 ->
       pd_init _ d' = cs_diff (ac_state _ m) (sv_at (sh_x0 _ c)) (sv_at x0)).
Proof.
  intros c ss st p d xs us M Hc Rd P. destruct (reach_inv c ss st p M Hc) as (ks & kt & A & C & T & _ & I).
  destruct M as (HT & _). destruct (C61_convert c HT) as [N Y].
  destruct (sh_running _ c) as [|m l] eqn:Er; [rewrite N in Hc by reflexivity; discriminate|].
  destruct (Y ltac:(discriminate)) as (p' & Ep & P1 & P2 & P3 & _). rewrite Hc in Ep. injection Ep as <-. rewrite <- P1 in P.
  destruct (eval_inv p ss ks _ st kt xs us d A C T (I d Rd) P) as (d' & E & _ & _ & V & _ & Tv & Cost & In).
  exists d'. do 4 (split; [assumption|]). cbn. intros m' x0 [= <-] H0. rewrite (In x0 H0), (P3 m eq_refl), P2. reflexivity.
Qed.

(** derivatives after an evaluation at the same point *)
Theorem C61_derivatives : forall (c : shooting) ss st p d xs us b, meets_all c ss st -> convert _ c = Some p -> reach p (sh_terminal _ c) d ->
  points (sh_running _ c) xs us (sh_terminal _ c) ->
  exists d1 d2, p_evaluate _ p xs us d = Some d1 /\ p_derivatives _ b p xs us d1 = Some d2 /\
    derivs (sh_running _ c) ss xs us (pd_stages _ d2) /\
    grad_is (cwd _ (pd_term _ d2)) (cs_ndx (ac_state _ (sh_terminal _ c))) (ac_nu _ (sh_terminal _ c)) (t_lx st (last_x xs)) (t_lu st (last_x xs)) /\
    (b = true -> hess_is (cwd _ (pd_term _ d2)) (cs_ndx (ac_state _ (sh_terminal _ c))) (ac_nu _ (sh_terminal _ c)) (t_lxx st (last_x xs)) (t_lxu st (last_x xs)) (t_luu st (last_x xs))) /\
    values ss xs us (pd_stages _ d2) /\ pd_cost _ d2 = total ss xs us + t_c st (last_x xs) /\
    (forall m x0, hd_error (sh_running _ c) = Some m -> hd_error xs = Some x0 ->
       pd_Jinit _ d2 = snd (cs_Jdiff (ac_state _ m) (sv_at (sh_x0 _ c)) (sv_at x0))).
Proof.
  intros c ss st p d xs us b M Hc Rd P. destruct (reach_inv c ss st p M Hc) as (ks & kt & A & C & T & _ & I).
  destruct M as (HT & _). destruct (C61_convert c HT) as [N Y].
  destruct (sh_running _ c) as [|m l] eqn:Er; [rewrite N in Hc by reflexivity; discriminate|].
  destruct (Y ltac:(discriminate)) as (p' & Ep & P1 & P2 & P3 & _). rewrite Hc in Ep. injection Ep as <-. rewrite <- P1 in P |- *.
  destruct (eval_inv p ss ks _ st kt xs us d A C T (I d Rd) P) as (d1 & E1 & I1 & H1 & V1 & Th1 & Tv & Cost & In).
  destruct (deriv_inv b p ss ks _ st kt xs us d1 A C T I1 P) as (d2 & E2 & I2 & J2 & Co2 & _ & V2 & D2 & T2).
  exists d1, d2. destruct (T2 Th1) as [Tg Th]. split; [exact E1|]. split; [exact E2|]. split; [auto|]. split; [exact Tg|]. split; [exact Th|].
  split; [auto|]. split; [congruence|]. rewrite P1. cbn. intros m' x0 [= <-] H0. rewrite (J2 x0 H0), (P3 m eq_refl), P2. reflexivity.
Qed.

(** data can be created; the block Lux is zero in all of them, whatever Lxu is; the dynamics object
    of a stage does nothing *)
Theorem C61_data : forall (c : shooting) ss st p, meets_all c ss st -> convert _ c = Some p ->
  (exists d, p_create _ p = Some d) /\
  (forall d, reach p (sh_terminal _ c) d ->
     (forall s i j, In s (pd_stages _ d) -> cd_Lux (sd_cost _ s) i j = 0) /\ (forall i j, cd_Lux (cwd _ (pd_term _ d)) i j = 0)) /\
  forall x u e, noop_forward x u e = e /\ noop_dforward x u e = e.
Proof.
  intros c ss st p M Hc. destruct (reach_inv c ss st p M Hc) as (ks & kt & A & C & T & Cr & I). split; [exact Cr|]. split; [|auto].
  intros d Rd. destruct (I d Rd) as [G (a & _ & _ & D)]. split; [|intros i j; apply D].
  intros s i j Hs. clear - G Hs. induction G as [|m k d0 l ks ds Gd _ IH]; [contradiction|]. destruct Hs as [<-|Hs]; [apply Gd|auto].
Qed.

(** a wrapper of a cost model alone has no data; with data made by hand it gives Crocoddyl's cost *)
Theorem C61_cost : forall (m : cmodel), cw_create _ (cw_of_cost _ m) = None /\
  forall a x u c lx lu lxx lxu luu,
    let nd := sv_n (a_Lx _ a) in let nu := sv_n (a_Lu _ a) in
    a_cost _ (cm_calc _ m a x u) = c ->
    (let b := cm_calcDiff _ m (cm_calc _ m a x u) x u in let b' := cm_calcDiff _ m b x u in
      a_Lx _ b = lx /\ a_Lu _ b = lu /\ a_Lxx _ b' = lxx /\ a_Lxu _ b' = lxu /\ a_Luu _ b' = luu) ->
    sv_n lx = nd -> sv_n lu = nu -> m_size lxx nd nd -> m_size lxu nd nu -> m_size luu nu nu ->
    exists d1 d2 d3, cw_evaluate _ (cw_of_cost _ m) x u (cwd_of_cost _ a) = Some d1 /\ cw_gradients _ (cw_of_cost _ m) x u d1 = Some d2 /\
      cw_hessians _ (cw_of_cost _ m) x u d2 = Some d3 /\ cd_value (cwd _ d3) = c /\ grad_is (cwd _ d3) nd nu lx lu /\ hess_is (cwd _ d3) nd nu lxx lxu luu.
Proof.
  intros m. split; [reflexivity|]. intros a x u c lx lu lxx lxu luu nd nu Hc (F1 & F2 & F3 & F4 & F5) S1 S2 S3 S4 S5.
  unfold cw_evaluate, cw_gradients, cw_hessians. cbn [cw_of_cost cw_cost cwd_of_cost cwd_cost cwd].
  eexists. eexists. eexists. split; [reflexivity|]. cbn [cwd_cost cwd]. unfold set_grad. cbn [cd_ndx cd_nu set_value cost_make]. fold nd nu.
  rewrite F1, F2, (setv_some _ _ S1), (setv_some _ _ S2). split; [reflexivity|]. cbn [cwd_cost cwd]. unfold set_hess. cbn [cd_ndx cd_nu].
  rewrite F3, F4, F5, (setm_some _ _ _ S3), (setm_some _ _ _ S4), (setm_some _ _ _ S5). split; [reflexivity|].
  cbn. split; [exact Hc|]. unfold grad_is, hess_is, vec_is, block_is. cbn. auto 10.
Qed.

(** the wrapped state: Jacobians for the argument asked for *)
Theorem C61_state : forall s x v J, m_size J (cs_ndx s) (cs_ndx s) ->
  (exists J0 J1, sw_Jintegrate s x v J 0 = Some J0 /\ sw_Jintegrate s x v J 1 = Some J1 /\
     m_size J0 (cs_ndx s) (cs_ndx s) /\ m_size J1 (cs_ndx s) (cs_ndx s) /\
     (sm_at J0, sm_at J1) = cs_Jintegrate s x v) /\
  (exists J0 J1, sw_Jdifference s x v J 0 = Some J0 /\ sw_Jdifference s x v J 1 = Some J1 /\
     m_size J0 (cs_ndx s) (cs_ndx s) /\ m_size J1 (cs_ndx s) (cs_ndx s) /\
     (sm_at J0, sm_at J1) = cs_Jdiff s x v) /\
  (forall M, sw_transport s x v M 0 = Some (SMtx (sm_r M) (sm_c M) (cs_transport s x v (sm_c M) (sm_at M) true)) /\
             sw_transport s x v M 1 = Some (SMtx (sm_r M) (sm_c M) (cs_transport s x v (sm_c M) (sm_at M) false)) /\
             forall a, (1 < a)%nat -> sw_transport s x v M a = None).
Proof.
  intros s x v J [H1 H2]. unfold sw_Jintegrate, sw_Jdifference, sw_J. rewrite H1, H2, Nat.eqb_refl. cbn [andb].
  split; [|split].
  - eexists. eexists. split; [reflexivity|]. split; [reflexivity|]. unfold m_size. cbn. repeat split; auto. symmetry; apply surjective_pairing.
  - eexists. eexists. split; [reflexivity|]. split; [reflexivity|]. unfold m_size. cbn. repeat split; auto. symmetry; apply surjective_pairing.
  - intros M. split; [reflexivity|]. split; [reflexivity|]. intros [|[|a]] Ha; try lia. reflexivity.
Qed.
End Props.

(** ** Example: two stages x' = x + 2u with cost x^2 + x u + u^2, terminal cost 3 x^2. The data
    remember the point of the last calc, and calcDiff takes the point from there. *)
Definition exd := (R * R)%type.
Definition v1 (a : R) : svec := SVec 1 (fun _ => a).
Definition m1 (a : R) : smtx := SMtx 1 1 (fun _ _ => a).
Definition at0 (x : svec) : R := sv_at x 0%nat.
Definition ex_state : cstate := CState 1 1 vzero (fun a b i => b i - a i) (fun _ _ => (fun _ _ => -1, fun _ _ => 1))
  (fun x v i => x i + v i) (fun _ _ => (fun _ _ => 1, fun _ _ => 1)) (fun _ _ _ M _ => M).
Definition ex_act : action exd := Action exd ex_state 1
  (Some (AData exd 0 (v1 0) (v1 0) (v1 0) (m1 0) (m1 0) (m1 0) (m1 0) (m1 0) (0, 0)))
  (fun a x u => let p := at0 x in let q := at0 u in
     AData exd (p * p + p * q + q * q) (v1 (p + 2 * q)) (a_Lx _ a) (a_Lu _ a) (a_Lxx _ a) (a_Lxu _ a) (a_Luu _ a) (a_Fx _ a) (a_Fu _ a) (p, q))
  (fun a _ _ => let (p, q) := a_ext _ a in
     AData exd (a_cost _ a) (a_xnext _ a) (v1 (2 * p + q)) (v1 (p + 2 * q)) (m1 2) (m1 1) (m1 2) (m1 1) (m1 2) (p, q))
  (fun a x => let p := at0 x in
     AData exd (3 * p * p) (a_xnext _ a) (a_Lx _ a) (a_Lu _ a) (a_Lxx _ a) (a_Lxu _ a) (a_Luu _ a) (a_Fx _ a) (a_Fu _ a) (p, 0))
  (fun a _ => let (p, _) := a_ext _ a in
     AData exd (a_cost _ a) (a_xnext _ a) (v1 (6 * p)) (v1 0) (m1 6) (m1 0) (m1 0) (a_Fx _ a) (a_Fu _ a) (p, 0)).
Definition ex_spec : spec := Spec
  (fun x u => at0 x * at0 x + at0 x * at0 u + at0 u * at0 u) (fun x u => v1 (at0 x + 2 * at0 u))
  (fun x u => v1 (2 * at0 x + at0 u)) (fun x u => v1 (at0 x + 2 * at0 u)) (fun _ _ => m1 2) (fun _ _ => m1 1) (fun _ _ => m1 2)
  (fun _ _ => m1 1) (fun _ _ => m1 2)
  (fun x => 3 * at0 x * at0 x) (fun x => v1 (6 * at0 x)) (fun _ => v1 0) (fun _ => m1 6) (fun _ => m1 0) (fun _ => m1 0).
Lemma ex_meets : meets exd ex_act ex_spec.
Proof.
  exists (sized exd 1 1), (fun x u a => a_ext _ a = (at0 x, at0 u)), (fun x a => a_ext _ a = (at0 x, 0)).
  unfold contract. split; [|split; [|split; [|split; [|split; [|split; [|split]]]]]].
  - eexists. split; [reflexivity|]. repeat split.
  - auto.
  - intros a x u (H1 & H2 & H3 & H4 & H5 & H6 & H7) _. cbn. split; [repeat split; auto; try apply H3; try apply H4; try apply H5; try apply H6; apply H7|]. auto.
  - intros a x u _ _. cbn. destruct (a_ext _ a). repeat split.
  - intros a x u _ _ H. change (a_ext exd a = (at0 x, at0 u)) in H. cbn -[exd]. rewrite H. cbn. repeat split.
  - intros a x (H1 & H2 & H3 & H4 & H5 & H6 & H7) _. cbn. split; [repeat split; auto; try apply H3; try apply H4; try apply H5; try apply H6; apply H7|]. auto.
  - intros a x (H1 & H2 & H3 & H4 & H5 & H6 & H7) _. cbn. destruct (a_ext _ a). repeat split; try apply H6; apply H7.
  - intros a x _ _ H. change (a_ext exd a = (at0 x, 0)) in H. cbn -[exd]. rewrite H. cbn. repeat split.
Qed.
Definition ex_sh : shooting exd := Shooting exd 2 (v1 5) [ex_act; ex_act] ex_act.
Example C61_example : meets_all exd ex_sh [ex_spec; ex_spec] ex_spec /\
  points exd (sh_running _ ex_sh) [v1 1; v1 2; v1 3] [v1 4; v1 5] (sh_terminal _ ex_sh) /\
  exists p d d1 d2, convert exd ex_sh = Some p /\ check_integrity exd p = true /\ p_create exd p = Some d /\
    p_evaluate exd p [v1 1; v1 2; v1 3] [v1 4; v1 5] d = Some d1 /\ p_derivatives exd true p [v1 1; v1 2; v1 3] [v1 4; v1 5] d1 = Some d2 /\
    pd_cost _ d2 = 87 /\ pd_init _ d2 0%nat = -4 /\
    match pd_stages _ d2 with
    | [a; b] => cd_Lx (sd_cost _ a) 0%nat = 6 /\ cd_Lu (sd_cost _ b) 0%nat = 12 /\ cd_Lxu (sd_cost _ b) 0%nat 0%nat = 1 /\
                cd_Lux (sd_cost _ b) 0%nat 0%nat = 0 /\ at0 (ed_xnext (sd_dyn _ b)) = 12 /\ ed_Ju (sd_dyn _ a) 0%nat 0%nat = 2
    | _ => False end /\
    cd_Lx (cwd _ (pd_term _ d2)) 0%nat = 18 /\ cd_Lxx (cwd _ (pd_term _ d2)) 0%nat 0%nat = 6.
Proof.
  split; [split; [reflexivity|split; [repeat constructor; apply ex_meets|apply ex_meets]]|].
  split; [cbn; repeat split|].
  eexists. eexists. eexists. eexists. split; [reflexivity|]. split; [reflexivity|]. split; [reflexivity|]. split; [reflexivity|]. split; [reflexivity|].
  cbn. unfold ed_Ju, at0, bset, in_seg; cbn. repeat split; try lra.
  unfold traj_cost. cbn. unfold at0. cbn. lra.
Qed.
