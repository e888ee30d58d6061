(** C44: laws of vector spaces, Cartesian products and tangent bundles. *)
From Coq Require Import Reals List Lra Lia Arith Bool.
From Verif Require Import CSetModel CSetProofs MultModel P_mult MeritModel P_merit ManifoldModel.
Import ListNotations.
Local Open Scope R_scope.

(** ** Specification *)
(** The points of a manifold, and the tangent vectors at a point on which integration
    can be inverted (for a Lie group: below the injectivity radius). *)
Record domain := Domain { pt : list R -> Prop; tg : list R -> list R -> Prop }.
Definition lawful (M : manifold) (D : domain) : Prop :=
  (forall x, pt D x -> length x = m_nx M) /\
  (forall x v, pt D x -> tg D x v -> length v = m_ndx M /\ pt D (m_integrate M x v) /\
     m_difference M x (m_integrate M x v) = v) /\
  (forall x y, pt D x -> pt D y -> length (m_difference M x y) = m_ndx M /\
     m_integrate M x (m_difference M x y) = y) /\
  (forall x, pt D x -> m_integrate M x (repeat 0 (m_ndx M)) = x) /\
  pt D (m_neutral M).
(** interpolation goes from x0 to x1 *)
Definition interpolates (M : manifold) (D : domain) : Prop :=
  forall x y, pt D x -> pt D y -> m_interpolate M x y 0 = x /\ m_interpolate M x y 1 = y.

Definition vec_dom (n : nat) : domain := Domain (fun x => length x = n) (fun _ v => length v = n).
(** points of a product, left to right *)
Fixpoint prod_pt (l : list (manifold * domain)) (x : list R) : Prop :=
  match l with
  | [] => x = []
  | (_, D) :: l => exists a b, x = a ++ b /\ pt D a /\ prod_pt l b
  end.
Fixpoint prod_tg (l : list (manifold * domain)) (x v : list R) : Prop :=
  match l with
  | [] => v = []
  | (M, D) :: l => exists a b c d, x = a ++ b /\ v = c ++ d /\ pt D a /\ tg D a c /\ prod_tg l b d
  end.
Definition prod_dom (l : list (manifold * domain)) : domain := Domain (prod_pt l) (prod_tg l).
(** (point, velocity) *)
Definition tan_dom (M : manifold) (D : domain) : domain :=
  Domain (fun x => exists p w, x = p ++ w /\ pt D p /\ length w = m_ndx M)
    (fun x v => exists p w c d, x = p ++ w /\ v = c ++ d /\ pt D p /\ length w = m_ndx M /\ tg D p c /\ length d = m_ndx M).

(** every (nested) space made of vector spaces, lawful other spaces (Lie groups), products
    and tangent bundles *)
Inductive built : manifold -> domain -> Prop :=
| B_vec n : built (vector_space n) (vec_dom n)
| B_other M D : lawful M D -> built M D
| B_product l : built_list l -> built (product (map fst l)) (prod_dom l)
| B_tangent M D : built M D -> built (tangent M) (tan_dom M D)
with built_list : list (manifold * domain) -> Prop :=
| B_nil : built_list []
| B_cons M D l : built M D -> built_list l -> built_list ((M, D) :: l).
Scheme built_mut := Induction for built Sort Prop
with built_list_mut := Induction for built_list Sort Prop.

(** ** Proofs *)
Lemma seg_mid (p a b : list R) : seg (length p) (length a) (p ++ a ++ b) = a.
Proof.
  unfold seg. rewrite skipn_app, skipn_all2, Nat.sub_diag by lia. simpl.
  rewrite firstn_app, firstn_all, Nat.sub_diag. simpl. apply app_nil_r.
Qed.
Lemma set_mid {A} (p r a b : list A) : length r = length a -> set_seg (length p) a (p ++ r ++ b) = p ++ a ++ b.
Proof.
  intros E. unfold set_seg. rewrite firstn_app, firstn_all, Nat.sub_diag. simpl. rewrite app_nil_r. f_equal. f_equal.
  rewrite skipn_app, skipn_all2 by lia. replace (length p + length a - length p)%nat with (length a) by lia.
  simpl. rewrite <- E, skipn_app, skipn_all, Nat.sub_diag. reflexivity.
Qed.
Lemma split_len (n : nat) {A} (l : list A) : (n <= length l)%nat -> exists a b, l = a ++ b /\ length a = n.
Proof. intros H. exists (firstn n l), (skipn n l). rewrite firstn_skipn, firstn_length. split; [reflexivity|lia]. Qed.

(** components, points, tangents and results of one call of integrate *)
Inductive parts_i : list manifold -> list (list R) -> list (list R) -> list (list R) -> Prop :=
| PI0 : parts_i [] [] [] []
| PI1 m x v o cs xs vs os : length x = m_nx m -> length v = m_ndx m -> m_integrate m x v = o -> length o = m_nx m ->
    parts_i cs xs vs os -> parts_i (m :: cs) (x :: xs) (v :: vs) (o :: os).
Lemma p_integrate_parts cs xs vs os : parts_i cs xs vs os -> forall px pv out rest,
  length out = length px -> length rest = sum_of m_nx cs ->
  p_integrate cs (length px) (length pv) (px ++ concat xs) (pv ++ concat vs) (out ++ rest) = out ++ concat os.
Proof.
  induction 1 as [|m x v o cs xs vs os Hx Hv Ho Hl H IH]; intros px pv out rest E1 E2; simpl in *.
  - apply length_zero_iff_nil in E2. now rewrite E2.
  - rewrite <- Hx at 2. rewrite seg_mid. rewrite <- Hv at 2. rewrite seg_mid. rewrite Ho.
    destruct (split_len (m_nx m) rest) as (r & rest' & -> & Er); [lia|].
    rewrite <- E1. rewrite set_mid by congruence. rewrite E1.
    replace (length px + m_nx m)%nat with (length (px ++ x)) by (rewrite app_length; lia).
    replace (length pv + m_ndx m)%nat with (length (pv ++ v)) by (rewrite app_length; lia).
    rewrite !app_assoc. rewrite IH; rewrite ?app_length in *; rewrite <- ?app_assoc; auto; lia.
Qed.
Inductive parts_d : list manifold -> list (list R) -> list (list R) -> list (list R) -> Prop :=
| PD0 : parts_d [] [] [] []
| PD1 m x y o cs xs ys os : length x = m_nx m -> length y = m_nx m -> m_difference m x y = o -> length o = m_ndx m ->
    parts_d cs xs ys os -> parts_d (m :: cs) (x :: xs) (y :: ys) (o :: os).
Lemma p_difference_parts cs xs ys os : parts_d cs xs ys os -> forall px py out rest cv,
  length px = length py -> length out = cv -> length rest = sum_of m_ndx cs ->
  p_difference cs (length px) cv (px ++ concat xs) (py ++ concat ys) (out ++ rest) = out ++ concat os.
Proof.
  induction 1 as [|m x y o cs xs ys os Hx Hy Ho Hl H IH]; intros px py out rest cv E0 E1 E2; simpl in *.
  - apply length_zero_iff_nil in E2. now rewrite E2.
  - rewrite <- Hx at 2. rewrite seg_mid. rewrite E0 at 2. rewrite <- Hy at 2. rewrite seg_mid. rewrite Ho.
    destruct (split_len (m_ndx m) rest) as (r & rest' & -> & Er); [lia|].
    subst cv. rewrite set_mid by congruence.
    replace (length px + m_nx m)%nat with (length (px ++ x)) by (rewrite app_length; lia).
    rewrite !app_assoc. rewrite IH; rewrite ?app_length in *; rewrite <- ?app_assoc; auto; lia.
Qed.
Lemma product_integrate cs xs vs os : parts_i cs xs vs os ->
  m_integrate (product cs) (concat xs) (concat vs) = concat os.
Proof. intros H. apply (p_integrate_parts cs xs vs os H [] [] [] (zeros (sum_of m_nx cs))); auto. apply repeat_length. Qed.
Lemma product_difference cs xs ys os : parts_d cs xs ys os ->
  m_difference (product cs) (concat xs) (concat ys) = concat os.
Proof. intros H. apply (p_difference_parts cs xs ys os H [] [] [] (zeros (sum_of m_ndx cs)) 0%nat); auto. apply repeat_length. Qed.

(** points of a product as lists of components *)
Definition all_lawful (l : list (manifold * domain)) : Prop := Forall (fun p => lawful (fst p) (snd p)) l.
Inductive pts : list (manifold * domain) -> list (list R) -> Prop :=
| P0 : pts [] []
| P1 M D l x xs : pt D x -> pts l xs -> pts ((M, D) :: l) (x :: xs).
Lemma prod_pt_pts l x : prod_pt l x <-> exists xs, pts l xs /\ x = concat xs.
Proof.
  revert x. induction l as [|[M D] l IH]; intros x; simpl; split.
  - intros ->. exists []. split; [constructor|reflexivity].
  - intros (xs & H & ->). inversion H. reflexivity.
  - intros (a & b & -> & Ha & Hb). apply IH in Hb. destruct Hb as (xs & H & ->). exists (a :: xs). split; [now constructor|reflexivity].
  - intros (xs & H & ->). inversion H; subst. exists x, (concat xs0). repeat split; auto. apply IH. eauto.
Qed.
Inductive tgs : list (manifold * domain) -> list (list R) -> list (list R) -> Prop :=
| T0 : tgs [] [] []
| T1 M D l x xs v vs : pt D x -> tg D x v -> tgs l xs vs -> tgs ((M, D) :: l) (x :: xs) (v :: vs).
Lemma prod_tg_tgs l x v : prod_tg l x v -> prod_pt l x -> all_lawful l -> exists xs vs, tgs l xs vs /\ x = concat xs /\ v = concat vs.
Proof.
  revert x v. induction l as [|[M D] l IH]; intros x v; simpl.
  - intros -> -> _. exists [], []. repeat split. constructor.
  - intros (a & b & c & d & -> & -> & Ha & Hc & Hb) (a' & b' & E & Ha' & Hb') L. inversion L as [|? ? [HL _] L']; subst. cbn in HL.
    assert (EL : a = a' /\ b = b').
    { assert (La := HL a Ha). assert (La' := HL a' Ha'). clear - E La La'.
      assert (length a = length a') by congruence. clear La La'. revert a' E H. induction a; intros [|] E H; simpl in *; try discriminate; auto.
      injection E as -> E. destruct (IHa _ E) as [-> ->]; auto. }
    destruct EL as [-> ->]. destruct (IH b' d Hb Hb' L') as (xs & vs & T & -> & ->).
    exists (a' :: xs), (c :: vs). repeat split. now constructor.
Qed.
Lemma tgs_parts l xs vs : all_lawful l -> tgs l xs vs -> exists os,
  parts_i (map fst l) xs vs os /\ pts l os /\ parts_d (map fst l) xs os vs.
Proof.
  intros L H. revert L. induction H as [|M D l x xs v vs Hx Hv H IH]; intros L.
  - exists []. repeat split; constructor.
  - inversion L as [|? ? HL L']; subst. destruct (IH L') as (os & I1 & I2 & I3). destruct HL as (A1 & A2 & A3 & A4 & _). cbn in *.
    destruct (A2 x v Hx Hv) as (B1 & B2 & B3).
    exists (m_integrate M x v :: os). repeat split; constructor; auto.
Qed.
Lemma pts_parts l xs ys : all_lawful l -> pts l xs -> pts l ys -> exists vs,
  parts_d (map fst l) xs ys vs /\ parts_i (map fst l) xs vs ys.
Proof.
  intros L H. revert L ys. induction H as [|M D l x xs Hx H IH]; intros L ys Hy; inversion Hy; subst.
  - exists []. split; constructor.
  - inversion L as [|? ? HL L']; subst. rename x0 into y, xs0 into ys'.
    match goal with Hys : pts l ys' |- _ => destruct (IH L' _ Hys) as (vs & I1 & I2) end.
    destruct HL as (A1 & A2 & A3 & A4 & _). cbn in *.
    match goal with Hp : pt D y |- _ => destruct (A3 x y Hx Hp) as (B1 & B2); exists (m_difference M x y :: vs); split; constructor; auto; rewrite ?B2; auto end.
Qed.
Lemma pts_zero l xs : all_lawful l -> pts l xs -> 
  parts_i (map fst l) xs (map (fun p => repeat 0 (m_ndx (fst p))) l) xs /\
  concat (map (fun p => repeat 0 (m_ndx (fst p))) l) = repeat 0 (sum_of m_ndx (map fst l)).
Proof.
  intros L H. revert L. induction H as [|M D l x xs Hx H IH]; intros L; [split; [constructor|reflexivity]|].
  inversion L as [|? ? HL L']; subst. destruct (IH L') as [I1 I2]. destruct HL as (A1 & A2 & A3 & A4 & _). cbn in *.
  split; [constructor; auto; apply repeat_length|]. rewrite I2. symmetry. apply repeat_app.
Qed.
Lemma pts_length l xs : all_lawful l -> pts l xs -> length (concat xs) = sum_of m_nx (map fst l).
Proof.
  intros L H. revert L. induction H as [|M D l x xs Hx H IH]; intros L; [reflexivity|]. inversion L as [|? ? HL L']; subst.
  simpl. rewrite app_length, IH by assumption. now rewrite (proj1 HL x Hx).
Qed.
Lemma p_neutral_parts l : all_lawful l -> forall out rest, length rest = sum_of m_nx (map fst l) ->
  p_neutral (map fst l) (length out) (out ++ rest) = out ++ concat (map (fun p => m_neutral (fst p)) l).
Proof.
  induction 1 as [|[M D] l HL L IH]; intros out rest E; simpl in *.
  - apply length_zero_iff_nil in E. now rewrite E.
  - destruct HL as (A1 & _ & _ & _ & A5). cbn in *.
    destruct (split_len (m_nx M) rest) as (r & rest' & -> & Er); [lia|].
    rewrite set_mid by (rewrite Er; symmetry; now apply A1).
    replace (length out + m_nx M)%nat with (length (out ++ m_neutral M)) by (rewrite app_length; rewrite (A1 _ A5); lia).
    rewrite !app_assoc. rewrite IH; auto. rewrite app_length in E. lia.
Qed.
Lemma neutral_pts l : all_lawful l -> pts l (map (fun p => m_neutral (fst p)) l).
Proof. induction 1 as [|[M D] l HL L IH]; simpl; constructor; auto. apply HL. Qed.

Lemma concat_tgs_len l xs vs : all_lawful l -> tgs l xs vs -> length (concat vs) = sum_of m_ndx (map fst l).
Proof.
  intros L H. revert L. induction H as [|M D l x xs v vs Hx Hv H IH]; intros L; [reflexivity|]. inversion L as [|? ? HL L']; subst.
  simpl. rewrite app_length, IH by assumption. destruct HL as (_ & A2 & _). now rewrite (proj1 (A2 x v Hx Hv)).
Qed.
Lemma product_lawful l : all_lawful l -> lawful (product (map fst l)) (prod_dom l).
Proof.
  intros L. unfold lawful. cbn [pt tg prod_dom].
  assert (NX : m_nx (product (map fst l)) = sum_of m_nx (map fst l)) by reflexivity.
  assert (NV : m_ndx (product (map fst l)) = sum_of m_ndx (map fst l)) by reflexivity.
  repeat split.
  - intros x Hx. apply prod_pt_pts in Hx. destruct Hx as (xs & Hp & ->). now apply (pts_length l).
  - destruct (prod_tg_tgs l x v H0 H L) as (xs & vs & T & -> & ->). now apply (concat_tgs_len l xs).
  - destruct (prod_tg_tgs l x v H0 H L) as (xs & vs & T & -> & ->). destruct (tgs_parts l xs vs L T) as (os & I1 & I2 & I3).
    rewrite (product_integrate _ _ _ _ I1). apply prod_pt_pts. eauto.
  - destruct (prod_tg_tgs l x v H0 H L) as (xs & vs & T & -> & ->). destruct (tgs_parts l xs vs L T) as (os & I1 & I2 & I3).
    rewrite (product_integrate _ _ _ _ I1). now apply product_difference.
  - apply prod_pt_pts in H. destruct H as (xs & Hx & ->). apply prod_pt_pts in H0. destruct H0 as (ys & Hy & ->).
    destruct (pts_parts l xs ys L Hx Hy) as (vs & I1 & I2). rewrite (product_difference _ _ _ _ I1). rewrite NV. clear - I1.
    induction I1; simpl; auto. rewrite app_length. lia.
  - apply prod_pt_pts in H. destruct H as (xs & Hx & ->). apply prod_pt_pts in H0. destruct H0 as (ys & Hy & ->).
    destruct (pts_parts l xs ys L Hx Hy) as (vs & I1 & I2). rewrite (product_difference _ _ _ _ I1). now apply product_integrate.
  - intros x H. apply prod_pt_pts in H. destruct H as (xs & Hx & ->). destruct (pts_zero l xs L Hx) as [I1 I2].
    rewrite NV, <- I2. now apply product_integrate.
  - apply prod_pt_pts. exists (map (fun p => m_neutral (fst p)) l). split; [now apply neutral_pts|].
    apply (p_neutral_parts l L [] (zeros _)). apply repeat_length.
Qed.

Lemma zip_cancel a b : length a = length b -> zip_with Rminus (vplus' a b) a = b.
Proof. unfold vplus'. revert b; induction a; intros [|y b] H; simpl in *; try discriminate; auto. f_equal; [ring|apply IHa; lia]. Qed.
Lemma zip_cancel' a b : length a = length b -> vplus' a (zip_with Rminus b a) = b.
Proof. unfold vplus'. revert b; induction a; intros [|y b] H; simpl in *; try discriminate; auto. f_equal; [ring|apply IHa; lia]. Qed.
Lemma vplus_zero a n : length a = n -> vplus' a (repeat 0 n) = a.
Proof. intros <-. unfold vplus'. induction a; simpl; auto. f_equal; [ring|assumption]. Qed.
Lemma vplus_length' a b : length a = length b -> length (vplus' a b) = length b.
Proof. intros H. unfold vplus'. rewrite zip_with_length; auto. Qed.
Lemma vector_lawful n : lawful (vector_space n) (vec_dom n).
Proof.
  unfold lawful. cbn. repeat split; auto.
  - rewrite vplus_length'; congruence.
  - apply zip_cancel. congruence.
  - rewrite zip_with_length; congruence.
  - apply zip_cancel'. congruence.
  - intros x H. now apply vplus_zero.
  - apply repeat_length.
Qed.

Lemma firstn_exact {A} (a b : list A) n : length a = n -> firstn n (a ++ b) = a.
Proof. intros <-. rewrite firstn_app, firstn_all, Nat.sub_diag. simpl. apply app_nil_r. Qed.
Lemma tail_exact (a b : list R) n : length b = n -> tail n (a ++ b) = b.
Proof.
  intros <-. unfold tail. rewrite app_length. replace (length a + length b - length b)%nat with (length a) by lia.
  rewrite skipn_app, skipn_all, Nat.sub_diag. reflexivity.
Qed.
Lemma tangent_lawful M D : lawful M D -> lawful (tangent M) (tan_dom M D).
Proof.
  intros (A1 & A2 & A3 & A4 & A5). unfold lawful. cbn [pt tg tan_dom tangent m_nx m_ndx m_integrate m_difference m_neutral].
  repeat split.
  - intros x (p & w & -> & Hp & Hw). rewrite app_length, (A1 p Hp), Hw. reflexivity.
  - destruct H0 as (p & w & c & d & -> & -> & Hp & Hw & Hc & Hd). rewrite app_length, Hd. rewrite (proj1 (A2 p c Hp Hc)). lia.
  - destruct H0 as (p & w & c & d & -> & -> & Hp & Hw & Hc & Hd). destruct (A2 p c Hp Hc) as (B1 & B2 & B3).
    rewrite !firstn_exact, !tail_exact by auto. exists (m_integrate M p c), (vplus' w d). repeat split; auto.
    rewrite vplus_length'; congruence.
  - destruct H0 as (p & w & c & d & -> & -> & Hp & Hw & Hc & Hd). destruct (A2 p c Hp Hc) as (B1 & B2 & B3).
    rewrite !(firstn_exact p), !(firstn_exact c), !(tail_exact p w), !(tail_exact c d) by auto.
    rewrite firstn_exact by auto. rewrite tail_exact by (rewrite vplus_length'; congruence).
    rewrite B3. f_equal. apply zip_cancel. congruence.
  - destruct H as (p & w & -> & Hp & Hw). destruct H0 as (q & z & -> & Hq & Hz).
    rewrite !firstn_exact, !tail_exact by auto. rewrite app_length, (proj1 (A3 p q Hp Hq)), zip_with_length by congruence. lia.
  - destruct H as (p & w & -> & Hp & Hw). destruct H0 as (q & z & -> & Hq & Hz). destruct (A3 p q Hp Hq) as (B1 & B2).
    rewrite !(firstn_exact p), !(firstn_exact q), !(tail_exact p w), !(tail_exact q z) by auto.
    rewrite firstn_exact by auto. rewrite tail_exact by (rewrite zip_with_length; congruence). rewrite B2. f_equal. apply zip_cancel'. congruence.
  - intros x (p & w & -> & Hp & Hw). rewrite !firstn_exact, !tail_exact by auto.
    replace (2 * m_ndx M)%nat with (m_ndx M + m_ndx M)%nat by lia. rewrite repeat_app.
    rewrite firstn_exact, tail_exact, A4 by (auto; apply repeat_length). f_equal. now apply vplus_zero.
  - exists (m_neutral M), (repeat 0 (m_ndx M)). repeat split; auto; [|apply repeat_length].
    unfold zeros. rewrite repeat_app. apply (set_mid (@nil R) (repeat 0 (m_nx M))). rewrite repeat_length. symmetry. now apply A1.
Qed.

(** Every nested product / tangent bundle of lawful spaces is lawful. *)
Theorem C44_laws : forall M D, built M D -> lawful M D.
Proof.
  apply (built_mut (fun M D _ => lawful M D) (fun l _ => all_lawful l)); intros.
  - apply vector_lawful.
  - assumption.
  - now apply product_lawful.
  - now apply tangent_lawful.
  - constructor.
  - now constructor.
Qed.

(** Interpolation ends: vector spaces and products (of anything built, tangent bundles
    included, since products use the default interpolation). *)
Lemma vscale_zero v : vscale 0 v = repeat 0 (length v).
Proof. unfold vscale. induction v; simpl; auto. f_equal; [ring|assumption]. Qed.
Lemma vscale_one v : vscale 1 v = v.
Proof. unfold vscale. induction v; simpl; auto. f_equal; [ring|assumption]. Qed.
Lemma vplus_zero_l a n : length a = n -> vplus' (repeat 0 n) a = a.
Proof. intros <-. unfold vplus'. induction a; simpl; auto. f_equal; [ring|assumption]. Qed.
Theorem C44_interpolate :
  (forall n, interpolates (vector_space n) (vec_dom n)) /\
  (forall l, built_list l -> interpolates (product (map fst l)) (prod_dom l)).
Proof.
  split.
  - intros n x y Hx Hy. cbn in *. replace (1 - 0) with 1 by ring. replace (1 - 1) with 0 by ring.
    rewrite !vscale_zero, !vscale_one, Hx, Hy. split; [now apply vplus_zero_l|now apply vplus_zero].
  - intros l Hl x y Hx Hy. destruct (C44_laws _ _ (B_product l Hl)) as (A1 & A2 & A3 & A4 & A5).
    destruct (A3 x y Hx Hy) as (B1 & B2).
    change (m_interpolate (product (map fst l)) x y) with
      (default_interpolate (m_integrate (product (map fst l))) (m_difference (product (map fst l))) x y).
    unfold default_interpolate. rewrite vscale_zero, vscale_one, B1. split; [now apply A4|exact B2].
Qed.
(** TangentBundle::interpolate takes the first ndx entries of the points instead of
    their velocities: it does not start at x0. *)
Theorem C44_tangent_interpolate_refuted :
  built (tangent (vector_space 1)) (tan_dom (vector_space 1) (vec_dom 1)) /\
  ~ interpolates (tangent (vector_space 1)) (tan_dom (vector_space 1) (vec_dom 1)).
Proof.
  split; [apply B_tangent, B_vec|]. intros H. destruct (H [0; 1] [0; 1]) as [E _]; try (exists [0], [1]; cbn; auto).
  cbn in E. unfold vplus' in E. cbn in E. injection E as _ E. lra.
Qed.
(** exactly: the ends are right for the base part, and for the velocity part only when it
    repeats the first entries of the base point *)
Theorem C44_tangent_interpolate_partial : forall M D p w q z,
  interpolates M D -> lawful M D -> pt D p -> pt D q -> length w = m_ndx M -> length z = m_ndx M ->
  (m_ndx M <= m_nx M)%nat ->
  m_interpolate (tangent M) (p ++ w) (q ++ z) 0 = p ++ firstn (m_ndx M) p /\
  m_interpolate (tangent M) (p ++ w) (q ++ z) 1 = q ++ firstn (m_ndx M) q.
Proof.
  intros M D p w q z I L Hp Hq Hw Hz Hn. assert (Lp := proj1 L p Hp). assert (Lq := proj1 L q Hq).
  cbn [tangent m_interpolate]. rewrite !(firstn_exact _ _ (m_nx M)) by auto. destruct (I p q Hp Hq) as [-> ->].
  replace (firstn (m_ndx M) (p ++ w)) with (firstn (m_ndx M) p)
    by (rewrite firstn_app; replace (m_ndx M - length p)%nat with 0%nat by lia; simpl; now rewrite app_nil_r).
  replace (firstn (m_ndx M) (q ++ z)) with (firstn (m_ndx M) q)
    by (rewrite firstn_app; replace (m_ndx M - length q)%nat with 0%nat by lia; simpl; now rewrite app_nil_r).
  replace (1 - 0) with 1 by ring. replace (1 - 1) with 0 by ring.
  rewrite !vscale_zero, !vscale_one.
  rewrite (vplus_zero (firstn (m_ndx M) p)), (vplus_zero_l (firstn (m_ndx M) q)) by (rewrite !firstn_length; lia). auto.
Qed.

(** ** Order of the factors *)
(** P is the product of L and R, in this order *)
Definition ordered (P L R : manifold) (DL DR : domain) : Prop :=
  m_nx P = (m_nx L + m_nx R)%nat /\ m_ndx P = (m_ndx L + m_ndx R)%nat /\
  forall a b, pt DL a -> pt DR b ->
  (forall c d, tg DL a c -> tg DR b d -> m_integrate P (a ++ b) (c ++ d) = m_integrate L a c ++ m_integrate R b d) /\
  (forall a' b', pt DL a' -> pt DR b' -> m_difference P (a ++ b) (a' ++ b') = m_difference L a a' ++ m_difference R b b').
Lemma sum_of_app f l r : sum_of f (l ++ r) = (sum_of f l + sum_of f r)%nat.
Proof. induction l; simpl; auto. rewrite IHl. lia. Qed.
Lemma parts_i_app cs xs vs os cs' xs' vs' os' : parts_i cs xs vs os -> parts_i cs' xs' vs' os' ->
  parts_i (cs ++ cs') (xs ++ xs') (vs ++ vs') (os ++ os').
Proof. induction 1; simpl; auto. intros. constructor; auto. Qed.
Lemma parts_d_app cs xs vs os cs' xs' vs' os' : parts_d cs xs vs os -> parts_d cs' xs' vs' os' ->
  parts_d (cs ++ cs') (xs ++ xs') (vs ++ vs') (os ++ os').
Proof. induction 1; simpl; auto. intros. constructor; auto. Qed.
Lemma concat_one {A} (x : list A) : concat [x] = x.
Proof. apply app_nil_r. Qed.
(** how a list of components realises a space *)
Definition realises (cs : list manifold) (L : manifold) (D : domain) : Prop :=
  sum_of m_nx cs = m_nx L /\ sum_of m_ndx cs = m_ndx L /\
  forall a, pt D a ->
  (forall c, tg D a c -> exists xs vs os, parts_i cs xs vs os /\ a = concat xs /\ c = concat vs /\ m_integrate L a c = concat os) /\
  (forall a', pt D a' -> exists xs ys os, parts_d cs xs ys os /\ a = concat xs /\ a' = concat ys /\ m_difference L a a' = concat os).
Lemma realises_one L D : lawful L D -> realises [L] L D.
Proof.
  intros (A1 & A2 & A3 & A4 & A5). split; [simpl; lia|]. split; [simpl; lia|]. intros a Ha. split.
  - intros c Hc. destruct (A2 a c Ha Hc) as (B1 & B2 & B3). exists [a], [c], [m_integrate L a c]. rewrite !concat_one. repeat split.
    constructor; auto. constructor.
  - intros b Hb. destruct (A3 a b Ha Hb) as (B1 & B2). exists [a], [b], [m_difference L a b]. rewrite !concat_one. repeat split.
    constructor; auto. constructor.
Qed.
Lemma realises_list l : all_lawful l -> realises (map fst l) (product (map fst l)) (prod_dom l).
Proof.
  intros L. split; [reflexivity|]. split; [reflexivity|]. intros a Ha. split.
  - intros c Hc. destruct (prod_tg_tgs l a c Hc Ha L) as (xs & vs & T & -> & ->).
    destruct (tgs_parts l xs vs L T) as (os & I1 & I2 & I3). exists xs, vs, os. repeat split; auto. now apply product_integrate.
  - intros b Hb. apply prod_pt_pts in Ha. destruct Ha as (xs & Hx & ->). apply prod_pt_pts in Hb. destruct Hb as (ys & Hy & ->).
    destruct (pts_parts l xs ys L Hx Hy) as (vs & I1 & I2). exists xs, ys, vs. repeat split; auto. now apply product_difference.
Qed.
Lemma realises_ordered ls rs L R DL DR : realises ls L DL -> realises rs R DR -> ordered (product (ls ++ rs)) L R DL DR.
Proof.
  intros (E1 & E2 & H) (E1' & E2' & H'). split; [|split].
  - change (sum_of m_nx (ls ++ rs) = m_nx L + m_nx R)%nat. rewrite sum_of_app. lia.
  - change (sum_of m_ndx (ls ++ rs) = m_ndx L + m_ndx R)%nat. rewrite sum_of_app. lia.
  - intros a b Ha Hb. destruct (H a Ha) as [I D]. destruct (H' b Hb) as [I' D']. split.
    + intros c d Hc Hd. destruct (I c Hc) as (xs & vs & os & P & -> & -> & ->). destruct (I' d Hd) as (xs' & vs' & os' & P' & -> & -> & ->).
      rewrite <- !concat_app. apply product_integrate. now apply parts_i_app.
    + intros c d Hc Hd. destruct (D c Hc) as (xs & vs & os & P & -> & -> & ->). destruct (D' d Hd) as (xs' & vs' & os' & P' & -> & -> & ->).
      rewrite <- !concat_app. apply product_difference. now apply parts_d_app.
Qed.
Lemma built_list_lawful l : built_list l -> all_lawful l.
Proof. induction 1; constructor; auto. now apply C44_laws. Qed.
Theorem C44_order :
  (forall L R DL DR, built L DL -> built R DR -> ordered (product (times_spaces L R)) L R DL DR) /\
  (forall ls R DR, built_list ls -> built R DR ->
     ordered (product (times_product_space (map fst ls) R)) (product (map fst ls)) R (prod_dom ls) DR) /\
  (forall ls rs, built_list ls -> built_list rs ->
     ordered (product (times_products (map fst ls) (map fst rs))) (product (map fst ls)) (product (map fst rs)) (prod_dom ls) (prod_dom rs)).
Proof.
  split; [|split].
  - intros L M DL DR HL HM. apply (realises_ordered [L] [M]); auto using realises_one, C44_laws.
  - intros. apply realises_ordered; auto using realises_one, realises_list, C44_laws, built_list_lawful.
  - intros. apply realises_ordered; auto using realises_list, built_list_lawful.
Qed.

(** a line whose unit of velocity is half the unit of position, normalised when positive *)
Definition line2 : manifold :=
  Manifold 1 1 [1] (fun x => if Rlt_dec 0 (hd 0 x) then true else false)
    (fun x v => vplus' x (vscale 2 v)) (fun x y => vscale (/ 2) (zip_with Rminus y x))
    (default_interpolate (fun x v => vplus' x (vscale 2 v)) (fun x y => vscale (/ 2) (zip_with Rminus y x)))
    (fun _ _ arg => if arg then [[2]] else [[1]]) (fun _ _ _ J => J) (fun _ _ arg => if arg then [[/ 2]] else [[- / 2]]).
Lemma len1 (x : list R) : length x = 1%nat -> exists a, x = [a].
Proof. destruct x as [|a [|]]; try discriminate. eauto. Qed.
Lemma line2_lawful : lawful line2 (vec_dom 1).
Proof.
  unfold lawful. cbn. repeat split; auto.
  - apply len1 in H, H0. destruct H, H0; subst. reflexivity.
  - apply len1 in H, H0. destruct H, H0; subst. cbn. f_equal. field.
  - apply len1 in H, H0. destruct H, H0; subst. reflexivity.
  - apply len1 in H, H0. destruct H, H0; subst. cbn. f_equal. field.
  - intros x H. apply len1 in H. destruct H; subst. cbn. f_equal. ring.
Qed.
(** space * product: the space comes last *)
Theorem C44_space_times_product_refuted : exists L DL rs,
  built L DL /\ built_list rs /\
  ~ ordered (product (times_space_product L (map fst rs))) L (product (map fst rs)) DL (prod_dom rs) /\
  ordered (product (times_space_product L (map fst rs))) (product (map fst rs)) L (prod_dom rs) DL.
Proof.
  exists line2, (vec_dom 1), [(vector_space 1, vec_dom 1)].
  assert (B : built_list [(vector_space 1, vec_dom 1)]) by (constructor; [constructor|constructor]).
  split; [apply B_other, line2_lawful|]. split; [exact B|]. split.
  - intros (_ & _ & H). destruct (H [0] [0]) as [I _]; try reflexivity.
    { exists [0], []. repeat split. }
    assert (E := I [1] [0] eq_refl (ex_intro _ [0] (ex_intro _ [] (ex_intro _ [0] (ex_intro _ [] (conj eq_refl (conj eq_refl (conj eq_refl (conj eq_refl eq_refl))))))))).
    cbn in E. unfold vplus' in E. cbn in E. injection E as E _. lra.
  - apply (proj1 (proj2 C44_order)); auto. apply B_other, line2_lawful.
Qed.

(** ** isNormalized *)
Theorem C44_normalized : forall n x, m_normalized (vector_space n) x = true.
Proof. reflexivity. Qed.
Theorem C44_tangent_normalized : forall M p w, length p = m_nx M ->
  m_normalized (tangent M) (p ++ w) = m_normalized M p.
Proof. intros M p w H. cbn. now rewrite firstn_exact. Qed.
(** the claim: a vector is normalised iff each of its components is *)
Definition product_normalized_claim : Prop := forall l xs, all_lawful l -> pts l xs ->
  (m_normalized (product (map fst l)) (concat xs) = true <-> Forall2 (fun M x => m_normalized M x = true) (map fst l) xs).
Lemma fold_or_true (l : list (manifold * list R)) : fold_left (fun res p => orb res (m_normalized (fst p) (snd p))) l true = true.
Proof. induction l; simpl; auto. Qed.
Theorem C44_product_normalized_refuted :
  (forall cs x, length x = sum_of m_nx cs -> m_normalized (product cs) x = true) /\ ~ product_normalized_claim.
Proof.
  assert (A : forall cs x, length x = sum_of m_nx cs -> m_normalized (product cs) x = true).
  { intros cs x H. cbn. unfold p_normalized, split. rewrite (proj2 (Nat.eqb_eq _ _) H). cbn. now rewrite fold_or_true. }
  split; [exact A|]. intros C.
  assert (F := proj1 (C [(line2, vec_dom 1)] [[-1]] (Forall_cons (line2, vec_dom 1) line2_lawful (Forall_nil _))
     (P1 line2 (vec_dom 1) [] [-1] [] eq_refl P0)) (A [line2] [-1] eq_refl)).
  inversion F; subst. cbn in *. destruct (Rlt_dec 0 (-1)); [lra|discriminate].
Qed.
(** what remains true: normalised components give a normalised point *)
Theorem C44_product_normalized_partial : forall cs xs, length (concat xs) = sum_of m_nx cs ->
  Forall2 (fun M x => m_normalized M x = true) cs xs -> m_normalized (product cs) (concat xs) = true.
Proof. intros cs xs H _. now apply C44_product_normalized_refuted. Qed.

(** ** split and merge; the output passed in does not matter *)
Lemma p_split_concat f cs xs : Forall2 (fun m x => length x = f m) cs xs -> forall p,
  p_split f cs (length p) (p ++ concat xs) = xs.
Proof.
  induction 1 as [|m x cs xs Hx H IH]; intros p; simpl; [reflexivity|]. rewrite <- Hx at 1. rewrite seg_mid. f_equal.
  replace (length p + f m)%nat with (length (p ++ x)) by (rewrite app_length; lia). rewrite app_assoc. apply IH.
Qed.
Lemma sum_len f cs xs : Forall2 (fun m x => length x = f m) cs xs -> length (concat xs : list R) = sum_of f cs.
Proof. induction 1; simpl; auto. rewrite app_length. lia. Qed.
Lemma p_merge_concat f cs xs : Forall2 (fun m x => length x = f m) cs xs -> forall out rest,
  length rest = sum_of f cs -> p_merge f cs (length out) xs (out ++ rest) = out ++ concat xs.
Proof.
  induction 1 as [|m x cs xs Hx H IH]; intros out rest E; simpl in *.
  - apply length_zero_iff_nil in E. now rewrite E.
  - destruct (split_len (f m) rest) as (r & rest' & -> & Er); [lia|]. rewrite set_mid by congruence.
    replace (length out + f m)%nat with (length (out ++ x)) by (rewrite app_length; lia).
    rewrite !app_assoc. rewrite IH; auto. rewrite app_length in E. lia.
Qed.
Lemma split_ex f cs (x : list R) : length x = sum_of f cs -> exists xs, Forall2 (fun m x => length x = f m) cs xs /\ x = concat xs.
Proof.
  revert x. induction cs as [|m cs IH]; intros x H; simpl in *.
  - apply length_zero_iff_nil in H. exists []. split; [constructor|now subst].
  - destruct (split_len (f m) x) as (a & b & -> & Ea); [lia|]. rewrite app_length in H.
    destruct (IH b) as (xs & F & ->); [lia|]. exists (a :: xs). split; [now constructor|reflexivity].
Qed.
Theorem C44_split_merge : forall f cs,
  (forall x out, length out = sum_of f cs -> length x = sum_of f cs -> exists xs,
     split f cs x = Some xs /\ Forall2 (fun m x => length x = f m) cs xs /\ p_merge f cs 0 xs out = x) /\
  (forall xs out, length out = sum_of f cs -> Forall2 (fun m x => length x = f m) cs xs ->
     split f cs (p_merge f cs 0 xs out) = Some xs /\ p_merge f cs 0 xs out = concat xs) /\
  (forall x, length x <> sum_of f cs -> split f cs x = None).
Proof.
  assert (A : forall f cs xs, Forall2 (fun m x => length x = f m) cs xs -> split f cs (concat xs) = Some xs).
  { intros f cs xs F. unfold split. rewrite (proj2 (Nat.eqb_eq _ _) (sum_len f cs xs F)). f_equal. apply (p_split_concat f cs xs F []). }
  intros f cs. split; [|split].
  - intros x out E H. destruct (split_ex f cs x H) as (xs & F & ->). exists xs. repeat split; auto.
    apply (p_merge_concat f cs xs F [] out E).
  - intros xs out E F. assert (EM : p_merge f cs 0 xs out = concat xs) by apply (p_merge_concat f cs xs F [] out E).
    rewrite EM. auto.
  - intros x H. unfold split. now rewrite (proj2 (Nat.eqb_neq _ _) H).
Qed.
Theorem C44_output_overwritten : forall l x out out', built_list l -> prod_pt l x ->
  length out = sum_of m_nx (map fst l) -> length out' = sum_of m_ndx (map fst l) ->
  (forall v, prod_tg l x v -> p_integrate (map fst l) 0 0 x v out = m_integrate (product (map fst l)) x v) /\
  (forall y, prod_pt l y -> p_difference (map fst l) 0 0 x y out' = m_difference (product (map fst l)) x y).
Proof.
  intros l x out out' B Hx E E'. assert (L := built_list_lawful l B). destruct (realises_list l L) as (_ & _ & H).
  destruct (H x Hx) as [I D]. split.
  - intros v Hv. destruct (I v Hv) as (xs & vs & os & P & -> & -> & ->). apply (p_integrate_parts _ _ _ _ P [] [] [] out); auto.
  - intros y Hy. destruct (D y Hy) as (xs & vs & os & P & -> & -> & ->). apply (p_difference_parts _ _ _ _ P [] [] [] out' 0%nat); auto.
Qed.

(** ** Jacobians: block diagonal *)
Definition square (n : nat) (B : list (list R)) : Prop := length B = n /\ Forall (fun r => length r = n) B.
Definition block_row (c n : nat) (b : list R) : list R := repeat 0 c ++ b ++ repeat 0 (n - c - length b).
Fixpoint bdiag (c n : nat) (Bs : list (list (list R))) : list (list R) :=
  match Bs with [] => [] | B :: Bs => map (block_row c n) B ++ bdiag (c + length B) n Bs end.
Lemma vdot_app' a b c d : length a = length c -> vdot (a ++ b) (c ++ d) = vdot a c + vdot b d.
Proof. revert c. induction a as [|x a IH]; intros [|y c] H; simpl in H; try discriminate.
  - simpl. change (vdot [] []) with 0. ring.
  - change (vdot ((x :: a) ++ b) ((y :: c) ++ d)) with (x * y + vdot (a ++ b) (c ++ d)).
    change (vdot (x :: a) (y :: c)) with (x * y + vdot a c). rewrite IH by lia. ring.
Qed.
Lemma vdot_zeros n v : vdot (repeat 0 n) v = 0.
Proof. revert v; induction n; intros [|y v]; try reflexivity. change (vdot (repeat 0 (S n)) (y :: v)) with (0 * y + vdot (repeat 0 n) v). rewrite IHn. ring. Qed.
Lemma block_row_dot p b d q n : length b = length d -> vdot (block_row (length p) n b) (p ++ d ++ q) = vdot b d.
Proof.
  intros H. unfold block_row. rewrite vdot_app' by apply repeat_length. rewrite vdot_app' by assumption.
  rewrite !vdot_zeros. ring.
Qed.
Lemma bdiag_mul Bs ds : Forall2 (fun B d => square (length d) B) Bs ds -> forall p n,
  mulv (bdiag (length p) n Bs) (p ++ concat ds) = concat (zip_with mulv Bs ds).
Proof.
  induction 1 as [|B d Bs ds [H1 H2] H IH]; intros p n; simpl; [reflexivity|].
  unfold mulv in *. rewrite map_app, map_map. f_equal.
  - apply map_ext_Forall. eapply Forall_impl; [|exact H2]. intros b Hb. now apply block_row_dot.
  - replace (length p + length B)%nat with (length (p ++ d)) by (rewrite app_length; lia). rewrite app_assoc. apply IH.
Qed.
Lemma zip_block_rows c n B : Forall (fun r => length r <= n - c)%nat B -> (c <= n)%nat ->
  zip_with (set_seg c) B (repeat (repeat 0 n) (length B)) = map (block_row c n) B.
Proof.
  intros H Hc. induction H as [|b B Hb H IH]; simpl; [reflexivity|]. f_equal; [|exact IH].
  unfold block_row. replace n with (c + (length b + (n - c - length b)))%nat at 1 by lia.
  rewrite !repeat_app. rewrite <- (repeat_length 0 c) at 1. rewrite set_mid by apply repeat_length. reflexivity.
Qed.
Lemma set_block_rows A B k c n : length A = c -> square (length B) B -> (c + length B <= n)%nat ->
  set_block c B (A ++ repeat (repeat 0 n) (length B + k)) = (A ++ map (block_row c n) B) ++ repeat (repeat 0 n) k.
Proof.
  intros <- [_ S] Hn. unfold set_block. rewrite repeat_app.
  rewrite skipn_app, skipn_all, Nat.sub_diag. simpl. rewrite firstn_app, repeat_length, Nat.sub_diag. simpl.
  rewrite <- (repeat_length (repeat 0 n) (length B)) at 1. rewrite firstn_all, app_nil_r.
  rewrite zip_block_rows; [|eapply Forall_impl; [|exact S]; cbn; lia|lia].
  rewrite set_mid by (rewrite repeat_length, map_length; reflexivity). apply app_assoc.
Qed.
(** component Jacobians of the right shape *)
Definition jac_shape (M : manifold) : Prop := forall x v arg, square (m_ndx M) (m_Jintegrate M x v arg) /\
  square (m_ndx M) (m_Jdifference M x v arg).
Fixpoint jacs (f : manifold -> list R -> list R -> list (list R)) (cs : list manifold) (xs vs : list (list R)) : list (list (list R)) :=
  match cs, xs, vs with m :: cs, x :: xs, v :: vs => f m x v :: jacs f cs xs vs | _, _, _ => [] end.
Lemma square_len n B : square n B -> square (length B) B.
Proof. intros [<- H]. now split. Qed.
Lemma p_Jintegrate_bdiag cs xs vs arg n : Forall jac_shape cs -> Forall2 (fun m x => length x = m_nx m) cs xs ->
  Forall2 (fun m v => length v = m_ndx m) cs vs -> forall px pv A, length A = length pv ->
  (length pv + sum_of m_ndx cs = n)%nat ->
  p_Jintegrate cs (length px) (length pv) (px ++ concat xs) (pv ++ concat vs) arg (A ++ repeat (repeat 0 n) (sum_of m_ndx cs)) =
  A ++ bdiag (length pv) n (jacs (fun m x v => m_Jintegrate m x v arg) cs xs vs).
Proof.
  intros S. revert xs vs. induction S as [|m cs S0 S IH]; intros xs vs HX HV; inversion HX; inversion HV; subst; intros px pv A EA En; simpl in *.
  - reflexivity.
  - rename y into x, y0 into v, l' into xs', l'0 into vs'.
    rewrite <- H1 at 2. rewrite seg_mid. rewrite <- H6 at 2. rewrite seg_mid.
    destruct (S0 x v arg) as [SB _]. assert (LB := proj1 SB). rewrite <- LB at 2.
    rewrite set_block_rows; [|assumption|now apply (square_len (m_ndx m))|lia].
    replace (length px + m_nx m)%nat with (length (px ++ x)) by (rewrite app_length; lia).
    replace (length pv + m_ndx m)%nat with (length (pv ++ v)) by (rewrite app_length; lia).
    rewrite (app_assoc px), (app_assoc pv). rewrite IH; auto.
    + rewrite <- app_assoc. do 3 f_equal. rewrite app_length, H6. congruence.
    + rewrite !app_length, map_length. lia.
    + rewrite app_length. lia.
Qed.
Lemma p_Jdifference_bdiag cs xs ys arg n : Forall jac_shape cs -> Forall2 (fun m x => length x = m_nx m) cs xs ->
  Forall2 (fun m v => length v = m_nx m) cs ys -> forall px py A cv, length px = length py -> length A = cv ->
  (cv + sum_of m_ndx cs = n)%nat ->
  p_Jdifference cs (length px) cv (px ++ concat xs) (py ++ concat ys) arg (A ++ repeat (repeat 0 n) (sum_of m_ndx cs)) =
  A ++ bdiag cv n (jacs (fun m x v => m_Jdifference m x v arg) cs xs ys).
Proof.
  intros S. revert xs ys. induction S as [|m cs S0 S IH]; intros xs ys HX HV; inversion HX; inversion HV; subst; intros px py A cv E EA En; simpl in *.
  - reflexivity.
  - rename y into x, y0 into v, l' into xs', l'0 into vs'.
    rewrite <- H1 at 2. rewrite seg_mid. rewrite E at 2. rewrite <- H6 at 2. rewrite seg_mid.
    destruct (S0 x v arg) as [_ SB]. assert (LB := proj1 SB). rewrite <- LB at 2.
    rewrite set_block_rows; [|assumption|now apply (square_len (m_ndx m))|lia].
    replace (length px + m_nx m)%nat with (length (px ++ x)) by (rewrite app_length; lia).
    rewrite (app_assoc px), (app_assoc py). rewrite IH; auto.
    + rewrite <- app_assoc. do 3 f_equal. congruence.
    + rewrite !app_length. lia.
    + rewrite !app_length, map_length. lia.
    + lia.
Qed.
Lemma jacs_square f cs xs vs ds : (forall m x v, In m cs -> square (m_ndx m) (f m x v)) ->
  Forall2 (fun m (x : list R) => True) cs xs -> Forall2 (fun m (x : list R) => True) cs vs ->
  Forall2 (fun m d => length d = m_ndx m) cs ds -> Forall2 (fun B (d : list R) => square (length d) B) (jacs f cs xs vs) ds.
Proof.
  intros Hf HX. revert vs ds Hf. induction HX; intros vs ds Hf HV HD; inversion HV; inversion HD; subst; simpl; constructor.
  - match goal with E : length _ = m_ndx x |- _ => rewrite E end. apply Hf. now left.
  - apply IHHX; auto. intros. apply Hf. now right.
Qed.
Lemma F2_true cs (P : manifold -> list R -> Prop) xs : Forall2 P cs xs -> Forall2 (fun m (x : list R) => True) cs xs.
Proof. induction 1; constructor; auto. Qed.
(** The Jacobians of a product act on each component separately. *)
Theorem C44_product_jacobians : forall cs xs vs ys ds arg,
  Forall jac_shape cs -> Forall2 (fun m x => length x = m_nx m) cs xs -> Forall2 (fun m y => length y = m_nx m) cs ys ->
  Forall2 (fun m v => length v = m_ndx m) cs vs -> Forall2 (fun m d => length d = m_ndx m) cs ds ->
  mulv (m_Jintegrate (product cs) (concat xs) (concat vs) arg) (concat ds) =
    concat (zip_with mulv (jacs (fun m x v => m_Jintegrate m x v arg) cs xs vs) ds) /\
  mulv (m_Jdifference (product cs) (concat xs) (concat ys) arg) (concat ds) =
    concat (zip_with mulv (jacs (fun m x y => m_Jdifference m x y arg) cs xs ys) ds).
Proof.
  intros cs xs vs ys ds arg S HX HY HV HD.
  assert (SI : forall m x v, In m cs -> square (m_ndx m) (m_Jintegrate m x v arg)) by
    (intros m x v Hm; exact (proj1 (proj1 (Forall_forall _ _) S m Hm x v arg))).
  assert (SD : forall m x v, In m cs -> square (m_ndx m) (m_Jdifference m x v arg)) by
    (intros m x v Hm; exact (proj2 (proj1 (Forall_forall _ _) S m Hm x v arg))).
  split.
  - assert (E := p_Jintegrate_bdiag cs xs vs arg (sum_of m_ndx cs) S HX HV [] [] [] eq_refl eq_refl).
    simpl in E. cbn [product m_Jintegrate]. unfold zero_mat, zeros. rewrite E.
    apply (bdiag_mul _ _ (jacs_square _ cs xs vs ds SI (F2_true _ _ _ HX) (F2_true _ _ _ HV) HD) []).
  - assert (E := p_Jdifference_bdiag cs xs ys arg (sum_of m_ndx cs) S HX HY [] [] [] 0%nat eq_refl eq_refl eq_refl).
    simpl in E. cbn [product m_Jdifference]. unfold zero_mat, zeros. rewrite E.
    apply (bdiag_mul _ _ (jacs_square _ cs xs ys ds SD (F2_true _ _ _ HX) (F2_true _ _ _ HY) HD) []).
Qed.
Fixpoint transports (arg : bool) (cs : list manifold) (xs vs : list (list R)) (Js : list (list (list R))) : list (list (list R)) :=
  match cs, xs, vs, Js with m :: cs, x :: xs, v :: vs, J :: Js => m_transport m x v arg J :: transports arg cs xs vs Js | _, _, _, _ => [] end.
(** JintegrateTransport transforms the rows of each component separately. *)
Theorem C44_product_transport : forall cs xs vs Js arg,
  Forall (fun m => forall x v arg J, length J = m_ndx m -> length (m_transport m x v arg J) = m_ndx m) cs ->
  Forall2 (fun m x => length x = m_nx m) cs xs -> Forall2 (fun m v => length v = m_ndx m) cs vs ->
  Forall2 (fun m J => length J = m_ndx m) cs Js ->
  m_transport (product cs) (concat xs) (concat vs) arg (concat Js) = concat (transports arg cs xs vs Js).
Proof.
  intros cs xs vs Js arg S HX HV HJ.
  assert (G : forall px pv (A : list (list R)), length A = length pv ->
    p_transport cs (length px) (length pv) (px ++ concat xs) (pv ++ concat vs) arg (A ++ concat Js) = A ++ concat (transports arg cs xs vs Js)).
  { revert xs vs Js HX HV HJ. induction S as [|m cs S0 S IH]; intros xs vs Js HX HV HJ; inversion HX; inversion HV; inversion HJ; subst; intros px pv A EA; simpl.
    - now rewrite app_nil_r.
    - rename y into x, y0 into v, y1 into J.
      rewrite <- H1 at 2. rewrite seg_mid. rewrite <- H6 at 2. rewrite seg_mid. 
      replace (firstn (m_ndx m) (skipn (length pv) (A ++ J ++ concat l'1))) with J
        by (rewrite <- EA, skipn_app, skipn_all, Nat.sub_diag; simpl; now rewrite firstn_exact).
      replace (set_seg (length pv) (m_transport m x v arg J) (A ++ J ++ concat l'1)) with (A ++ m_transport m x v arg J ++ concat l'1)
        by (rewrite <- EA; symmetry; apply set_mid; rewrite S0; auto).
      replace (length px + m_nx m)%nat with (length (px ++ x)) by (rewrite app_length; lia).
      replace (length pv + m_ndx m)%nat with (length (pv ++ v)) by (rewrite app_length; lia).
      rewrite (app_assoc px), (app_assoc pv), (app_assoc A). rewrite IH; auto.
      + now rewrite <- app_assoc.
      + rewrite !app_length, S0; auto; lia. }
  apply (G [] [] []). reflexivity.
Qed.

Lemma unit_row_dot n i (d : list R) : (i < n)%nat -> length d = n -> vdot (set_seg i [1] (repeat 0 n)) d = nth i d 0.
Proof.
  intros Hi <-. revert i Hi. induction d as [|y d IH]; intros i Hi; simpl in Hi; [lia|]. destruct i.
  - unfold set_seg. simpl. change (vdot (1 :: repeat 0 (length d)) (y :: d)) with (1 * y + vdot (repeat 0 (length d)) d).
    rewrite vdot_zeros. ring.
  - change (set_seg (S i) [1] (repeat 0 (length (y :: d)))) with (0 :: set_seg i [1] (repeat 0 (length d))).
    change (vdot (0 :: set_seg i [1] (repeat 0 (length d))) (y :: d)) with (0 * y + vdot (set_seg i [1] (repeat 0 (length d))) d).
    rewrite IH by lia. simpl. ring.
Qed.
Lemma identity_mul n d : length d = n -> mulv (identity n) d = d.
Proof.
  intros H. unfold mulv, identity. rewrite map_map.
  rewrite (map_ext_in _ (fun i => nth i d 0)).
  - rewrite <- H. clear. induction d; simpl; auto. f_equal. rewrite <- seq_shift, map_map. exact IHd.
  - intros i Hi. apply in_seq in Hi. apply unit_row_dot; auto; lia.
Qed.
Lemma identity_square n : square n (identity n).
Proof.
  unfold identity, square. rewrite map_length, seq_length. split; [reflexivity|]. apply Forall_forall. intros r Hr.
  apply in_map_iff in Hr. destruct Hr as (i & <- & Hi). apply in_seq in Hi. unfold set_seg, zeros.
  rewrite !app_length, firstn_length, skipn_length, repeat_length. simpl. lia.
Qed.
Lemma neg_identity_mul n d : length d = n -> mulv (map (vscale (-1)) (identity n)) d = vscale (-1) d.
Proof.
  intros H. rewrite <- (identity_mul n d H) at 2. unfold mulv. unfold vscale at 2. rewrite !map_map.
  apply map_ext. intros r. generalize d. clear. induction r as [|a r IH]; intros [|y d].
  - cbn. ring.
  - cbn. ring.
  - cbn. ring.
  - change (vdot (vscale (-1) (a :: r)) (y :: d)) with (-1 * a * y + vdot (vscale (-1) r) d).
    change (vdot (a :: r) (y :: d)) with (a * y + vdot r d). rewrite IH. ring.
Qed.
Lemma neg_identity_square n : square n (map (vscale (-1)) (identity n)).
Proof.
  destruct (identity_square n) as [H1 H2]. split; [now rewrite map_length|]. apply Forall_map. eapply Forall_impl; [|exact H2].
  intros r Hr. unfold vscale. now rewrite map_length.
Qed.
Lemma two_blocks n A B c d : square n A -> square n B -> length c = n -> length d = n ->
  mulv (set_block n B (set_block 0 A (repeat (repeat 0 (2 * n)) (2 * n)))) (c ++ d) = mulv A c ++ mulv B d.
Proof.
  intros SA SB Hc Hd. destruct SA as [LA FA]. destruct SB as [LB FB].
  remember (2 * n)%nat as k eqn:Ek.
  assert (E := set_block_rows [] A n 0 k eq_refl). cbn [app] in E.
  replace (length A + n)%nat with k in E by lia. rewrite E by (try split; rewrite ?LA; auto; lia). clear E.
  assert (E := set_block_rows (map (block_row 0 k) A) B 0 n k). rewrite Nat.add_0_r, LB in E. cbn [app repeat] in E.
  rewrite E by (rewrite ?map_length, ?LB; try split; auto; lia). clear E. rewrite app_nil_r.
  assert (F : Forall2 (fun B d => square (length d) B) [A; B] [c; d])
    by (constructor; [split; rewrite Hc; auto|constructor; [split; rewrite Hd; auto|constructor]]).
  assert (E := bdiag_mul [A; B] [c; d] F [] k). cbn [bdiag concat app length zip_with] in E.
  rewrite !app_nil_r, LA in E. exact E.
Qed.
(** JintegrateTransport of a tangent bundle transforms the base rows and leaves the
    velocity rows as they are. *)
Theorem C44_tangent_transport : forall M x v arg A B, length A = m_ndx M ->
  m_transport (tangent M) x v arg (A ++ B) = m_transport M (firstn (m_nx M) x) (firstn (m_ndx M) v) arg A ++ B.
Proof.
  intros M x v arg A B H. cbn [tangent m_transport]. rewrite <- H, firstn_app, skipn_app, Nat.sub_diag, firstn_all, skipn_all.
  simpl. now rewrite app_nil_r.
Qed.
(** The Jacobians of a tangent bundle: the base Jacobian on the base part, plus or minus
    the identity on the velocity part. *)
Theorem C44_tangent_jacobians : forall M x v y c d arg,
  jac_shape M -> length c = m_ndx M -> length d = m_ndx M ->
  mulv (m_Jintegrate (tangent M) x v arg) (c ++ d) =
    mulv (m_Jintegrate M (firstn (m_nx M) x) (firstn (m_ndx M) v) arg) c ++ d /\
  mulv (m_Jdifference (tangent M) x y arg) (c ++ d) =
    mulv (m_Jdifference M (firstn (m_nx M) x) (firstn (m_nx M) y) arg) c ++ (if arg then d else vscale (-1) d).
Proof.
  intros M x v y c d arg S Hc Hd. cbn [tangent m_Jintegrate m_Jdifference]. unfold zero_mat, zeros. split.
  - rewrite two_blocks; auto using identity_square; [|apply S]. now rewrite identity_mul.
  - rewrite two_blocks; auto; [|apply S|destruct arg; auto using identity_square, neg_identity_square].
    destruct arg; [now rewrite identity_mul|now rewrite neg_identity_mul].
Qed.

(** ** Instances *)
(** the tangent bundle of a product that contains a tangent bundle *)
Definition nest := [(vector_space 2, vec_dom 2); (tangent line2, tan_dom line2 (vec_dom 1))].
Example C44_built_example :
  built (tangent (product (map fst nest))) (tan_dom (product (map fst nest)) (prod_dom nest)) /\
  m_nx (tangent (product (map fst nest))) = 8%nat /\
  pt (tan_dom (product (map fst nest)) (prod_dom nest)) [1; 2; 3; 4; 5; 6; 7; 8] /\
  m_integrate (tangent (product (map fst nest))) [1; 2; 3; 4; 5; 6; 7; 8] [1; 1; 1; 1; 1; 1; 1; 1] = [2; 3; 5; 5; 6; 7; 8; 9].
Proof.
  split; [|split; [reflexivity|split]].
  - apply B_tangent. apply B_product. constructor; [constructor|]. constructor; [|constructor]. apply B_tangent, B_other, line2_lawful.
  - exists [1; 2; 3; 4], [5; 6; 7; 8]. cbn. split; [reflexivity|]. split; [|reflexivity].
    exists [1; 2], [3; 4]. repeat split; auto. exists [3; 4], []. repeat split; auto. exists [3], [4]. repeat split.
  - cbn. unfold vplus'. cbn. repeat f_equal; lra.
Qed.
Example C44_interpolates_example : interpolates (vector_space 3) (vec_dom 3) /\ interpolates (product (map fst nest)) (prod_dom nest).
Proof.
  split; [apply C44_interpolate|]. apply C44_interpolate. constructor; [constructor|]. constructor; [|constructor]. apply B_tangent, B_other, line2_lawful.
Qed.
Example C44_jac_example : Forall jac_shape [vector_space 2; line2] /\
  mulv (m_Jdifference (product [vector_space 2; line2]) [1; 2; 3] [4; 5; 6] true) [1; 1; 1] = [1; 1; / 2].
Proof.
  split.
  - constructor; [|constructor; [|constructor]].
    + intros x v arg. cbn. split; [apply identity_square|destruct arg; [apply identity_square|apply neg_identity_square]].
    + intros x v arg. cbn. destruct arg; repeat split; repeat constructor.
  - cbn. repeat f_equal; lra.
Qed.
Example C44_split_example : split m_nx [vector_space 1; vector_space 2] [1; 2; 3] = Some [[1]; [2; 3]] /\
  split m_nx [vector_space 1; vector_space 2] [1; 2] = None.
Proof. split; reflexivity. Qed.

Print Assumptions C44_laws.
Print Assumptions C44_interpolate.
Print Assumptions C44_tangent_interpolate_refuted.
Print Assumptions C44_tangent_interpolate_partial.
Print Assumptions C44_order.
Print Assumptions C44_space_times_product_refuted.
Print Assumptions C44_tangent_normalized.
Print Assumptions C44_product_normalized_refuted.
Print Assumptions C44_product_normalized_partial.
Print Assumptions C44_split_merge.
Print Assumptions C44_output_overwritten.
Print Assumptions C44_product_jacobians.
Print Assumptions C44_product_transport.
Print Assumptions C44_tangent_transport.
Print Assumptions C44_tangent_jacobians.
