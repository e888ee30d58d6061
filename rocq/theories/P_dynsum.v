(** C59: linear discrete dynamics and direct sums of explicit dynamics compute the announced map
    and its derivative. *)
Require Import Reals Lra Lia Arith Bool List FunctionalExtensionality.
Require Import Verif.CentroidalModel Verif.DynSumModel Verif.P_centroidal Verif.P_mb.
Open Scope R_scope.

(** ** Specification *)
(** the n entries of v from the i-th on *)
Definition part (v : vec) (i n : nat) : vec := fun k => if Nat.ltb k n then v (i + k)%nat else 0.
(** the curve c of points of the space passes its point at 0 with the tangent dx *)
Definition passes (s : space) (c : R -> vec) (dx : vec) : Prop := forall i, (i < sp_ndx s)%nat ->
  derivable_pt_lim (fun t => sp_diff s (part (c 0) 0 (sp_nx s)) (part (c t) 0 (sp_nx s)) i) 0 (dx i).

(** the data which calls can produce *)
Inductive reach (f : dyn) : dy_D f -> Prop :=
| R0 d : dy_create f = Some d -> reach f d
| R1 x u d d' : reach f d -> dy_forward f x u d = Some d' -> reach f d'
| R2 x u d d' : reach f d -> dy_dforward f x u d = Some d' -> reach f d'.

Definition shows (f : dyn) (F : vec -> vec -> vec) (x u : svec) (d : dy_D f) : Prop :=
  sv_n (ed_xnext (dy_base f d)) = sp_nx (dy_next f) /\
  forall i, (i < sp_nx (dy_next f))%nat -> sv_at (ed_xnext (dy_base f d)) i = F (sv_at x) (sv_at u) i.

(** f maps its space to itself by F: the data can be created and have the announced sizes; on
    vectors of the announced sizes, from any reachable data, forward stores F, and dForward after
    it keeps this value and stores matrices Jx, Ju which map the tangents of any two curves
    through the state and the control to the tangent of the image *)
Definition computes (f : dyn) (F : vec -> vec -> vec) : Prop :=
  dy_space f = dy_next f /\
  (exists d, dy_create f = Some d) /\
  (forall d, reach f d -> ed_ndx1 (dy_base f d) = sp_ndx (dy_space f) /\ ed_nu (dy_base f d) = dy_nu f /\
                          ed_ndx2 (dy_base f d) = sp_ndx (dy_next f)) /\
  forall d, reach f d -> forall x u, sv_n x = sp_nx (dy_space f) -> sv_n u = dy_nu f ->
  exists d', dy_forward f x u d = Some d' /\ shows f F x u d' /\
  exists d'', dy_dforward f x u d' = Some d'' /\ shows f F x u d'' /\
    forall c dx v dv, passes (dy_space f) c dx -> vmoves (dy_nu f) v dv -> c 0 = sv_at x -> v 0 = sv_at u ->
      passes (dy_next f) (fun t => F (c t) (v t))
        (fun i => mv (sp_ndx (dy_space f)) (ed_Jx (dy_base f d'')) dx i + mv (dy_nu f) (ed_Ju (dy_base f d'')) dv i).

(** side by side *)
Definition both (n nu m mu : nat) (F G : vec -> vec -> vec) (x u : vec) : vec := fun i =>
  if Nat.ltb i n then F (part x 0 n) (part u 0 nu) i else G (part x n m) (part u nu mu) (i - n)%nat.

(** ** Lemmas *)
Lemma mulvE n A x i : mulv n A x i = mv n A x i.
Proof. unfold mulv, mv. induction n as [|n IH]; [reflexivity|]. cbn [for_n rsum]. now rewrite IH. Qed.

Lemma part_ext v w i j n : (forall k, (k < n)%nat -> v (i + k)%nat = w (j + k)%nat) -> part v i n = part w j n.
Proof.
  intros H. apply functional_extensionality. intros k. unfold part. destruct (Nat.ltb_spec k n); auto.
Qed.
Lemma partE v i n k : (k < n)%nat -> part v i n k = v (i + k)%nat.
Proof. intros H. unfold part. now rewrite (proj2 (Nat.ltb_lt _ _) H). Qed.
Lemma part_part v n : part (part v 0 n) 0 n = part v 0 n.
Proof. apply part_ext. intros k Hk. now rewrite partE. Qed.
Lemma part_part2 v i n : part (part v i n) 0 n = part v i n.
Proof. apply part_ext. intros k Hk. now rewrite partE. Qed.
Lemma part_sub v i n j m : (i + m <= n)%nat -> part (part v j n) i m = part v (j + i) m.
Proof. intros H. apply part_ext. intros k Hk. rewrite partE by lia. f_equal. lia. Qed.

(** ** Linear dynamics *)
Section Linear.
Variable l : lin.
Hypothesis HA : l_Ar l = l_Ac l.
Hypothesis HB : l_Br l = l_Ac l.
Hypothesis Hc : sv_n (l_c l) = l_Ac l.
Notation n := (l_Ac l). Notation m := (l_Bc l).

Definition lin_ok (d : edata) : Prop :=
  ed_ndx1 d = n /\ ed_nu d = m /\ ed_ndx2 d = n /\
  (forall i j, (i < n)%nat -> (j < n)%nat -> ed_Jx d i j = l_A l i j) /\
  (forall i j, (i < n)%nat -> (j < m)%nat -> ed_Ju d i j = l_B l i j).

Lemma lin_make : exists d, lin_create l = Some d /\ lin_ok d.
Proof.
  unfold lin_create, put_Jx, put. cbn [edata_make vector_space sp_nx sp_ndx sp_neutral ed_ndx1 ed_nu ed_ndx2 ed_xnext ed_jac].
  rewrite HA, !Nat.eqb_refl, !Nat.add_0_l, !Nat.leb_refl. cbn [andb].
  unfold put_Ju, put. cbn [ed_ndx1 ed_nu ed_ndx2 ed_xnext ed_jac].
  rewrite HB, !Nat.eqb_refl, !Nat.add_0_l, !Nat.leb_refl. cbn [andb].
  eexists. split; [reflexivity|]. unfold lin_ok, ed_Jx, ed_Ju, bset, in_seg.
  cbn [ed_ndx1 ed_nu ed_ndx2 ed_xnext ed_jac]. do 3 (split; [reflexivity|]). split; intros i j Hi Hj.
  - replace (Nat.leb (n + m - m + 0) j) with false by (symmetry; apply Nat.leb_gt; lia).
    rewrite andb_false_r. cbn [Nat.leb Nat.add]. rewrite (proj2 (Nat.ltb_lt i n)), (proj2 (Nat.ltb_lt j n)) by auto.
    cbn [andb]. f_equal; lia.
  - replace (Nat.leb (n + m - m + 0) (n + m - m + j)) with true by (symmetry; apply Nat.leb_le; lia).
    replace (Nat.ltb (n + m - m + j) (n + m - m + 0 + m)) with true by (symmetry; apply Nat.ltb_lt; lia).
    cbn [Nat.leb Nat.add]. rewrite (proj2 (Nat.ltb_lt i n)) by auto. cbn [andb]. f_equal; lia.
Qed.

Lemma lin_reach d : reach (linear_dynamics l) d -> lin_ok d.
Proof.
  induction 1 as [d H | x u d d' _ IH H | x u d d' _ IH H].
  - destruct lin_make as (e & He & Ok). cbn [linear_dynamics dy_create] in H. rewrite He in H. injection H as <-. exact Ok.
  - cbn [linear_dynamics dy_forward] in H. unfold lin_forward in H. cbv zeta in H.
    destruct (_ && _); [|discriminate]. injection H as <-. exact IH.
  - cbn [linear_dynamics dy_dforward] in H. injection H as <-. exact IH.
Qed.

(** the map x, u -> c + A x + B u *)
Definition affine_map (x u : vec) : vec := fun i => sv_at (l_c l) i + mv n (l_A l) x i + mv m (l_B l) u i.

Lemma linear_computes : computes (linear_dynamics l) affine_map.
Proof.
  split; [reflexivity|]. split; [destruct lin_make as (e & He & _); now exists e|].
  split; [intros d H; destruct (lin_reach d H) as (? & ? & ? & _); cbn; auto|].
  intros d Hd x u Hx Hu.
  cbn [linear_dynamics dy_space dy_next dy_nu dy_base dy_forward dy_dforward vector_space sp_nx sp_ndx] in *.
  destruct (lin_reach d Hd) as (D1 & D2 & D3 & DA & DB).
  unfold lin_forward. rewrite Hx, Hu, HA, HB, Hc, !Nat.eqb_refl. cbn [andb].
  eexists. split; [reflexivity|].
  assert (S : forall J, shows (linear_dynamics l) affine_map x u
    (EData (ed_ndx1 d) (ed_nu d) (ed_ndx2 d)
       (SVec n (fun i => sv_at (l_c l) i + mulv n (l_A l) (sv_at x) i + mulv m (l_B l) (sv_at u) i)) J)).
  { intros J. split; [reflexivity|]. intros i _. cbn. unfold affine_map. now rewrite !mulvE. }
  split; [apply S|]. eexists. split; [reflexivity|]. split; [apply S|].
  intros c dx v dv Hp Hv _ _ i Hi. cbn [sp_ndx sp_nx sp_diff] in *.
  eapply dl_ext with (f := fun t => affine_map (c t) (v t) i - affine_map (c 0) (v 0) i).
  { intros t. cbn [linear_dynamics dy_next vector_space sp_diff sp_nx]. now rewrite !partE by auto. }
  apply dl_sub. unfold affine_map.
  eapply dl_eq; [|apply dl_plus; [apply dl_plus; [apply dl_const|]|]].
  2: { unfold mv. apply dl_rsum with (f := fun k t => l_A l i k * c t k) (a := fun k => l_A l i k * dx k). intros k Hk.
       apply dl_scal. specialize (Hp k Hk). cbn [vector_space sp_diff sp_nx] in Hp.
       eapply dl_eq; [apply Rplus_0_r|].
       eapply dl_ext with (f := fun t => (part (c t) 0 n k - part (c 0) 0 n k) + c 0 k).
       { intros t. rewrite !partE by auto. cbn [Nat.add]. ring. }
       apply dl_plus; [exact Hp|apply dl_const]. }
  2: { unfold mv. apply dl_rsum with (f := fun k t => l_B l i k * v t k) (a := fun k => l_B l i k * dv k). intros k Hk.
       apply dl_scal. now apply Hv. }
  cbv beta. unfold mv. rewrite Rplus_0_l. f_equal; apply rsum_ext; intros j Hj; f_equal; symmetry.
  - apply (DA i j Hi Hj).
  - apply (DB i j Hi Hj).
Qed.
End Linear.

(** sizes: data can be created exactly when A is square and B has as many rows, and forward runs
    exactly when all sizes fit; the constructor checks neither *)
Theorem C59_linear_sizes : forall l,
  ((exists d, lin_create l = Some d) <-> l_Ar l = l_Ac l /\ l_Br l = l_Ac l) /\
  forall x u d, (exists d', lin_forward l x u d = Some d') <->
    sv_n x = l_Ac l /\ sv_n u = l_Bc l /\ sv_n (l_c l) = l_Ar l /\ l_Br l = l_Ar l.
Proof.
  intros l. split.
  - unfold lin_create, put_Jx, put. cbn [edata_make vector_space sp_nx sp_ndx sp_neutral ed_ndx1 ed_nu ed_ndx2 ed_xnext ed_jac].
    rewrite Nat.eqb_refl, !Nat.add_0_l, !Nat.leb_refl, !andb_true_r.
    destruct (Nat.eqb_spec (l_Ac l) (l_Ar l)) as [E|N].
    + unfold put_Ju, put. cbn [ed_ndx1 ed_nu ed_ndx2 ed_xnext ed_jac].
      rewrite Nat.eqb_refl, !Nat.add_0_l, !Nat.leb_refl, !andb_true_r.
      destruct (Nat.eqb_spec (l_Ac l) (l_Br l)) as [E'|N'].
      * split; [intros _; split; congruence|intros _; eexists; reflexivity].
      * split; [intros [d H]; discriminate|intros [_ H]; congruence].
    + split; [intros [d H]; discriminate|intros [H _]; congruence].
  - intros x u d. unfold lin_forward.
    destruct (Nat.eqb_spec (l_Ac l) (sv_n x)), (Nat.eqb_spec (l_Ar l) (sv_n (l_c l))),
      (Nat.eqb_spec (l_Bc l) (sv_n u)), (Nat.eqb_spec (l_Br l) (sv_n (l_c l))); cbn [andb];
      (split; [intros [d' H]; try discriminate; repeat split; congruence
              |intros (? & ? & ? & ?); try (exfalso; congruence); eexists; reflexivity]).
Qed.

Theorem C59_linear : forall l, l_Ar l = l_Ac l -> l_Br l = l_Ac l -> sv_n (l_c l) = l_Ac l ->
  computes (linear_dynamics l) (fun x u i => sv_at (l_c l) i + mv (l_Ac l) (l_A l) x i + mv (l_Bc l) (l_B l) u i).
Proof. exact linear_computes. Qed.

(** ** Direct sums *)
Section SumProof.
Variables f g : dyn.
Variables F G : vec -> vec -> vec.
Hypothesis Hf : computes f F.
Hypothesis Hg : computes g G.
Notation n1 := (sp_nx (dy_next f)). Notation n2 := (sp_nx (dy_next g)).
Notation m1 := (sp_ndx (dy_next f)). Notation m2 := (sp_ndx (dy_next g)).
Notation w1 := (dy_nu f). Notation w2 := (dy_nu g).

(** the parts of the buffer which no call writes stay zero *)
Definition zeros (J : mtx) : Prop := forall i j, (i < m1 + m2)%nat ->
  ((i < m1)%nat -> (m1 <= j < m1 + m2)%nat \/ (m1 + m2 + w1 <= j < m1 + m2 + (w1 + w2))%nat -> J i j = 0) /\
  ((m1 <= i)%nat -> (j < m1)%nat \/ (m1 + m2 <= j < m1 + m2 + w1)%nat -> J i j = 0).

Definition sum_ok (d : dsum f g) : Prop :=
  reach f (ds_1 d) /\ reach g (ds_2 d) /\
  ed_ndx1 (ds_base d) = (m1 + m2)%nat /\ ed_nu (ds_base d) = (w1 + w2)%nat /\ ed_ndx2 (ds_base d) = (m1 + m2)%nat /\
  sv_n (ed_xnext (ds_base d)) = (n1 + n2)%nat /\ zeros (ed_jac (ds_base d)).

Lemma in_segE i w k : in_seg i w k = true <-> (i <= k < i + w)%nat.
Proof. unfold in_seg. rewrite andb_true_iff, Nat.leb_le, Nat.ltb_lt. tauto. Qed.
Lemma in_segF i w k : in_seg i w k = false <-> ~ (i <= k < i + w)%nat.
Proof. rewrite <- in_segE. destruct (in_seg i w k); split; congruence. Qed.

(** the four blocks written by dForward *)
Definition wr (J : mtx) (A1 A2 B1 B2 : mtx) : mtx :=
  bset (bset (bset (bset J 0 0 m1 m1 A1) m1 m1 m2 m2 A2) 0 (m1 + m2) m1 w1 B1) m1 (m1 + m2 + w1) m2 w2 B2.

Lemma wr_at J A1 A2 B1 B2 : zeros J -> zeros (wr J A1 A2 B1 B2) /\
  (forall i j, (i < m1)%nat -> (j < m1)%nat -> wr J A1 A2 B1 B2 i j = A1 i j) /\
  (forall i j, (i < m2)%nat -> (j < m2)%nat -> wr J A1 A2 B1 B2 (m1 + i)%nat (m1 + j)%nat = A2 i j) /\
  (forall i j, (i < m1)%nat -> (j < w1)%nat -> wr J A1 A2 B1 B2 i (m1 + m2 + j)%nat = B1 i j) /\
  (forall i j, (i < m2)%nat -> (j < w2)%nat -> wr J A1 A2 B1 B2 (m1 + i)%nat (m1 + m2 + w1 + j)%nat = B2 i j).
Proof.
  intros Z. unfold wr, bset.
  split; [intros i j Hi; split; intros H1 H2 | split; [|split; [|split]]; intros i j Hi Hj].
  all: repeat match goal with
       | |- context [in_seg ?a ?b ?k] => let E := fresh "E" in destruct (in_seg a b k) eqn:E; [apply in_segE in E | apply in_segF in E]
       end; cbn [andb]; try (f_equal; lia); try (exfalso; lia).
  all: first [now apply (proj1 (Z i j Hi)) | now apply (proj2 (Z i j Hi))].
Qed.

Lemma sum_dforward x u d d' : sum_ok d -> ds_dforward f g x u d = Some d' ->
  exists x1 x2 u1 u2 d1 d2, split2 (dy_next f) (dy_next g) x = Some (x1, x2) /\ ctrl2 f g u = Some (u1, u2) /\
    dy_dforward f x1 u1 (ds_1 d) = Some d1 /\ dy_dforward g x2 u2 (ds_2 d) = Some d2 /\
    d' = DSum (EData (m1 + m2) (w1 + w2) (m1 + m2) (ed_xnext (ds_base d))
                 (wr (ed_jac (ds_base d)) (ed_Jx (dy_base f d1)) (ed_Jx (dy_base g d2)) (ed_Ju (dy_base f d1)) (ed_Ju (dy_base g d2)))) d1 d2.
Proof.
  intros (Q1 & Q2 & E1 & E2 & E3 & E4 & Z) H. unfold ds_dforward in H.
  destruct (split2 _ _ x) as [[x1 x2]|]; [|discriminate]. destruct (ctrl2 f g u) as [[u1 u2]|]; [|discriminate].
  destruct (dy_dforward f x1 u1 (ds_1 d)) as [d1|] eqn:F1; [|discriminate].
  destruct (dy_dforward g x2 u2 (ds_2 d)) as [d2|] eqn:F2; [|discriminate].
  exists x1, x2, u1, u2, d1, d2. do 4 (split; [first [reflexivity|assumption]|]).
  cbv zeta in H. unfold put_Jx, put_Ju, put in H. rewrite !Nat.add_0_r, !Nat.add_0_l in H.
  repeat (cbn [ed_ndx1 ed_nu ed_ndx2 ed_xnext ed_jac] in H;
          match type of H with context [if ?b then _ else _] => destruct b; [|discriminate] end).
  injection H as <-. cbn [ed_ndx1 ed_nu ed_ndx2 ed_xnext ed_jac]. rewrite E1, E2, E3. unfold wr.
  replace (m1 + m2 - m2)%nat with m1 by lia. replace (m1 + m2 + (w1 + w2) - (w1 + w2))%nat with (m1 + m2)%nat by lia.
  replace (w1 + w2 - w2)%nat with w1 by lia. rewrite ?Nat.add_0_r. reflexivity.
Qed.

Lemma sum_dforward_runs x u d x1 x2 u1 u2 d1 d2 : sum_ok d ->
  split2 (dy_next f) (dy_next g) x = Some (x1, x2) -> ctrl2 f g u = Some (u1, u2) ->
  dy_dforward f x1 u1 (ds_1 d) = Some d1 -> dy_dforward g x2 u2 (ds_2 d) = Some d2 ->
  exists d', ds_dforward f g x u d = Some d'.
Proof.
  intros (Q1 & Q2 & E1 & E2 & E3 & E4 & Z) HX HU F1 F2. unfold ds_dforward. rewrite HX, HU, F1, F2. cbv zeta.
  destruct Hf as (Sf & _ & Df & _), Hg as (Sg & _ & Dg & _).
  destruct (Df d1 (R2 f _ _ _ _ Q1 F1)) as (-> & -> & ->). destruct (Dg d2 (R2 g _ _ _ _ Q2 F2)) as (-> & -> & ->).
  rewrite Sf, Sg. unfold put_Jx, put_Ju, put.
  assert (L1 : forall a b c e : nat, Nat.eqb a a && Nat.eqb b b && Nat.leb c e = Nat.leb c e) by (intros; now rewrite !Nat.eqb_refl).
  cbn [ed_ndx1 ed_nu ed_ndx2 ed_xnext ed_jac]. rewrite E1, E3, L1.
  rewrite (proj2 (Nat.leb_le (0 + m1) (m1 + m2))) by lia. cbn [andb].
  cbn [ed_ndx1 ed_nu ed_ndx2 ed_xnext ed_jac]. rewrite L1. replace (m1 + m2 - m2 + m2)%nat with (m1 + m2)%nat by lia.
  rewrite Nat.leb_refl. cbn [andb].
  cbn [ed_ndx1 ed_nu ed_ndx2 ed_xnext ed_jac]. rewrite L1, E2.
  rewrite (proj2 (Nat.leb_le (0 + m1) (m1 + m2))), (proj2 (Nat.leb_le (0 + w1) (w1 + w2))) by lia. cbn [andb].
  cbn [ed_ndx1 ed_nu ed_ndx2 ed_xnext ed_jac]. rewrite L1. replace (m1 + m2 - m2 + m2)%nat with (m1 + m2)%nat by lia.
  replace (w1 + w2 - w2 + w2)%nat with (w1 + w2)%nat by lia. rewrite !Nat.leb_refl. cbn [andb]. eexists. reflexivity.
Qed.

Lemma sum_forward x u d d' : sum_ok d -> ds_forward f g x u d = Some d' ->
  exists x1 x2 u1 u2 d1 d2, split2 (dy_next f) (dy_next g) x = Some (x1, x2) /\ ctrl2 f g u = Some (u1, u2) /\
    dy_forward f x1 u1 (ds_1 d) = Some d1 /\ dy_forward g x2 u2 (ds_2 d) = Some d2 /\
    d' = DSum (EData (m1 + m2) (w1 + w2) (m1 + m2)
                 (SVec (n1 + n2) (sset (sset (sv_at (ed_xnext (ds_base d))) 0 n1 (sv_at (ed_xnext (dy_base f d1)))) n1 n2
                                    (sv_at (ed_xnext (dy_base g d2)))))
                 (ed_jac (ds_base d))) d1 d2.
Proof.
  intros (Q1 & Q2 & E1 & E2 & E3 & E4 & Z) H. unfold ds_forward in H.
  destruct (split2 _ _ x) as [[x1 x2]|]; [|discriminate]. destruct (ctrl2 f g u) as [[u1 u2]|]; [|discriminate].
  destruct (dy_forward f x1 u1 (ds_1 d)) as [d1|] eqn:F1; [|discriminate].
  destruct (dy_forward g x2 u2 (ds_2 d)) as [d2|] eqn:F2; [|discriminate].
  exists x1, x2, u1, u2, d1, d2. do 4 (split; [first [reflexivity|assumption]|]).
  cbv zeta in H. match type of H with context [if ?b then _ else _] => destruct b; [|discriminate] end.
  injection H as <-. rewrite E1, E2, E3, E4. replace (n1 + n2 - n2)%nat with n1 by lia. reflexivity.
Qed.

Lemma sum_reach d : reach (direct_sum f g) d -> sum_ok d.
Proof.
  induction 1 as [d H | x u d d' _ IH H | x u d d' _ IH H].
  - cbn [direct_sum dy_create] in H. unfold ds_create in H.
    destruct (dy_create f) as [d1|] eqn:C1; [|discriminate]. destruct (dy_create g) as [d2|] eqn:C2; [|discriminate].
    injection H as <-. unfold sum_ok. cbn. do 6 (split; [first [reflexivity | now constructor]|]).
    intros i j _. split; reflexivity.
  - cbn [direct_sum dy_forward] in H. destruct (sum_forward _ _ _ _ IH H) as (x1 & x2 & u1 & u2 & d1 & d2 & _ & _ & F1 & F2 & ->).
    destruct IH as (Q1 & Q2 & E1 & E2 & E3 & E4 & Z). repeat split; cbn.
    + eapply R1; eassumption.
    + eapply R1; eassumption.
    + now apply (proj1 (Z i j H0)).
    + now apply (proj2 (Z i j H0)).
  - cbn [direct_sum dy_dforward] in H. destruct (sum_dforward _ _ _ _ IH H) as (x1 & x2 & u1 & u2 & d1 & d2 & _ & _ & F1 & F2 & ->).
    destruct IH as (Q1 & Q2 & E1 & E2 & E3 & E4 & Z). unfold sum_ok. cbn.
    split; [eapply R2; eassumption|]. split; [eapply R2; eassumption|]. do 3 (split; [reflexivity|]). split; [exact E4|].
    now apply wr_at.
Qed.

Lemma passes_fst c dx : passes (product (dy_next f) (dy_next g)) c dx -> passes (dy_next f) (fun t => part (c t) 0 n1) dx.
Proof.
  intros H i Hi. specialize (H i ltac:(cbn; lia)). cbn [product sp_diff sp_nx sp_ndx] in H.
  eapply dl_ext; [|exact H]. intros t. cbv beta. rewrite (proj2 (Nat.ltb_lt i m1)) by auto.
  unfold segment. cbn [sv_at]. f_equal; symmetry.
  - change (part (part (c 0) 0 n1) 0 n1 = part (part (c 0) 0 (n1 + n2)) 0 n1). rewrite part_part, part_sub by lia. reflexivity.
  - change (part (part (c t) 0 n1) 0 n1 = part (part (c t) 0 (n1 + n2)) 0 n1). rewrite part_part, part_sub by lia. reflexivity.
Qed.
Lemma passes_snd c dx : passes (product (dy_next f) (dy_next g)) c dx ->
  passes (dy_next g) (fun t => part (c t) n1 n2) (fun i => dx (m1 + i)%nat).
Proof.
  intros H i Hi. specialize (H (m1 + i)%nat ltac:(cbn; lia)). cbn [product sp_diff sp_nx sp_ndx] in H.
  eapply dl_ext; [|exact H]. intros t. cbv beta. rewrite (proj2 (Nat.ltb_ge (m1 + i) m1)) by lia.
  unfold segment. cbn [sv_at]. replace (m1 + i - m1)%nat with i by lia. f_equal; symmetry.
  - change (part (part (c 0) n1 n2) 0 n2 = part (part (c 0) 0 (n1 + n2)) n1 n2). rewrite part_part2, part_sub by lia. reflexivity.
  - change (part (part (c t) n1 n2) 0 n2 = part (part (c t) 0 (n1 + n2)) n1 n2). rewrite part_part2, part_sub by lia. reflexivity.
Qed.

Lemma both_fst x u : part (both n1 w1 n2 w2 F G x u) 0 n1 = part (F (part x 0 n1) (part u 0 w1)) 0 n1.
Proof. apply part_ext. intros k Hk. unfold both. cbn [Nat.add]. now rewrite (proj2 (Nat.ltb_lt k n1)). Qed.
Lemma both_snd x u : part (both n1 w1 n2 w2 F G x u) n1 n2 = part (G (part x n1 n2) (part u w1 w2)) 0 n2.
Proof.
  apply part_ext. intros k Hk. unfold both. cbn [Nat.add]. rewrite (proj2 (Nat.ltb_ge (n1 + k) n1)) by lia. f_equal. lia.
Qed.

Lemma sum_computes : computes (direct_sum f g) (both n1 w1 n2 w2 F G).
Proof.
  split; [reflexivity|]. split.
  { destruct Hf as (_ & (d1 & C1) & _), Hg as (_ & (d2 & C2) & _). cbn. unfold ds_create. rewrite C1, C2. eexists. reflexivity. }
  split. { intros d H. apply sum_reach in H. destruct H as (_ & _ & ? & ? & ? & _). cbn. auto. }
  intros d Hd x u Hx Hu. apply sum_reach in Hd. pose proof Hd as Ok.
  cbn [direct_sum dy_space dy_next dy_nu dy_base dy_forward dy_dforward ds_space product sp_nx sp_ndx] in *.
  assert (HX : split2 (dy_next f) (dy_next g) x = Some (SVec n1 (part (sv_at x) 0 n1), SVec n2 (part (sv_at x) n1 n2))).
  { unfold split2. now rewrite Hx, Nat.eqb_refl. }
  assert (HU : ctrl2 f g u = Some (SVec w1 (part (sv_at u) 0 w1), SVec w2 (part (sv_at u) w1 w2))).
  { unfold ctrl2. rewrite Hu. rewrite (proj2 (Nat.leb_le w1 (w1 + w2))), (proj2 (Nat.leb_le w2 (w1 + w2))) by lia.
    replace (w1 + w2 - w2)%nat with w1 by lia. reflexivity. }
  destruct Ok as (Q1 & Q2 & E1 & E2 & E3 & E4 & Z).
  destruct Hf as (Sf & _ & Df & Rf), Hg as (Sg & _ & Dg & Rg).
  destruct (Rf _ Q1 (SVec n1 (part (sv_at x) 0 n1)) (SVec w1 (part (sv_at u) 0 w1))) as (a & FA & SA & a' & FA' & SA' & JA);
    [now rewrite Sf|reflexivity|].
  destruct (Rg _ Q2 (SVec n2 (part (sv_at x) n1 n2)) (SVec w2 (part (sv_at u) w1 w2))) as (b & FB & SB & b' & FB' & SB' & JB);
    [now rewrite Sg|reflexivity|].
  rewrite Sf in JA. rewrite Sg in JB.
  assert (FW : exists d', ds_forward f g x u d = Some d').
  { unfold ds_forward. rewrite HX, HU, FA, FB. cbv zeta. rewrite (proj1 SA), (proj1 SB), E4, !Nat.eqb_refl.
    rewrite (proj2 (Nat.leb_le n1 (n1 + n2))), (proj2 (Nat.leb_le n2 (n1 + n2))) by lia. eexists. reflexivity. }
  destruct FW as (d' & FW). exists d'. split; [exact FW|].
  pose proof (sum_forward _ _ _ _ Hd FW) as (x1 & x2 & u1 & u2 & d1 & d2 & HX' & HU' & F1 & F2 & D').
  rewrite HX in HX'. injection HX' as <- <-. rewrite HU in HU'. injection HU' as <- <-.
  rewrite FA in F1. injection F1 as <-. rewrite FB in F2. injection F2 as <-.
  assert (SH : sv_n (ed_xnext (ds_base d')) = (n1 + n2)%nat /\
    forall i, (i < n1 + n2)%nat -> sv_at (ed_xnext (ds_base d')) i = both n1 w1 n2 w2 F G (sv_at x) (sv_at u) i).
  { rewrite D'. cbn [ds_base ed_xnext sv_n sv_at]. split; [reflexivity|]. intros i Hi. unfold sset, both, in_seg.
    destruct (Nat.ltb_spec i n1) as [L|L].
    - rewrite (proj2 (Nat.leb_gt n1 i)) by auto. cbn [andb Nat.add Nat.leb]. rewrite (proj2 (Nat.ltb_lt i n1)) by auto.
      rewrite Nat.sub_0_r. apply (proj2 SA i L).
    - rewrite (proj2 (Nat.leb_le n1 i)), (proj2 (Nat.ltb_lt i (n1 + n2))) by auto. cbn [andb]. apply (proj2 SB). lia. }
  split; [exact SH|].
  assert (Ok' : sum_ok d').
  { rewrite D'. unfold sum_ok. cbn. split; [eapply R1; eassumption|]. split; [eapply R1; eassumption|]. do 4 (split; [reflexivity|]). exact Z. }
  destruct (sum_dforward_runs x u d' _ _ _ _ a' b' Ok' HX HU) as (d'' & FD).
  { rewrite D'. exact FA'. } { rewrite D'. exact FB'. }
  exists d''. split; [exact FD|].
  pose proof (sum_dforward _ _ _ _ Ok' FD) as (x1 & x2 & u1 & u2 & d1 & d2 & HX' & HU' & F1 & F2 & D'').
  rewrite HX in HX'. injection HX' as <- <-. rewrite HU in HU'. injection HU' as <- <-.
  assert (X1 : d1 = a') by (rewrite D' in F1; cbn [ds_1] in F1; congruence).
  assert (X2 : d2 = b') by (rewrite D' in F2; cbn [ds_2] in F2; congruence). subst d1 d2.
  split. { rewrite D''. exact SH. }
  intros c dx v dv Hc Hv C0 V0.
  assert (PA := JA (fun t => part (c t) 0 n1) dx (fun t => part (v t) 0 w1) dv (passes_fst c dx Hc)).
  assert (PB := JB (fun t => part (c t) n1 n2) (fun i => dx (m1 + i)%nat) (fun t => part (v t) w1 w2) (fun i => dv (w1 + i)%nat) (passes_snd c dx Hc)).
  cbv beta in PA, PB. cbn [sv_at] in PA, PB.
  assert (PA' := PA (fun i Hi => dl_ext (fun t => v t i) _ _ (fun t => eq_sym (partE (v t) 0 w1 i Hi)) (Hv i ltac:(lia))) (f_equal (fun z => part z 0 n1) C0) (f_equal (fun z => part z 0 w1) V0)).
  assert (PB' := PB (fun i Hi => dl_ext (fun t => v t (w1 + i)%nat) _ _ (fun t => eq_sym (partE (v t) w1 w2 i Hi)) (Hv (w1 + i)%nat ltac:(lia))) (f_equal (fun z => part z n1 n2) C0) (f_equal (fun z => part z w1 w2) V0)).
  clear PA PB JA JB.
  destruct (wr_at (ed_jac (ds_base d')) (ed_Jx (dy_base f a')) (ed_Jx (dy_base g b')) (ed_Ju (dy_base f a')) (ed_Ju (dy_base g b')))
    as (Z' & W1 & W2 & W3 & W4). { rewrite D'. exact Z. }
  set (J := wr _ _ _ _ _) in *.
  assert (EJ : ed_jac (ds_base d'') = J) by now rewrite D''.
  assert (EN : ed_ndx1 (ds_base d'') = (m1 + m2)%nat /\ ed_nu (ds_base d'') = (w1 + w2)%nat) by now rewrite D''.
  intros i Hi. unfold direct_sum, ds_space in *. cbn [dy_next sp_ndx sp_nx sp_diff product] in *.
  unfold mv, ed_Jx, ed_Ju. rewrite EJ, (proj1 EN), (proj2 EN).
  replace (m1 + m2 + (w1 + w2) - (w1 + w2))%nat with (m1 + m2)%nat by lia.
  destruct (Nat.ltb_spec i m1) as [L|L].
  - specialize (PA' i L). rewrite !rsum_app.
    rewrite (rsum_zero m2), (rsum_zero w2).
    + eapply dl_eq; [|eapply dl_ext; [|exact PA']].
      * cbv beta. unfold mv. rewrite !Rplus_0_r. f_equal; apply rsum_ext; intros j Hj; f_equal; symmetry; [now apply W1|now apply W3].
      * intros t. cbv beta. unfold segment. cbn [sv_at]. f_equal.
        -- change (part (F (part (c 0) 0 n1) (part (v 0) 0 w1)) 0 n1 = part (part (both n1 w1 n2 w2 F G (c 0) (v 0)) 0 (n1 + n2)) 0 n1).
           rewrite part_sub by lia. now rewrite both_fst.
        -- change (part (F (part (c t) 0 n1) (part (v t) 0 w1)) 0 n1 = part (part (both n1 w1 n2 w2 F G (c t) (v t)) 0 (n1 + n2)) 0 n1).
           rewrite part_sub by lia. now rewrite both_fst.
    + intros k Hk. rewrite (proj1 (Z' i (m1 + m2 + (w1 + k))%nat Hi)) by lia. ring.
    + intros k Hk. rewrite (proj1 (Z' i (m1 + k)%nat Hi)) by lia. ring.
  - specialize (PB' (i - m1)%nat ltac:(lia)). rewrite !rsum_app.
    rewrite (rsum_zero m1), (rsum_zero w1).
    + eapply dl_eq; [|eapply dl_ext; [|exact PB']].
      * cbv beta. unfold mv. rewrite !Rplus_0_l. f_equal; apply rsum_ext; intros j Hj; f_equal; symmetry.
        -- replace i with (m1 + (i - m1))%nat at 1 by lia. apply W2; lia.
        -- replace i with (m1 + (i - m1))%nat at 1 by lia. rewrite <- (W4 (i - m1)%nat j) by lia. f_equal; lia.
      * intros t. cbv beta. unfold segment. cbn [sv_at]. f_equal.
        -- change (part (G (part (c 0) n1 n2) (part (v 0) w1 w2)) 0 n2 = part (part (both n1 w1 n2 w2 F G (c 0) (v 0)) 0 (n1 + n2)) n1 n2).
           rewrite part_sub by lia. now rewrite both_snd.
        -- change (part (G (part (c t) n1 n2) (part (v t) w1 w2)) 0 n2 = part (part (both n1 w1 n2 w2 F G (c t) (v t)) 0 (n1 + n2)) n1 n2).
           rewrite part_sub by lia. now rewrite both_snd.
    + intros k Hk. rewrite (proj2 (Z' i (m1 + m2 + k)%nat Hi)) by lia. ring.
    + intros k Hk. rewrite (proj2 (Z' i k Hi)) by lia. ring.
Qed.
End SumProof.

(** the direct sum of two dynamics which compute F and G computes F and G side by side, and its
    Jacobians are block diagonal: the same holds of it, so sums nest *)
Theorem C59_sum : forall f g F G, computes f F -> computes g G ->
  computes (direct_sum f g) (both (sp_nx (dy_next f)) (dy_nu f) (sp_nx (dy_next g)) (dy_nu g) F G) /\
  sp_nx (dy_next (direct_sum f g)) = (sp_nx (dy_next f) + sp_nx (dy_next g))%nat /\
  sp_ndx (dy_next (direct_sum f g)) = (sp_ndx (dy_next f) + sp_ndx (dy_next g))%nat /\
  dy_nu (direct_sum f g) = (dy_nu f + dy_nu g)%nat.
Proof. intros f g F G Hf Hg. split; [now apply sum_computes|]. now repeat split. Qed.

(** the blocks between the two systems are zero in any data ever produced, whatever the points of
    the calls *)
Theorem C59_sum_blocks : forall f g F G, computes f F -> computes g G ->
  let m1 := sp_ndx (dy_next f) in let m2 := sp_ndx (dy_next g) in
  forall d, reach (direct_sum f g) d ->
  (forall i j, (i < m1)%nat -> (j < m2)%nat -> ed_Jx (ds_base d) i (m1 + j)%nat = 0 /\ ed_Jx (ds_base d) (m1 + j)%nat i = 0) /\
  (forall i j, (i < m1)%nat -> (j < dy_nu g)%nat -> ed_Ju (ds_base d) i (dy_nu f + j)%nat = 0) /\
  (forall i j, (i < m2)%nat -> (j < dy_nu f)%nat -> ed_Ju (ds_base d) (m1 + i)%nat j = 0).
Proof.
  intros f g F G Hf Hg m1 m2 d H. apply sum_reach in H.
  destruct H as (_ & _ & E1 & E2 & E3 & E4 & Z). unfold ed_Jx, ed_Ju. rewrite E1, E2. fold m1 m2. split; [|split].
  - intros i j Hi Hj. split; [apply (proj1 (Z i (m1 + j)%nat ltac:(fold m1 m2; lia))) | apply (proj2 (Z (m1 + j)%nat i ltac:(fold m1 m2; lia)))]; fold m1 m2; lia.
  - intros i j Hi Hj. apply (proj1 (Z i _ ltac:(fold m1 m2; lia))); fold m1 m2; lia.
  - intros i j Hi Hj. apply (proj2 (Z (m1 + i)%nat _ ltac:(fold m1 m2; lia))); fold m1 m2; lia.
Qed.

(** a state of the wrong size is rejected; a control which is too long is not: its head and its
    tail are used, and what is between them is ignored *)
Theorem C59_sum_sizes : forall f g x u (d : dsum f g),
  (sv_n x <> (sp_nx (dy_next f) + sp_nx (dy_next g))%nat -> ds_forward f g x u d = None /\ ds_dforward f g x u d = None) /\
  ((sv_n u < dy_nu f)%nat \/ (sv_n u < dy_nu g)%nat -> ds_forward f g x u d = None /\ ds_dforward f g x u d = None) /\
  forall u', sv_n u' = (dy_nu f + dy_nu g)%nat -> (dy_nu f + dy_nu g <= sv_n u)%nat ->
    (forall i, (i < dy_nu f)%nat -> sv_at u' i = sv_at u i) ->
    (forall i, (i < dy_nu g)%nat -> sv_at u' (dy_nu f + i)%nat = sv_at u (sv_n u - dy_nu g + i)%nat) ->
    ds_forward f g x u d = ds_forward f g x u' d /\ ds_dforward f g x u d = ds_dforward f g x u' d.
Proof.
  intros f g x u d. split; [|split].
  - intros H. unfold ds_forward, ds_dforward, split2. apply Nat.eqb_neq in H. rewrite H. split; reflexivity.
  - intros H. unfold ds_forward, ds_dforward, ctrl2.
    replace (Nat.leb (dy_nu f) (sv_n u) && Nat.leb (dy_nu g) (sv_n u)) with false
      by (symmetry; apply andb_false_iff; rewrite !Nat.leb_gt; lia).
    destruct (split2 _ _ x) as [[? ?]|]; split; reflexivity.
  - intros u' E L H1 H2.
    assert (C : ctrl2 f g u = ctrl2 f g u').
    { unfold ctrl2. rewrite E.
      rewrite (proj2 (Nat.leb_le _ (sv_n u))), (proj2 (Nat.leb_le _ (sv_n u))),
        (proj2 (Nat.leb_le _ (dy_nu f + dy_nu g))), (proj2 (Nat.leb_le _ (dy_nu f + dy_nu g))) by lia. cbn [andb].
      do 2 f_equal; unfold segment; f_equal; apply functional_extensionality; intros k.
      - destruct (Nat.ltb_spec k (dy_nu f)); [|reflexivity]. symmetry. now apply H1.
      - destruct (Nat.ltb_spec k (dy_nu g)); [|reflexivity]. rewrite <- H2 by auto. f_equal. lia. }
    unfold ds_forward, ds_dforward. now rewrite C.
Qed.

(** ** Examples *)
(** the motion x -> x^2 + u of the line, whose Jacobians change with the point *)
Definition square_dyn : dyn :=
  Dyn (vector_space 1) (vector_space 1) 1 edata (fun d => d) (Some (edata_make (vector_space 1) (vector_space 1) 1))
    (fun x u d => Some (EData (ed_ndx1 d) (ed_nu d) (ed_ndx2 d) (SVec 1 (fun _ => sv_at x 0%nat * sv_at x 0%nat + sv_at u 0%nat)) (ed_jac d)))
    (fun x u d => Some (EData (ed_ndx1 d) (ed_nu d) (ed_ndx2 d) (ed_xnext d)
                          (fun i j => match j with 0%nat => 2 * sv_at x 0%nat | _ => 1 end))).
(** the line in which differences are those of the cubes of the coordinates, and the motion x -> 2 x
    of it, of derivative 8 in its own measure *)
Definition cubic : space := Space 1 1 vzero (fun x y i => y i * y i * y i - x i * x i * x i).
Definition cubic_dyn : dyn :=
  Dyn cubic cubic 0 edata (fun d => d) (Some (edata_make cubic cubic 0))
    (fun x u d => Some (EData (ed_ndx1 d) (ed_nu d) (ed_ndx2 d) (SVec 1 (fun _ => 2 * sv_at x 0%nat)) (ed_jac d)))
    (fun x u d => Some (EData (ed_ndx1 d) (ed_nu d) (ed_ndx2 d) (ed_xnext d) (fun _ _ => 8))).
(** a double integrator with drift *)
Definition ex_lin : lin :=
  Lin 2 2 (fun i j => if Nat.leb i j then 1 else 0) 2 1 (fun i j => if Nat.eqb i 1 then 3 else 0) (SVec 2 (fun i => INR i)).

Lemma small_reach f : (forall x u d d', dy_forward f x u d = Some d' -> ed_ndx1 (dy_base f d') = ed_ndx1 (dy_base f d) /\ ed_nu (dy_base f d') = ed_nu (dy_base f d) /\ ed_ndx2 (dy_base f d') = ed_ndx2 (dy_base f d)) ->
  (forall x u d d', dy_dforward f x u d = Some d' -> ed_ndx1 (dy_base f d') = ed_ndx1 (dy_base f d) /\ ed_nu (dy_base f d') = ed_nu (dy_base f d) /\ ed_ndx2 (dy_base f d') = ed_ndx2 (dy_base f d)) ->
  forall a b c, (forall d, dy_create f = Some d -> ed_ndx1 (dy_base f d) = a /\ ed_nu (dy_base f d) = b /\ ed_ndx2 (dy_base f d) = c) ->
  forall d, reach f d -> ed_ndx1 (dy_base f d) = a /\ ed_nu (dy_base f d) = b /\ ed_ndx2 (dy_base f d) = c.
Proof.
  intros H1 H2 a b c H0 d H. induction H as [d H|x u d d' _ IH H|x u d d' _ IH H]; [now apply H0| |].
  - destruct (H1 _ _ _ _ H) as (-> & -> & ->). exact IH.
  - destruct (H2 _ _ _ _ H) as (-> & -> & ->). exact IH.
Qed.

Lemma square_computes : computes square_dyn (fun x u _ => x 0%nat * x 0%nat + u 0%nat).
Proof.
  split; [reflexivity|]. split; [now eexists|]. split.
  { apply small_reach; intros; match goal with H : _ = Some _ |- _ => injection H as <- end; cbn; auto. }
  intros d H x u Hx Hu.
  assert (D : ed_ndx1 d = 1%nat /\ ed_nu d = 1%nat /\ ed_ndx2 d = 1%nat).
  { revert d H. apply (small_reach square_dyn); intros; match goal with H : _ = Some _ |- _ => injection H as <- end; cbn; auto. }
  eexists. split; [reflexivity|]. split; [split; [reflexivity|intros i _; reflexivity]|].
  eexists. split; [reflexivity|]. split; [split; [reflexivity|intros i _; reflexivity]|].
  intros c dx v dv Hc Hv C0 V0 i Hi. cbn in Hi. assert (i = 0)%nat by lia. subst i.
  specialize (Hc 0%nat ltac:(cbn; lia)). specialize (Hv 0%nat ltac:(cbn; lia)). cbn in Hc, Hv |- *. rewrite (proj1 D), (proj1 (proj2 D)).
  cbv [mv rsum part Nat.ltb Nat.leb Nat.add Nat.sub] in Hc |- *.
  apply dl_sub. eapply dl_eq; [|apply dl_plus; [apply dl_mult|exact Hv]].
  2, 3: eapply dl_ext with (f := fun t => (c t 0%nat - c 0 0%nat) + c 0 0%nat); [intros t; ring|apply dl_plus; [exact Hc|apply dl_const]].
  cbv beta. rewrite <- C0. ring.
Qed.

Lemma cubic_computes : computes cubic_dyn (fun x u _ => 2 * x 0%nat).
Proof.
  split; [reflexivity|]. split; [now eexists|]. split.
  { apply small_reach; intros; match goal with H : _ = Some _ |- _ => injection H as <- end; cbn; auto. }
  intros d H x u Hx Hu.
  eexists. split; [reflexivity|]. split; [split; [reflexivity|intros i _; reflexivity]|].
  eexists. split; [reflexivity|]. split; [split; [reflexivity|intros i _; reflexivity]|].
  intros c dx v dv Hc Hv C0 V0 i Hi. cbn in Hi. assert (i = 0)%nat by lia. subst i.
  specialize (Hc 0%nat ltac:(cbn; lia)). cbn in Hc |- *.
  cbv [mv rsum part Nat.ltb Nat.leb Nat.add] in Hc |- *.
  eapply dl_eq; [|eapply dl_ext; [|apply (dl_scal 8); exact Hc]]; [cbv beta; ring|]. intros t. cbv beta. ring.
Qed.

(** three systems in one: the sum of a sum *)
Definition three_sum : dyn := direct_sum (direct_sum (linear_dynamics ex_lin) square_dyn) cubic_dyn.
Definition three_map : vec -> vec -> vec :=
  both 3 2 1 0 (both 2 1 1 1 (fun x u i => sv_at (l_c ex_lin) i + mv 2 (l_A ex_lin) x i + mv 1 (l_B ex_lin) u i)
                  (fun x u _ => x 0%nat * x 0%nat + u 0%nat))
    (fun x u _ => 2 * x 0%nat).
Example C59_three_example : computes three_sum three_map /\
  sp_nx (dy_next three_sum) = 4%nat /\ dy_nu three_sum = 2%nat /\
  map (three_map (fun i => INR (i + 1)) (fun i => INR (i + 1))) (0 :: 1 :: 2 :: 3 :: nil)%nat = (3 :: 6 :: 11 :: 8 :: nil)%list.
Proof.
  split; [|split; [reflexivity|split; [reflexivity|]]].
  - exact (proj1 (C59_sum _ _ _ _ (proj1 (C59_sum _ _ _ _ (C59_linear ex_lin eq_refl eq_refl eq_refl) square_computes)) cubic_computes)).
  - cbn [map]. cbv [three_map both part Nat.ltb Nat.leb Nat.sub Nat.add mv rsum ex_lin l_A l_B l_c sv_at Nat.eqb].
    rewrite ?S_INR. cbn [INR]. repeat f_equal; ring.
Qed.
Example C59_sizes_example :
  ~ (exists d, lin_create (Lin 2 3 mzero 2 1 mzero (SVec 2 vzero)) = Some d) /\
  (forall x u d, lin_forward (Lin 2 2 mzero 2 1 mzero (SVec 3 vzero)) x u d = None) /\
  forall d, ds_forward square_dyn square_dyn (SVec 2 vzero) (SVec 3 (fun i => INR i)) d = ds_forward square_dyn square_dyn (SVec 2 vzero) (SVec 2 (fun i => INR (2 * i))) d.
Proof.
  split; [|split].
  - rewrite (proj1 (C59_linear_sizes _)). cbn. intros [H _]. discriminate.
  - intros x u d. destruct (lin_forward _ x u d) as [d'|] eqn:E; [|reflexivity].
    destruct (proj1 (proj2 (C59_linear_sizes _) x u d) (ex_intro _ d' E)) as (_ & _ & H & _). discriminate.
  - intros d. apply C59_sum_sizes; cbn; try lia; intros i Hi; assert (i = 0)%nat by lia; subst i; reflexivity.
Qed.
