(** Properties C01-C04 (constraint sets). *)
From Coq Require Import Reals List Lra Bool Arith.
From Verif Require Import CSetModel CSetSpec CSetProofs.
Import ListNotations.
Local Open Scope R_scope.

(** A nested product: (equality, (box, orthant)) on R^4. *)
Definition ex_set : cset :=
  SProd [SEq pp_default;
         SProd [SBox [0] [1] pp_default; SNeg pp_default] [1%nat; 2%nat] pp_default]
        [1%nat; 3%nat] pp_default.

(** C01: the projection is the unique closest point of the set, is idempotent,
    and fixes the points of the set. *)
Theorem C01_projection_closest_point : forall s n ks z out,
  layout s n = Some ks -> Forall is_set ks -> length z = n -> length out = n ->
  exists p, projection s z out = Some p /\ in_set ks p /\
    (forall y, in_set ks y -> dist2 z p <= dist2 z y) /\
    (forall y, in_set ks y -> dist2 z y <= dist2 z p -> y = p) /\
    (forall out', length out' = n -> projection s p out' = Some p) /\
    (in_set ks z -> p = z).
Proof. exact projection_closest_point. Qed.
Print Assumptions C01_projection_closest_point.

Example C01_witness :
  exists ks, layout ex_set 4 = Some ks /\ Forall is_set ks /\ length ks = 4%nat.
Proof.
  eexists; split; [reflexivity|]. split; [|reflexivity].
  repeat constructor; simpl; lra.
Qed.

(** The product constructor: succeeds exactly when there is one block size per component; the
    coordinates of the product are then those of the blocks one after the other. *)
Theorem C01_product : forall cs ns,
  (make_product cs ns = None <-> length cs <> length ns) /\
  (forall s, make_product cs ns = Some s ->
     forall kss, Forall2 (fun cn ks => layout (fst cn) (snd cn) = Some ks) (combine cs ns) kss ->
     layout s (fold_right plus 0%nat ns) = Some (concat kss)).
Proof.
  intros cs ns. unfold make_product. destruct (Nat.eqb_spec (length cs) (length ns)) as [E|E].
  - split; [split; [discriminate|contradiction]|]. intros s [= <-]. simpl.
    revert ns E. induction cs as [|c cs IH]; intros [|m ns] E kss H; simpl in E; try discriminate.
    + inversion H; subst. reflexivity.
    + simpl in H. inversion H as [|? ks ? kss' H1 H2]; subst. simpl in H1. simpl.
      rewrite (leb_correct m (m + _)) by apply Nat.le_add_r. rewrite H1.
      rewrite (Nat.add_comm m), Nat.add_sub. rewrite (IH ns (eq_add_S _ _ E) kss' H2). reflexivity.
  - split; [split; [intros _; exact E|reflexivity]|]. discriminate.
Qed.
Print Assumptions C01_product.

Example C01_product_witness :
  exists s, make_product [SEq pp_default; SBox [0; 1] [2; 3] pp_default] [3%nat; 2%nat] = Some s /\
  layout s 5 = Some [KEq; KEq; KEq; KBox 0 2; KBox 1 3].
Proof. eexists. split; reflexivity. Qed.

(** C02: every vector splits into its projection and its normal-cone
    projection, and for sets the second part is in the normal cone at the
    first. *)
Theorem C02_projection_splits : forall s n ks z out out',
  layout s n = Some ks -> covered ks -> length z = n ->
  length out = n -> length out' = n ->
  exists p w, projection s z out = Some p /\
    normal_cone_projection s z out' = Some w /\ vadd p w = z /\
    (Forall is_set ks -> forall y, in_set ks y ->
       fold_right Rplus 0 (zip_with (fun wi d => wi * d) w (zip_with Rminus y p)) <= 0).
Proof. exact projection_splits. Qed.
Print Assumptions C02_projection_splits.

Example C02_witness :
  exists ks, layout (SProd [SL1 (PP 2 None); ex_set] [2%nat; 4%nat] pp_default) 6 = Some ks
    /\ covered ks.
Proof. eexists; split; [reflexivity|]. repeat constructor; discriminate. Qed.

(** C03: the row-cleared Jacobians are the exact derivative of the two maps
    composed with any linear map, at every point off the kinks. *)
Theorem C03_jacobians_exact : forall s n ks z J out,
  layout s n = Some ks -> Forall prox_valid ks -> Forall2 off_kink ks z ->
  length z = n -> length J = n -> length out = n ->
  exists Jp Jn eps p w,
    apply_projection_jacobian s z J = Some Jp /\
    apply_normal_cone_jacobian s z J = Some Jn /\
    projection s z out = Some p /\ normal_cone_projection s z out = Some w /\
    0 < eps /\
    forall e, Forall (fun x => Rabs x < eps) (mvmul J e) ->
      projection s (vadd z (mvmul J e)) out = Some (vadd p (mvmul Jp e)) /\
      normal_cone_projection s (vadd z (mvmul J e)) out = Some (vadd w (mvmul Jn e)).
Proof. exact jacobians_exact. Qed.
Print Assumptions C03_jacobians_exact.

Theorem C03_active_set : forall s n ks z out out',
  layout s n = Some ks -> Forall (fun k => prox_valid k /\ k <> KFree) ks ->
  length z = n -> length out = n -> length out' = n ->
  exists act w, active_set s z out = Some act /\
    normal_cone_projection s z out' = Some w /\ length act = n /\
    forall i, (i < n)%nat ->
      match nth i ks KFree with
      | KEq => nth i act false = true
      | KNeg | KBox _ _ => nth i act false = true <-> nth i w 0 <> 0
      | KL1 mu => nth i act false = true <-> nth i w 0 = nth i z 0
      | KFree => False
      end.
Proof. exact active_iff. Qed.
Print Assumptions C03_active_set.

Example C03_witness :
  exists ks, layout ex_set 4 = Some ks /\ Forall prox_valid ks /\
    Forall (fun k => prox_valid k /\ k <> KFree) ks /\
    Forall2 off_kink ks [3; 2; -1; 5].
Proof.
  eexists; split; [reflexivity|]. split; [|split].
  - repeat constructor; simpl; lra.
  - repeat constructor; simpl; try lra; discriminate.
  - repeat constructor; simpl; lra.
Qed.

(** C04: proximal optimality and Moreau envelope, for an object on which [setProxParameter] was
    called, when every L1 penalty in it uses the parameter of the object. *)
Theorem C04_prox_optimal : forall s0 n ks mu z out,
  let s := set_prox_parameter mu s0 in
  0 < mu -> layout s n = Some ks -> Forall (prox_ok mu) ks ->
  length z = n -> length out = n ->
  exists p w e, projection s z out = Some p /\
    compute_moreau s z out = Some (w, e) /\
    in_set ks p /\ e = penalty ks p + dist2 p z / (2 * mu) /\
    (forall y, in_set ks y -> e <= penalty ks y + dist2 y z / (2 * mu)) /\
    (forall y, in_set ks y -> penalty ks y + dist2 y z / (2 * mu) <= e ->
       dist2 y p = 0).
Proof.
  intros s0 n ks mu z out s Hm Hl Hp. apply prox_optimal; auto. destruct s0; reflexivity.
Qed.
Print Assumptions C04_prox_optimal.

(** The parameter reaches an L1 penalty on which it is set: the governing scalar penalty is the
    one with that parameter, whatever was set before; the sets are not changed. *)
Theorem C04_set_parameter : forall mu s n,
  (forall p, s = SL1 p -> layout (set_prox_parameter mu s) n = Some (repeat (KL1 mu) n)) /\
  ((forall p, s <> SL1 p) -> layout (set_prox_parameter mu s) n = layout s n).
Proof.
  intros mu s n. split.
  - intros p ->. reflexivity.
  - intros H. destruct s; try reflexivity. exfalso. eapply H. reflexivity.
Qed.
Print Assumptions C04_set_parameter.

Example C04_witness :
  let s := set_prox_parameter 2 (SL1 (PP 7 None)) in
  exists ks, layout s 3 = Some ks /\ Forall (prox_ok 2) ks.
Proof. eexists; split; [reflexivity|]. repeat constructor. Qed.

(** C04, finding: [setProxParameter] called on a product does not reach its
    components (the method is not virtual), so an L1 penalty inside a product
    is inert: the "prox" is not a minimiser. *)
Theorem C04_product_prox_parameter_refuted : forall mu, 0 < mu ->
  let s := set_prox_parameter mu (SProd [SL1 pp_default] [1%nat] pp_default) in
  exists p, projection s [1] [0] = Some p /\
    ~ (forall y, length y = 1%nat ->
         norm1 p + dist2 p [1] / (2 * mu) <= norm1 y + dist2 y [1] / (2 * mu)).
Proof. exact product_l1_inert. Qed.
Print Assumptions C04_product_prox_parameter_refuted.
