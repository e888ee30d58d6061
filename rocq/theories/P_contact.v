(** Property C47 (contact map). *)
From Coq Require Import List Bool Arith Lia.
From Verif Require Import ContactModel ContactProofs.
Import ListNotations.

(** C47a: starting from a map built from lists of equal lengths, any sequence
    of operations within the contract behaves as on a list of entries; a
    removal at a position that does not exist in a non-empty map is undefined
    behaviour. *)
Theorem C47_refines_association_list :
  forall (name pose : Type) (eqb : name -> name -> bool) n s p ops,
  length n = length s -> length s = length p ->
  exists m, construct name pose n s p = Ok m /\
  match spec_exec name pose eqb (zip3 name pose n s p) ops with
  | Some l => exists m', cexec name pose eqb m ops = Ok m' /\
      (length (names m') = size_ m' /\ length (states m') = size_ m' /\ length (poses m') = size_ m') /\
      size_ m' = length l /\
      forall q,
        get_state name pose eqb m' q =
          match lookup name pose eqb l q with Some e => Ok (e_state _ _ e) | None => Throw end /\
        get_pose name pose eqb m' q =
          match lookup name pose eqb l q with Some e => Ok (e_pose _ _ e) | None => Throw end
  | None => cexec name pose eqb m ops = UB
  end.
Proof.
  intros name pose eqb n s p ops H1 H2.
  destruct (construct_reps name pose n s p H1 H2) as (m & C & R).
  exists m. split; auto. pose proof (cexec_refines name pose eqb ops m _ R) as E.
  destruct (spec_exec _ _ _ _ _) as [l|]; auto.
  destruct E as (m' & E & R'). exists m'. split; auto.
  pose proof R' as (A & B & D & F). rewrite A, B, D, F, !map_length.
  split; auto. split; auto. intros q. apply getters; auto.
Qed.
Print Assumptions C47_refines_association_list.

(** C47b: what a lookup sees after setting a pose: the new pose for that name,
    nothing else changes. *)
Theorem C47_last_set_wins :
  forall (name pose : Type) (eqb : name -> name -> bool),
  (forall x y, eqb x y = true <-> x = y) ->
  forall l n q p,
  lookup name pose eqb (set_first name pose eqb l n p) q =
    match lookup name pose eqb l q with
    | Some e => Some (if eqb n q then (e_name _ _ e, e_state _ _ e, p) else e)
    | None => None
    end.
Proof.
  intros name pose eqb Heq l n q p. induction l as [|e l IH]; simpl; auto.
  unfold lookup in *. simpl.
  destruct (eqb (e_name name pose e) n) eqn:E; simpl.
  - unfold e_name at 1. simpl. change (fst (fst e)) with (e_name name pose e).
    apply Heq in E. destruct (eqb (e_name name pose e) q) eqn:E2.
    + rewrite <- E, E2. reflexivity.
    + destruct (find _ l) as [e'|] eqn:Ef; auto.
      assert (eqb n q = false) as -> by (rewrite <- E; auto). reflexivity.
  - destruct (eqb (e_name name pose e) q) eqn:E2; auto.
    assert (eqb n q = false) as ->; auto.
    destruct (eqb n q) eqn:E3; auto. apply Heq in E2, E3. subst.
    assert (eqb (e_name name pose e) (e_name name pose e) = true) by (apply Heq; auto). congruence.
Qed.
Print Assumptions C47_last_set_wins.

Example C47_witness :
  let e := Nat.eqb in
  let ops := [Add nat nat 3 true 30; SetPose nat nat 1 11; Remove nat nat 0; SetPose nat nat 9 0] in
  spec_exec nat nat e (zip3 nat nat [2; 1] [false; true] [20; 10]) ops = Some [(1, true, 11); (3, true, 30)].
Proof. reflexivity. Qed.

(** C47, finding: the constructor does not compare the number of names with
    the number of states; a lookup may then read out of bounds. *)
Theorem C47_constructor_refuted : exists m,
  construct nat nat [1; 2] [true] [10] = Ok m /\ get_state nat nat Nat.eqb m 2 = UB /\
  get_pose nat nat Nat.eqb m 2 = UB.
Proof. eexists. split; [reflexivity|]. split; reflexivity. Qed.
Print Assumptions C47_constructor_refuted.

(** C47, finding: removal beyond the end is undefined behaviour rather than an
    error. *)
Theorem C47_remove_refuted : exists m,
  construct nat nat [1] [true] [10] = Ok m /\ remove_contact nat nat m 5 = UB.
Proof. eexists. split; reflexivity. Qed.
Print Assumptions C47_remove_refuted.
