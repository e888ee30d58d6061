From Coq Require Import List Bool Arith Lia.
From Verif Require Import ContactModel.
Import ListNotations.

(** ** Specification: a list of entries, looked up by first occurrence. *)
Section Spec.
  Variables name pose : Type.
  Variable eqb : name -> name -> bool.
  Definition entry := (name * bool * pose)%type.
  Definition e_name (e : entry) := fst (fst e).
  Definition e_state (e : entry) := snd (fst e).
  Definition e_pose (e : entry) := snd e.
  Definition lookup (l : list entry) (n : name) : option entry :=
    find (fun e => eqb (e_name e) n) l.
  Fixpoint set_first (l : list entry) (n : name) (p : pose) : list entry :=
    match l with
    | [] => []
    | e :: r => if eqb (e_name e) n then (e_name e, e_state e, p) :: r
                else e :: set_first r n p
    end.
  (** [None]: outside the contract (removal of a position that does not
      exist in a non-empty map). *)
  Definition spec_step (l : list entry) (o : cop name pose) : option (list entry) :=
    match o with
    | Add _ _ n s p => Some (l ++ [(n, s, p)])
    | Remove _ _ i => if Nat.eqb (length l) 0 then Some l
                      else if Nat.ltb i (length l) then Some (firstn i l ++ skipn (S i) l)
                      else None
    | SetPose _ _ n p => Some (set_first l n p)
    end.
  Fixpoint spec_exec (l : list entry) (ops : list (cop name pose)) : option (list entry) :=
    match ops with
    | [] => Some l
    | o :: r => match spec_step l o with Some l' => spec_exec l' r | None => None end
    end.
End Spec.

Section Proofs.
  Variables name pose : Type.
  Variable eqb : name -> name -> bool.
  Notation entry := (entry name pose).

  (** the map represents the list of entries *)
  Definition reps (m : cmap name pose) (l : list entry) : Prop :=
    names m = map (e_name name pose) l /\ states m = map (e_state name pose) l /\
    poses m = map (e_pose name pose) l /\ size_ m = length l.

  Lemma erase_map {A B} (f : A -> B) l i : i < length l ->
    erase (map f l) i = Some (map f (firstn i l ++ skipn (S i) l)).
  Proof.
    intros H. unfold erase. rewrite map_length.
    destruct (Nat.ltb_spec i (length l)); [|lia].
    rewrite map_app, firstn_map, skipn_map. reflexivity.
  Qed.
  Lemma erase_none {A} (l : list A) i : length l <= i -> erase l i = None.
  Proof. intros. unfold erase. destruct (Nat.ltb_spec i (length l)); auto; lia. Qed.

  Lemma find_idx_spec l n :
    match find_idx name eqb (map (e_name name pose) l) n with
    | Some i => exists e, nth_error l i = Some e /\ lookup name pose eqb l n = Some e /\
        (forall p, set_first name pose eqb l n p =
           firstn i l ++ (e_name _ _ e, e_state _ _ e, p) :: skipn (S i) l)
    | None => lookup name pose eqb l n = None /\ forall p, set_first name pose eqb l n p = l
    end.
  Proof.
    induction l as [|e l IH]; simpl; auto.
    destruct (eqb (e_name name pose e) n) eqn:E; simpl; unfold lookup; simpl; rewrite ?E.
    - exists e. auto.
    - destruct (find_idx name eqb (map _ l) n) as [i|]; simpl.
      + destruct IH as (e' & A & B & C). exists e'. split; auto. split; auto.
        intros p. rewrite C. reflexivity.
      + destruct IH as [A B]. split; auto. intros p. now rewrite B.
  Qed.

  Lemma write_map (f : entry -> pose) l i e e' : nth_error l i = Some e ->
    write (map f l) i (f e') = Some (map f (firstn i l ++ e' :: skipn (S i) l)).
  Proof.
    revert i. induction l as [|x l IH]; intros [|i] H; simpl in *; try discriminate; auto.
    rewrite (IH i H). reflexivity.
  Qed.

  Lemma cstep_refines m l o : reps m l ->
    match spec_step name pose eqb l o with
    | Some l' => (exists m', cstep name pose eqb m o = Ok m' /\ reps m' l') \/
                 (cstep name pose eqb m o = Throw /\ l' = l)
    | None => cstep name pose eqb m o = UB
    end.
  Proof.
    intros (Hn & Hs & Hp & Hz). destruct o as [n s p|i|n p]; cbn [spec_step cstep].
    - left. eexists. split; [reflexivity|]. unfold reps, add_contact. simpl.
      rewrite Hn, Hs, Hp, Hz, !map_app, app_length. simpl. repeat split; auto; lia.
    - unfold remove_contact. rewrite Hz. destruct (Nat.eqb_spec (length l) 0); auto.
      rewrite Hn, Hs, Hp. destruct (Nat.ltb_spec i (length l)) as [L|L].
      + rewrite !erase_map by auto. left. eexists. split; [reflexivity|].
        unfold reps. cbn [names states poses size_]. repeat split; auto.
        rewrite app_length, firstn_length, skipn_length. lia.
      + rewrite !erase_none by (rewrite map_length; auto). reflexivity.
    - unfold set_pose. rewrite Hn. pose proof (find_idx_spec l n) as F.
      destruct (find_idx _ _ _ _) as [i|].
      + destruct F as (e & A & B & C). rewrite C. left.
        rewrite Hp. pose proof (write_map (e_pose name pose) l i e (e_name _ _ e, e_state _ _ e, p) A) as W.
        change (e_pose name pose (e_name _ _ e, e_state _ _ e, p)) with p in W. rewrite W.
        eexists. split; [reflexivity|]. unfold reps. simpl.
        assert (L : l = firstn i l ++ e :: skipn (S i) l).
        { clear -A. revert i A. induction l as [|x l IH]; intros [|i] A; simpl in *; try discriminate.
          - now inversion A.
          - f_equal. apply IH; auto. }
        repeat split.
        * rewrite L at 1. rewrite !map_app. reflexivity.
        * rewrite Hs. rewrite L at 1. rewrite !map_app. reflexivity.
        * rewrite Hz. rewrite L at 1. rewrite !app_length. reflexivity.
      + destruct F as [_ F]. rewrite F. right. auto.
  Qed.

  Lemma cexec_refines ops : forall m l, reps m l ->
    match spec_exec name pose eqb l ops with
    | Some l' => exists m', cexec name pose eqb m ops = Ok m' /\ reps m' l'
    | None => cexec name pose eqb m ops = UB
    end.
  Proof.
    induction ops as [|o ops IH]; intros m l H; simpl.
    - eauto.
    - pose proof (cstep_refines m l o H) as S. destruct (spec_step _ _ _ _ _) as [l'|].
      + destruct S as [(m' & -> & R)|(-> & ->)]; [apply IH; auto|apply IH; auto].
      + rewrite S. reflexivity.
  Qed.

  Lemma getters m l n : reps m l ->
    get_state name pose eqb m n =
      match lookup name pose eqb l n with Some e => Ok (e_state _ _ e) | None => Throw end /\
    get_pose name pose eqb m n =
      match lookup name pose eqb l n with Some e => Ok (e_pose _ _ e) | None => Throw end.
  Proof.
    intros (Hn & Hs & Hp & _). unfold get_state, get_pose. rewrite Hn.
    pose proof (find_idx_spec l n) as F. destruct (find_idx _ _ _ _) as [i|].
    - destruct F as (e & A & -> & _). unfold read. rewrite Hs, Hp.
      rewrite !(map_nth_error _ _ _ A). auto.
    - destruct F as [-> _]. auto.
  Qed.

  (** construction from lists of equal lengths *)
  Fixpoint zip3 (n : list name) (s : list bool) (p : list pose) : list entry :=
    match n, s, p with
    | x :: n', y :: s', z :: p' => (x, y, z) :: zip3 n' s' p'
    | _, _, _ => []
    end.
  Lemma construct_reps n s p : length n = length s -> length s = length p ->
    exists m, construct name pose n s p = Ok m /\ reps m (zip3 n s p).
  Proof.
    intros H1 H2. unfold construct. rewrite H2, Nat.eqb_refl. eexists. split; [reflexivity|].
    unfold reps. simpl. revert s p H1 H2.
    induction n as [|x n IH]; intros [|y s] [|z p] H1 H2; simpl in *; try discriminate; auto.
    destruct (IH s p) as (A & B & C & D); auto. rewrite <- A, <- B, <- C, <- D. auto.
  Qed.
End Proofs.
