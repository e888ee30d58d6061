(** C37: the cost stack. *)
From Coq Require Import QArith List Bool Arith Lia Permutation.
From Verif Require Import CostStackModel.
Import ListNotations.
Open Scope nat_scope.

Lemma key_eqb_eq a b : key_eqb a b = true <-> a = b.
Proof.
  destruct a, b; simpl; rewrite ?Nat.eqb_eq; split; intros E; try discriminate;
    congruence.
Qed.

Lemma key_eqb_refl a : key_eqb a a = true.
Proof. now apply key_eqb_eq. Qed.

Lemma find_None k m : find k m = None <-> ~ In k (map fst m).
Proof.
  induction m as [|[k' i] m IH]; simpl; [easy|].
  destruct (key_eqb k k') eqn:E.
  - apply key_eqb_eq in E. subst. split; [discriminate|]. intros H. exfalso.
    apply H. now left.
  - rewrite IH. split.
    + intros H [->|F]; [|contradiction]. rewrite key_eqb_refl in E. discriminate.
    + intros H F. apply H. now right.
Qed.

(** Specification: the weighted sum over a list of items. *)
Definition weighted (f : comp -> Q) (l : cmap) : Q :=
  fold_right (fun e s => (snd (snd e) * f (fst (snd e)) + s)%Q) 0%Q l.

Lemma accumulate_spec f l d : (forall e, In e l -> In (fst e) d) ->
  forall a, exists r, fold_left (fun acc e =>
    match acc with
    | Ok a => if existsb (key_eqb (fst e)) d
              then Ok (a + snd (snd e) * f (fst (snd e)))%Q else UB
    | r => r
    end) l (Ok a) = Ok r /\ (r == a + weighted f l)%Q.
Proof.
  induction l as [|e l IH]; intros Hd a; simpl.
  - exists a. split; auto. ring.
  - assert (E : existsb (key_eqb (fst e)) d = true).
    { apply existsb_exists. exists (fst e). split; [apply Hd; now left|].
      apply key_eqb_refl. }
    rewrite E. destruct (IH (fun e' H => Hd e' (or_intror H))
      (a + snd (snd e) * f (fst (snd e)))%Q) as (r & F & G).
    exists r. split; auto. rewrite G. ring.
Qed.

Lemma weighted_perm f l l' : Permutation l l' -> (weighted f l == weighted f l')%Q.
Proof.
  induction 1; simpl.
  - reflexivity.
  - now rewrite IHPermutation.
  - ring.
  - now rewrite IHPermutation1.
Qed.

(** C37, sums: with data created from the stack, in every iteration order of the
    map, value, gradient and Hessian are the weighted sums over the components
    stored. *)
Theorem C37_sum : forall s order, Permutation order (components s) ->
  let d := createData s in
  (exists v, evaluate order d = Ok v /\ (v == weighted c_val (components s))%Q) /\
  (forall i, exists v, gradient i order d = Ok v /\
     (v == weighted (fun c => c_grad c i) (components s))%Q) /\
  (forall i j, exists v, hessian i j order d = Ok v /\
     (v == weighted (fun c => c_hess c i j) (components s))%Q).
Proof.
  intros s order P d.
  assert (G : forall f, exists v, accumulate f order d = Ok v /\
     (v == weighted f (components s))%Q).
  { intros f. destruct (accumulate_spec f order d) with (a := 0%Q) as (r & E & F).
    - intros e H. unfold d, createData. apply in_map.
      now apply (Permutation_in _ P).
    - exists r. split; [exact E|]. rewrite F, (weighted_perm f _ _ P). ring. }
  repeat split; intros; apply G.
Qed.

(** Operations of the interface. *)
Inductive op := Add (c : comp) (w : Q) | AddKey (k : key) (c : comp) (w : Q)
  | SetWeight (k : key) (w : Q) | Scale (u : Q).
Definition apply (s : stack) (o : op) : res stack :=
  match o with
  | Add c w => match addCost s c w with Ok (s', _) => Ok s' | Throw => Throw | UB => UB end
  | AddKey k c w =>
      match addCostKey s k c w with Ok (s', _) => Ok s' | Throw => Throw | UB => UB end
  | SetWeight k w => setWeight s k w
  | Scale u => Ok (scale u s)
  end.
Fixpoint run (s : stack) (l : list op) : res stack :=
  match l with
  | [] => Ok s
  | o :: t => match apply s o with Ok s' => run s' t | Throw => Throw | UB => UB end
  end.

Lemma find_app_new k i m : find k m = None -> find k (m ++ [(k, i)]) = Some i.
Proof.
  induction m as [|[k' i'] m IH]; simpl; [now rewrite key_eqb_refl|].
  destruct (key_eqb k k'); auto. discriminate.
Qed.

(** Adding a component, exactly: a wrong dimension raises; a new key is added
    with its cost and weight; a key already present leaves the stack as it is,
    and the item returned is the old one. *)
Definition same_dims (s : stack) (c : comp) : Prop :=
  c_nx c = st_nx s /\ c_ndx c = st_ndx s /\ c_nu c = st_nu s.
Lemma checkDimension_iff s c : checkDimension s c = true <-> same_dims s c.
Proof. unfold checkDimension, same_dims. rewrite !andb_true_iff, !Nat.eqb_eq. tauto. Qed.
Lemma add_cases : forall s k c w,
  (checkDimension s c = false -> addCostKey s k c w = Throw) /\
  (checkDimension s c = true -> find k (components s) = None ->
     addCostKey s k c w = Ok (with_components s (components s ++ [(k, (c, w))]), (c, w))) /\
  (checkDimension s c = true -> forall i, find k (components s) = Some i ->
     addCostKey s k c w = Ok (s, i)).
Proof.
  intros s k c w. unfold addCostKey. repeat split.
  - intros ->. reflexivity.
  - intros -> F. simpl. unfold emplace. rewrite F, find_app_new; auto.
  - intros -> i F. simpl. unfold emplace. rewrite F, F. now destruct s.
Qed.
Theorem C37_add : forall s k c w,
  (~ same_dims s c -> addCostKey s k c w = Throw) /\
  (same_dims s c -> find k (components s) = None ->
     addCostKey s k c w = Ok (with_components s (components s ++ [(k, (c, w))]), (c, w))) /\
  (same_dims s c -> forall i, find k (components s) = Some i ->
     addCostKey s k c w = Ok (s, i)).
Proof.
  intros s k c w. rewrite <- checkDimension_iff, not_true_iff_false. apply add_cases.
Qed.

(** Keys stay distinct through any sequence of operations. *)
Definition distinct (s : stack) : Prop := NoDup (map fst (components s)).

Lemma update_keys k w m : map fst (update k w m) = map fst m.
Proof.
  induction m as [|[k' [c w']] m IH]; simpl; auto.
  destruct (key_eqb k k'); simpl; auto. now rewrite IH.
Qed.

Lemma apply_distinct s o s' : distinct s -> apply s o = Ok s' -> distinct s'.
Proof.
  intros D. assert (A : forall k c w s' i, addCostKey s k c w = Ok (s', i) -> distinct s').
  { intros k c w s1 i E. destruct (add_cases s k c w) as (A & B & C).
    destruct (checkDimension s c); [|rewrite A in E by auto; discriminate].
    destruct (find k (components s)) as [j|] eqn:F.
    - rewrite (C eq_refl j eq_refl) in E. injection E as <- _. exact D.
    - rewrite B in E by auto. injection E as <- _. unfold distinct. simpl.
      rewrite map_app. simpl. apply find_None in F.
      apply (Permutation_NoDup (l := k :: map fst (components s))).
      + apply Permutation_cons_append.
      + now constructor. }
  destruct o as [c w|k c w|k w|u]; simpl.
  - unfold addCost. destruct (addCostKey _ _ _ _) as [[s1 i]| |] eqn:E; try discriminate.
    intros F. injection F as <-. eapply A; eauto.
  - destruct (addCostKey _ _ _ _) as [[s1 i]| |] eqn:E; try discriminate.
    intros F. injection F as <-. eapply A; eauto.
  - unfold setWeight. destruct (find k (components s)); try discriminate.
    intros F. injection F as <-. unfold distinct. simpl. now rewrite update_keys.
  - intros F. injection F as <-. unfold distinct. simpl. now rewrite map_map.
Qed.

Theorem C37_distinct : forall l s s', distinct s -> run s l = Ok s' -> distinct s'.
Proof.
  induction l as [|o l IH]; intros s s' D E; simpl in E.
  - injection E as <-. exact D.
  - destruct (apply s o) as [s1| |] eqn:F; try discriminate.
    eapply IH; [|exact E]. eapply apply_distinct; eauto.
Qed.

(** setWeight and scaling change exactly the weights announced. *)
Theorem C37_weights : forall s, distinct s ->
  (forall k w f c w', find k (components s) = Some (c, w') ->
     exists s', setWeight s k w = Ok s' /\
       length (components s') = length (components s) /\
       (weighted f (components s') == weighted f (components s) + (w - w') * f c)%Q) /\
  (forall k w, find k (components s) = None -> setWeight s k w = Throw) /\
  (forall u f, (weighted f (components (scale u s)) == u * weighted f (components s))%Q).
Proof.
  intros s D. repeat split.
  - intros k w f c w' F. unfold setWeight. rewrite F. eexists. split; [reflexivity|].
    simpl. split.
    + rewrite <- (map_length fst (update k w _)), update_keys. now rewrite map_length.
    + clear D. induction (components s) as [|[k' [c1 w1]] m IH]; simpl in *; [discriminate|].
      destruct (key_eqb k k').
      * injection F as -> ->. simpl. ring.
      * simpl. rewrite (IH F). ring.
  - intros k w F. unfold setWeight. now rewrite F.
  - intros u f. unfold scale. simpl. induction (components s) as [|e m IH]; simpl.
    + ring.
    + rewrite IH. ring.
Qed.

(** C37, count: if components are only ever added without a key, every addition
    adds one component or raises. *)
Definition auto_keys (s : stack) : Prop :=
  map fst (components s) = map KNum (seq 0 (length (components s))).

Definition unkeyed (o : op) : Prop := match o with AddKey _ _ _ => False | _ => True end.

Lemma auto_fresh s : auto_keys s ->
  find (KNum (length (components s))) (components s) = None.
Proof.
  intros A. apply find_None. rewrite A. intros F. apply in_map_iff in F.
  destruct F as (n & E & F). injection E as ->. apply in_seq in F. lia.
Qed.

Lemma auto_apply s o s' : auto_keys s -> unkeyed o -> apply s o = Ok s' -> auto_keys s'.
Proof.
  intros A U. destruct o as [c w|k c w|k w|u]; simpl in *; try contradiction.
  - unfold addCost. destruct (add_cases s (KNum (length (components s))) c w) as (B & C & _).
    destruct (checkDimension s c); [|rewrite B by auto; discriminate].
    rewrite C by (auto using auto_fresh). intros F. injection F as <-.
    unfold auto_keys in *. simpl. rewrite map_app, A, app_length. simpl.
    now rewrite Nat.add_1_r, seq_S, map_app.
  - unfold setWeight. destruct (find k (components s)); [|discriminate].
    intros F. injection F as <-. unfold auto_keys in *. simpl.
    assert (L : length (update k w (components s)) = length (components s)).
    { rewrite <- (map_length fst), update_keys. apply map_length. }
    now rewrite update_keys, L.
  - intros F. injection F as <-. unfold auto_keys in *. simpl.
    rewrite map_map, map_length. exact A.
Qed.

Theorem C37_count_partial : forall l s s', auto_keys s -> Forall unkeyed l ->
  run s l = Ok s' ->
  auto_keys s' /\
  length (components s') = length (components s) +
    length (filter (fun o => match o with Add _ _ => true | _ => false end) l).
Proof.
  induction l as [|o l IH]; intros s s' A U E; simpl in E.
  - injection E as <-. split; [assumption|simpl; lia].
  - inversion U as [|? ? Uo Ul]; subst.
    destruct (apply s o) as [s1| |] eqn:F; try discriminate.
    assert (A1 := auto_apply s o s1 A Uo F).
    destruct (IH s1 s' A1 Ul E) as [A' L]. split; auto. rewrite L.
    destruct o as [c w|k c w|k w|u]; simpl in *; try contradiction.
    + unfold addCost in F.
      destruct (add_cases s (KNum (length (components s))) c w) as (B & C & _).
      destruct (checkDimension s c); [|rewrite B in F by auto; discriminate].
      rewrite C in F by (auto using auto_fresh). injection F as <-. simpl.
      rewrite app_length. simpl. lia.
    + unfold setWeight in F. destruct (find k (components s)); [|discriminate].
      injection F as <-. simpl. f_equal.
      rewrite <- (map_length fst), update_keys. apply map_length.
    + injection F as <-. simpl. now rewrite map_length.
Qed.

(** The constructor from vectors keeps all components and weights. *)
Lemma make_fold l : forall k m, (forall n, k <= n -> find (KNum n) m = None) ->
  fold_left (fun m e => emplace (KNum (fst e)) (snd e) m) (enumerate k l) m =
  m ++ map (fun e => (KNum (fst e), snd e)) (enumerate k l).
Proof.
  induction l as [|a l IH]; intros k m H; simpl; [now rewrite app_nil_r|].
  unfold emplace at 2. rewrite (H k (le_n k)). rewrite IH.
  - now rewrite <- app_assoc.
  - intros n Hn. apply find_None. rewrite map_app. intros F.
    apply in_app_or in F. destruct F as [F|[F|[]]].
    + revert F. apply find_None. apply H. lia.
    + simpl in F. injection F as F. lia.
Qed.

Theorem C37_make : forall nx ndx nu comps weights s,
  make nx ndx nu comps weights = Ok s ->
  length comps = length weights /\ auto_keys s /\
  map snd (components s) = combine comps weights.
Proof.
  intros nx ndx nu comps weights s. unfold make.
  destruct (length comps =? length weights) eqn:E; [|discriminate].
  destruct (forallb _ comps); [|discriminate]. simpl. intros F. injection F as <-.
  apply Nat.eqb_eq in E. split; auto. unfold auto_keys. simpl.
  rewrite make_fold by reflexivity. simpl. rewrite !map_map, !map_length.
  assert (G : forall (l : list item) k, map (fun e => KNum (fst e)) (enumerate k l) =
     map KNum (seq k (length (enumerate k l))) /\
     map (fun e => snd e) (enumerate k l) = l).
  { induction l as [|a l IH]; intros k; simpl; [now split|].
    destruct (IH (S k)) as [P Q]. now rewrite P, Q. }
  split; apply G.
Qed.

(** Refuted in general: mixing numeric keys and automatic ones, an addition is
    dropped without any error: the second component below never enters the sum. *)
Definition ex_comp (v : Q) : comp :=
  {| c_nx := 1; c_ndx := 1; c_nu := 1; c_val := v; c_grad := fun _ => v;
     c_hess := fun _ _ => v |}.
Definition ex_stack : stack :=
  {| st_nx := 1; st_ndx := 1; st_nu := 1; components := [] |}.

Theorem C37_count_refuted :
  exists s, run ex_stack [AddKey (KNum 1) (ex_comp 5) 1; Add (ex_comp 7) 1] = Ok s /\
    length (components s) = 1 /\
    exists v, evaluate (components s) (createData s) = Ok v /\ (v == 5)%Q.
Proof.
  eexists. split; [reflexivity|]. split; [reflexivity|].
  eexists. split; [reflexivity|]. reflexivity.
Qed.

(** Refuted: data created before an addition makes evaluation dereference a null
    pointer. *)
Theorem C37_stale_data_refuted : forall s k c w s' i order,
  checkDimension s c = true -> find k (components s) = None ->
  addCostKey s k c w = Ok (s', i) -> Permutation order (components s') ->
  evaluate order (createData s) = UB.
Proof.
  intros s k c w s' i order Hd F E P. destruct (add_cases s k c w) as (_ & B & _).
  rewrite B in E by auto. injection E as <- _.
  assert (I : In (k, (c, w)) order).
  { apply (Permutation_in _ (Permutation_sym P)). simpl. apply in_or_app. right. now left. }
  assert (N : existsb (key_eqb k) (createData s) = false).
  { destruct (existsb _ _) eqn:E; auto. apply existsb_exists in E.
    destruct E as (k' & H & E). apply key_eqb_eq in E. subst k'.
    apply find_None in F. contradiction. }
  unfold evaluate, accumulate. clear P. generalize 0%Q.
  induction order as [|e l IH]; [easy|]. intros q. simpl.
  assert (U : forall l, fold_left (fun acc e =>
    match acc with
    | Ok a => if existsb (key_eqb (fst e)) (createData s)
              then Ok (a + snd (snd e) * c_val (fst (snd e)))%Q else UB
    | r => r
    end) l UB = UB).
  { induction l0; simpl; auto. }
  destruct I as [->|I].
  - simpl. rewrite N. apply U.
  - match goal with |- context [if ?b then _ else _] => destruct b end; [now apply IH|apply U].
Qed.

Example C37_example :
  exists s, run ex_stack [Add (ex_comp 5) 2; AddKey (KStr 0) (ex_comp 1) 1;
                          Add (ex_comp 7) 1; SetWeight (KNum 0) 3; Scale 2] = Ok s /\
    length (components s) = 3 /\
    exists v, evaluate (rev (components s)) (createData s) = Ok v /\ (v == 46)%Q.
Proof.
  eexists. split; [reflexivity|]. split; [reflexivity|].
  eexists. split; [reflexivity|]. reflexivity.
Qed.

Example C37_make_example :
  exists s, make 1 1 1 [ex_comp 5; ex_comp 7] [2%Q; 3%Q] = Ok s /\ auto_keys s.
Proof. eexists. split; [reflexivity|reflexivity]. Qed.

Print Assumptions C37_sum.
Print Assumptions C37_add.
Print Assumptions C37_distinct.
Print Assumptions C37_weights.
Print Assumptions C37_count_partial.
Print Assumptions C37_make.
Print Assumptions C37_count_refuted.
Print Assumptions C37_stale_data_refuted.
