(** C67: the table printed by the solvers. *)
From Coq Require Import List String Bool Arith Lia.
Import ListNotations.
From Verif Require Import LoggerModel.
Open Scope string_scope.
Open Scope list_scope.

Section P.
Variable V : Type.
Variable bucket : string -> nat.
Notation exec := (LoggerModel.exec (V := V) bucket).

(** ** What should be printed *)
Definition col := (string * format * nat)%type.
Definition name (c : col) : string := fst (fst c).
Definition fmt (c : col) : format := snd (fst c).
Definition width (c : col) : nat := snd c.
Definition title (c : col) : string * nat := (name c, width c).

(** the last entry of each name *)
Definition entries := string -> option (value V).
Definition upd (e : entries) (x : string) (v : value V) : entries :=
  fun y => if String.eqb y x then Some v else e y.
Definition shown_cell (e : entries) (c : col) : cell V :=
  match e (name c) with Some v => Cell (fmt c) (width c) v | None => Blank end.
Fixpoint shown (cols : list col) (e : entries) (act : bool) (l : list (op V)) : list (output V) :=
  match l with
  | [] => []
  | Headline :: l' => (if act then [Head (List.map title cols)] else []) ++ shown cols e act l'
  | Log :: l' => (if act then [Row (List.map (shown_cell e) cols)] else []) ++ shown cols e act l'
  | Finish c :: l' => (if act then [End c] else []) ++ shown cols e act l'
  | AddEntry x v :: l' => shown cols (upd e x v) act l'
  | Active a :: l' => shown cols e a l'
  | AddColumn _ _ _ :: l' => shown cols e act l'
  end.
(** the entries go to columns and have the type of the column; what is logged has an entry
    in each column *)
Definition fits (f : format) (v : value V) : bool :=
  match f, v with FInt, VInt _ | FSci, VReal _ | FDbl, VReal _ => true | _, _ => false end.
Fixpoint complete (cols : list col) (e : entries) (act : bool) (l : list (op V)) : Prop :=
  match l with
  | [] => True
  | AddColumn _ _ _ :: _ => False
  | AddEntry x v :: l' =>
      (exists c, In c cols /\ name c = x /\ fits (fmt c) v = true) /\ complete cols (upd e x v) act l'
  | Log :: l' => (act = true -> forall c, In c cols -> e (name c) <> None) /\ complete cols e act l'
  | Active a :: l' => complete cols e a l'
  | _ :: l' => complete cols e act l'
  end.

(** ** Maps *)
Fixpoint assoc {A} (x : string) (m : map A) : option A :=
  match m with
  | [] => None
  | (k, v) :: m' => if String.eqb (text k) x then Some v else assoc x m'
  end.
(** all keys can be read *)
Definition good {A} (b : nat) (m : map A) : Prop := Forall (fun kv => read b (fst kv) = Some (text (fst kv))) m.
Definition lits {A} (m : map A) : Prop := Forall (fun kv => exists s, fst kv = Lit s) m.

Lemma lits_good {A} b (m : map A) : lits m -> good b m.
Proof. unfold lits, good; intros H; induction H as [|[k v] m [s Hs] H IH]; constructor; simpl in *; subst; auto. Qed.

Lemma find_good {A} b x (m : map A) : good b m -> find bucket b x m = Ok (assoc x m).
Proof.
  intros H; induction H as [|[k v] m Hk H IH]; simpl in *; auto.
  rewrite Hk. destruct (String.eqb_spec (text k) x) as [->|N].
  - now rewrite Nat.eqb_refl.
  - rewrite IH. now destruct (Nat.eqb _ _).
Qed.
Lemma assoc_assign {A} x y (v : A) m : assoc x m <> None ->
  assoc y (assign x v m) = if String.eqb y x then Some v else assoc y m.
Proof.
  induction m as [|[k w] m IH]; simpl; [congruence|].
  destruct (String.eqb_spec (text k) x) as [E|N]; simpl; intros H.
  - destruct (String.eqb_spec (text k) y), (String.eqb_spec y x); try congruence; auto.
  - rewrite (IH H). destruct (String.eqb_spec (text k) y), (String.eqb_spec y x); try congruence; auto.
Qed.
Lemma assign_keys {A} x (v : A) m : List.map fst (assign x v m) = List.map fst m.
Proof. induction m as [|[k w] m IH]; simpl; auto. destruct (String.eqb _ _); simpl; congruence. Qed.
Lemma good_keys {A B} b (m : map A) (m' : map B) : List.map fst m' = List.map fst m -> good b m -> good b m'.
Proof.
  unfold good; intros E H. rewrite Forall_forall in *. intros [k v] I.
  assert (J : In k (List.map fst m)) by (rewrite <- E; apply (in_map fst) in I; exact I).
  apply in_map_iff in J. destruct J as [[k' w] [E' J]]. simpl in E'; subst. exact (H _ J).
Qed.
Lemma lits_keys {A B} (m : map A) (m' : map B) : List.map fst m' = List.map fst m -> lits m -> lits m'.
Proof.
  unfold lits; intros E H. rewrite Forall_forall in *. intros [k v] I.
  assert (J : In k (List.map fst m)) by (rewrite <- E; apply (in_map fst) in I; exact I).
  apply in_map_iff in J. destruct J as [[k' w] [E' J]]. simpl in E'; subst. exact (H _ J).
Qed.

(** insert_or_assign with a literal *)
Definition put {A} (x : string) (v : A) (m : map A) : map A :=
  match assoc x m with Some _ => assign x v m | None => (Lit x, v) :: m end.
Lemma ioa_good {A} b x (v : A) m : good b m -> insert_or_assign bucket b (Lit x) v m = Ok (put x v m).
Proof. intros H. unfold insert_or_assign, put; simpl. rewrite (find_good _ _ _ H); simpl. now destruct (assoc x m). Qed.
Lemma assoc_put {A} x y (v : A) m : assoc y (put x v m) = if String.eqb y x then Some v else assoc y m.
Proof.
  unfold put; destruct (assoc x m) eqn:E; [apply assoc_assign; congruence|]. simpl.
  rewrite String.eqb_sym. now destruct (String.eqb y x).
Qed.
Lemma good_put {A} b x (v : A) m : good b m -> good b (put x v m).
Proof.
  unfold put; destruct (assoc x m); intros H.
  - eapply good_keys; [apply assign_keys|exact H].
  - constructor; auto.
Qed.
Lemma lits_put {A} x (v : A) m : lits m -> lits (put x v m).
Proof.
  unfold put; destruct (assoc x m); intros H.
  - eapply lits_keys; [apply assign_keys|exact H].
  - constructor; [exists x; reflexivity|exact H].
Qed.

Definition get {A} (d : A) (m : map A) (x : string) : A := match assoc x m with Some v => v | None => d end.
(** the loop when all names are there *)
Lemma each_all {A} b (d : A) cs : forall i m, good b m -> (forall x, In x cs -> assoc x m <> None) ->
  each bucket b i d cs m = Ok (List.map (get d m) cs, m).
Proof.
  induction cs as [|x cs IH]; intros i m G H; simpl; auto.
  unfold index; simpl. rewrite (find_good _ _ _ G); simpl.
  unfold get at 1. destruct (assoc x m) eqn:E; [|exfalso; apply (H x); simpl; auto].
  simpl. rewrite IH; simpl; auto. intros y I; apply H; simpl; auto.
Qed.
(** the loop in general *)
Lemma each_good {A} b (d : A) cs : forall i m, good b m ->
  exists m', each bucket b i d cs m = Ok (List.map (get d m) cs, m') /\ good b m' /\
    forall y, assoc y m' = match assoc y m with
                           | Some v => Some v
                           | None => if existsb (String.eqb y) cs then Some d else None end.
Proof.
  induction cs as [|x cs IH]; intros i m G; simpl.
  - exists m; repeat split; auto. intros y; now destruct (assoc y m).
  - unfold index; simpl. rewrite (find_good _ _ _ G); simpl.
    destruct (assoc x m) as [v|] eqn:E; simpl.
    + destruct (IH (S i) m G) as [m' [H [G' L]]]. rewrite H; simpl.
      exists m'. split; [unfold get at 2; now rewrite E|split; auto].
      intros y. rewrite L. destruct (assoc y m) eqn:E'; auto.
      destruct (String.eqb_spec y x); subst; auto. congruence.
    + assert (G1 : good b ((View b i x, d) :: m)).
      { constructor; auto. simpl. now rewrite Nat.eqb_refl. }
      destruct (IH (S i) _ G1) as [m' [H [G' L]]]. rewrite H; simpl.
      exists m'. split; [|split; auto].
      * f_equal. f_equal. f_equal; [unfold get; now rewrite E|].
        apply map_ext_in. intros y _. unfold get; simpl.
        destruct (String.eqb_spec x y); subst; auto. now rewrite E.
      * intros y. rewrite L; simpl. rewrite String.eqb_sym.
        destruct (String.eqb_spec y x); subst; simpl; [now rewrite E|]. auto.
Qed.

(** ** Logging with complete rows *)
Lemma exec_app l1 : forall l2 s, exec (l1 ++ l2) s = bind (A := st V) (B := st V) (exec l1 s) (exec l2).
Proof. induction l1 as [|o l1 IH]; intros l2 s; simpl; auto. destruct (step bucket o s); simpl; auto. Qed.

Definition columns_of (cols : list col) : list (op V) := List.map column cols.

Record inv (cols : list col) (e : entries) (s : st V) : Prop := {
  i_cols : columns s = List.map name cols;
  i_slits : lits (specs s); i_llits : lits (line s);
  i_specs : forall c, In c cols -> assoc (name c) (specs s) = Some (width c, fmt c);
  i_line : forall c, In c cols -> assoc (name c) (line s) =
             match e (name c) with Some v => Some (Cell (fmt c) (width c) v) | None => None end }.

Lemma nodup_col (cols : list col) c c' : NoDup (List.map name cols) -> In c cols -> In c' cols -> name c = name c' -> c = c'.
Proof.
  induction cols as [|d cols IH]; simpl; intros N I J E; [easy|]. inversion N; subst.
  destruct I as [->|I], J as [->|J]; auto.
  - exfalso. apply H1. rewrite E. now apply in_map.
  - exfalso. apply H1. rewrite <- E. now apply in_map.
Qed.

Lemma exec_complete cols (ND : NoDup (List.map name cols)) l : forall e s,
  inv cols e s -> complete cols e (active s) l ->
  exists s', exec l s = Ok s' /\ out s' = out s ++ shown cols e (active s) l /\ lits (specs s') /\ lits (line s').
Proof.
  induction l as [|o l IH]; intros e s I C; simpl.
  { exists s. rewrite app_nil_r. destruct I; auto. }
  destruct I as [I1 I2 I3 I4 I5]. destruct o as [n w f|x v| | |c|a]; simpl in C.
  - easy.
  - destruct C as [[c [Ic [Hn Hf]]] C]. subst x. simpl. unfold add_entry, index. simpl.
    rewrite (find_good _ _ _ (lits_good _ _ I2)); simpl. rewrite (I4 _ Ic); simpl.
    assert (R : render (fmt c) (width c) v = Ok (Cell (fmt c) (width c) v)).
    { destruct (fmt c), v; simpl in *; congruence. }
    rewrite R; simpl. rewrite (ioa_good _ _ _ _ (lits_good _ _ I3)); simpl.
    match goal with |- context [exec l ?s1] => apply (IH (upd e (name c) v) s1) end; [|exact C]. constructor; simpl; auto.
    + now apply lits_put.
    + intros c' Ic'. rewrite assoc_put. unfold upd.
      destruct (String.eqb_spec (name c') (name c)) as [E|N]; [|auto].
      now rewrite (nodup_col _ _ _ ND Ic' Ic E).
  - simpl. unfold headline. destruct (active s) eqn:A; simpl.
    + rewrite each_all; [|now apply lits_good|].
      2:{ rewrite I1. intros x Ix. apply in_map_iff in Ix. destruct Ix as [c [<- Ic]]. rewrite (I4 _ Ic). easy. }
      simpl. rewrite I1.
      match goal with |- context [exec l ?s1] => destruct (IH e s1) as [s' [H1 [H2 H3]]] end.
      * constructor; simpl; auto.
      * simpl. exact C.
      * exists s'. split; [exact H1|]. split; [|exact H3]. rewrite H2; simpl. rewrite <- app_assoc. simpl.
        do 2 f_equal. f_equal. clear -I4. induction cols as [|c cols IH]; simpl; auto. f_equal.
        -- unfold get. rewrite (I4 c); [|simpl; auto]. reflexivity.
        -- apply IH. intros c' Ic'. apply I4. simpl; auto.
    + rewrite <- A. apply IH; [constructor; auto|]. now rewrite A.
  - destruct C as [C1 C]. simpl. unfold log. destruct (active s) eqn:A; simpl.
    + rewrite each_all; [|now apply lits_good|].
      2:{ rewrite I1. intros x Ix. apply in_map_iff in Ix. destruct Ix as [c [<- Ic]]. rewrite (I5 _ Ic).
          specialize (C1 eq_refl c Ic). now destruct (e (name c)). }
      simpl.
      match goal with |- context [exec l ?s1] => destruct (IH e s1) as [s' [H1 [H2 H3]]] end.
      * constructor; simpl; auto.
      * simpl. exact C.
      * exists s'. split; [exact H1|]. split; [|exact H3]. rewrite H2; simpl. rewrite <- app_assoc. simpl.
        do 2 f_equal. f_equal. rewrite I1, map_map. apply map_ext_in. intros c Ic.
        unfold get, shown_cell. rewrite (I5 _ Ic). now destruct (e (name c)).
    + rewrite <- A. apply IH; [constructor; auto|]. now rewrite A.
  - simpl. unfold finish. destruct (active s) eqn:A; simpl.
    + match goal with |- context [exec l ?s1] => destruct (IH e s1) as [s' [H1 [H2 H3]]] end.
      * constructor; simpl; auto.
      * simpl. exact C.
      * exists s'. split; [exact H1|]. split; [|exact H3]. rewrite H2; simpl. now rewrite <- app_assoc.
    + rewrite <- A. apply IH; [constructor; auto|]. now rewrite A.
  - simpl. unfold set_active; simpl.
    match goal with |- context [exec l ?s1] => apply (IH e s1) end; [constructor; simpl; auto|exact C].
Qed.

Lemma exec_columns cols : forall done s,
  NoDup (List.map name (done ++ cols)) -> inv done (fun _ => None) s -> line s = [] ->
  (forall x, ~ In x (List.map name done) -> assoc x (specs s) = None) ->
  exists s', exec (columns_of cols) s = Ok s' /\ inv (done ++ cols) (fun _ => None) s' /\
    out s' = out s /\ active s' = active s.
Proof.
  induction cols as [|c cols IH]; intros done s ND I L F; simpl.
  { exists s. rewrite app_nil_r. auto. }
  destruct I as [I1 I2 I3 I4 I5].
  unfold add_column. set (b := if _ : bool then S (block s) else block s). simpl. unfold emplace; simpl.
  rewrite (find_good _ _ _ (lits_good _ _ I2)); simpl.
  assert (N : ~ In (name c) (List.map name done)).
  { rewrite map_app in ND. simpl in ND. apply NoDup_remove_2 in ND. intros J; apply ND. apply in_or_app; auto. }
  assert (E : assoc (fst (fst c)) (specs s) = None) by exact (F _ N).
  rewrite E. simpl.
  match goal with |- context [exec _ ?s1] => destruct (IH (done ++ [c]) s1) as [s' [H1 [H2 [H3 H4]]]] end.
  - now rewrite <- app_assoc.
  - constructor; simpl.
    + rewrite I1, map_app. reflexivity.
    + constructor; [now exists (fst (fst c))|exact I2].
    + exact I3.
    + intros c' Ic'. apply in_app_or in Ic'. destruct (String.eqb_spec (fst (fst c)) (name c')) as [Q|Q].
      * destruct Ic' as [Ic'|[<-|[]]]; [|reflexivity]. exfalso. apply N. unfold name at 1. rewrite Q. now apply in_map.
      * destruct Ic' as [Ic'|[<-|[]]]; [auto|]. now contradict Q.
    + intros c' _. now rewrite L.
  - exact L.
  - intros x Nx. simpl. rewrite map_app in Nx. destruct (String.eqb_spec (fst (fst c)) x) as [<-|Q].
    + exfalso. apply Nx. apply in_or_app. right. simpl. auto.
    + apply F. intros J. apply Nx. apply in_or_app; auto.
  - exists s'. rewrite <- app_assoc in H2. simpl in *. auto.
Qed.

(** A logger with distinct columns whose lines are completed before they are logged: nothing
    throws, no key is read after its characters are gone, each row has the last entries in
    the order of the columns, and an inactive logger prints nothing. *)
Theorem C67_table (cols : list col) (l : list (op V)) :
  NoDup (List.map name cols) -> complete cols (fun _ => None) true l ->
  exists s, exec (columns_of cols ++ l) fresh = Ok s /\ out s = shown cols (fun _ => None) true l /\
    lits (specs s) /\ lits (line s).
Proof.
  intros ND C.
  destruct (exec_columns cols [] (@fresh V)) as [s [H1 [H2 [H3 H4]]]]; auto.
  { constructor; simpl; auto; try easy; constructor. }
  rewrite exec_app, H1. simpl.
  destruct (exec_complete cols ND l (fun _ => None) s) as [s' [K1 [K2 K3]]]; auto.
  { rewrite H4. exact C. }
  exists s'. rewrite H4, H3 in K2. auto.
Qed.

(** ** SolverProxDDP *)
Definition prox_row (v : vals V) : list (cell V) :=
  [Cell FInt 5 (VInt (v_iter v)); Cell FSci 10 (VReal (v_alpha v)); Cell FSci 11 (VReal (v_crit v));
   Cell FSci 10 (VReal (v_prim v)); Cell FSci 10 (VReal (v_dual v)); Cell FSci 10 (VReal (v_preg v));
   Cell FSci 10 (VReal (v_cost v)); Cell FSci 11 (VReal (v_dphi0 v)); Cell FSci 10 (VReal (v_merit v));
   Cell FSci 11 (VReal (v_dM v)); Cell FInt 7 (VInt (v_aliter v)); Cell FDbl 7 (VReal (v_mu v))].
Definition prox_head : output V :=
  Head [("iter", 5); ("alpha", 10); ("inner_crit", 11); ("prim_err", 10); ("dual_err", 10); ("preg", 10);
        ("cost", 10); ("dphi0", 11); ("merit", 10); ("ΔM", 11); ("aliter", 7); ("mu", 7)].
Definition prox_print (r : prox_run V) : list (output V) :=
  if p_verbose r then
    prox_head ::
    flat_map (fun it : bool * vals V * bool =>
      (if fst (fst it) then [prox_head] else []) ++ (if snd it then [Row (prox_row (snd (fst it)))] else [])) (p_iters r)
    ++ match p_end r with Some c => [End c] | None => [] end
  else [].

Lemma shown_app cols l1 : forall e a l2,
  exists e', shown cols e a (l1 ++ l2) =
    shown cols e a l1 ++ shown cols e' (List.fold_left (fun a o => match o with Active b => b | _ => a end) l1 a) l2.
Proof.
  induction l1 as [|o l1 IH]; intros e a l2; simpl; [now exists e|].
  destruct o; simpl;
    try (match goal with |- context [shown cols ?e0 ?a0 (l1 ++ l2)] => destruct (IH e0 a0 l2) as [e' H] end;
         exists e'; rewrite H; now rewrite ?app_assoc).
Qed.

Lemma basic_nodup : NoDup (List.map name basic_keys).
Proof. unfold basic_keys; simpl. repeat constructor; simpl; intuition discriminate. Qed.

Lemma has_column (cols : list col) x (v : value V) :
  match List.find (fun c => String.eqb (name c) x) cols with Some c => fits (fmt c) v | None => false end = true ->
  exists c, In c cols /\ name c = x /\ fits (fmt c) v = true.
Proof.
  destruct (List.find _ cols) as [c|] eqn:E; [|discriminate]. intros H. exists c.
  apply find_some in E. destruct E as [I E]. apply String.eqb_eq in E. auto.
Qed.
Ltac ent := split; [apply has_column; reflexivity|].

Lemma prox_iter_ok it : forall e a l, (forall e', complete basic_keys e' a l) ->
  complete basic_keys e a (prox_iter it ++ l).
Proof.
  destruct it as [[h v] lg]; intros e a l H. unfold prox_iter. rewrite <- !app_assoc.
  assert (K : complete basic_keys e a
    (([AddEntry "iter" (VInt (v_iter v)); AddEntry "alpha" (VReal (v_alpha v));
   AddEntry "inner_crit" (VReal (v_crit v)); AddEntry "prim_err" (VReal (v_prim v));
   AddEntry "dual_err" (VReal (v_dual v)); AddEntry "preg" (VReal (v_preg v));
   AddEntry "dphi0" (VReal (v_dphi0 v)); AddEntry "cost" (VReal (v_cost v));
   AddEntry "merit" (VReal (v_merit v)); AddEntry "ΔM" (VReal (v_dM v));
   AddEntry "aliter" (VInt (v_aliter v)); AddEntry "mu" (VReal (v_mu v))] ++ (if lg then [Log] else [])) ++ l)).
  { cbn [complete app]. do 12 ent. destruct lg; cbn [complete app]; auto.
    split; auto. intros _ c Ic. unfold basic_keys in Ic; simpl in Ic.
    repeat (destruct Ic as [<-|Ic]; [unfold upd; simpl; discriminate|]). easy. }
  rewrite <- app_assoc in K. destruct h; exact K.
Qed.
Lemma prox_iter_shown it e a l :
  exists e', shown basic_keys e a (prox_iter it ++ l) =
  (if a then (if fst (fst it) then [prox_head] else []) ++ (if snd it then [Row (prox_row (snd (fst it)))] else []) else [])
  ++ shown basic_keys e' a l.
Proof.
  destruct it as [[h v] lg]. unfold prox_iter. destruct h, lg, a; simpl; eexists; reflexivity.
Qed.
Lemma prox_iters_ok its : forall e a l, (forall e', complete basic_keys e' a l) ->
  complete basic_keys e a (flat_map prox_iter its ++ l).
Proof.
  induction its as [|it its IH]; intros e a l H; simpl; auto.
  rewrite <- app_assoc. apply prox_iter_ok. intros e'. now apply IH.
Qed.
Lemma prox_iters_shown its : forall e a l,
  exists e', shown basic_keys e a (flat_map prox_iter its ++ l) =
  (if a then flat_map (fun it : bool * vals V * bool =>
      (if fst (fst it) then [prox_head] else []) ++ (if snd it then [Row (prox_row (snd (fst it)))] else [])) its else [])
  ++ shown basic_keys e' a l.
Proof.
  induction its as [|it its IH]; intros e a l; simpl.
  { exists e. now destruct a. }
  rewrite <- app_assoc. destruct (prox_iter_shown it e a (flat_map prox_iter its ++ l)) as [e1 H1]. rewrite H1.
  destruct (IH e1 a l) as [e2 H2]. rewrite H2. exists e2. destruct a; simpl; auto. now rewrite <- !app_assoc.
Qed.
Lemma prox_runs rs : forall e a,
  complete basic_keys e a (flat_map prox_ops rs) /\ shown basic_keys e a (flat_map prox_ops rs) = flat_map prox_print rs.
Proof.
  induction rs as [|r rs IH]; intros e a; [simpl; auto|].
  assert (X : flat_map prox_ops (r :: rs) = Active (p_verbose r) :: Headline :: flat_map prox_iter (p_iters r)
     ++ match p_end r with Some c => [Finish c] | None => [] end ++ flat_map prox_ops rs).
  { simpl. unfold prox_ops at 1. simpl. now rewrite <- app_assoc. }
  rewrite X. clear X. split.
  - simpl. apply prox_iters_ok. intros e'. destruct (p_end r); simpl; apply IH.
  - simpl. destruct (prox_iters_shown (p_iters r) e (p_verbose r)
      (match p_end r with Some c => [Finish c] | None => [] end ++ flat_map prox_ops rs)) as [e' H].
    rewrite H. clear H. unfold prox_print at 1. destruct (p_end r); simpl; rewrite (proj2 (IH e' _));
    destruct (p_verbose r); simpl; rewrite <- ?app_assoc; reflexivity.
Qed.

(** One SolverProxDDP, any number of runs, verbose or not, any iterations, runs left by an
    exception: nothing of the logger throws or reads a dead key, and what is printed is
    the table of the verbose runs. *)
Theorem C67_proxddp (rs : list (prox_run V)) :
  exists s, exec (prox_ctor ++ flat_map prox_ops rs) fresh = Ok s /\ out s = flat_map prox_print rs /\
    lits (specs s) /\ lits (line s).
Proof.
  destruct (prox_runs rs (fun _ => None) true) as [C S].
  destruct (C67_table basic_keys (flat_map prox_ops rs) basic_nodup C) as [s [H1 [H2 H3]]].
  exists s. rewrite S in H2. auto.
Qed.

End P.
