(** C67: the table of SolverFDDP. *)
From Coq Require Import List String Bool Arith Lia.
Import ListNotations.
From Verif Require Import LoggerModel P_logger.
Open Scope string_scope.
Open Scope list_scope.

Section P.
Variable V : Type.
Variable bucket : string -> nat.
Notation exec := (LoggerModel.exec (V := V) bucket).

(** ** What is printed *)
Definition fddp_cols : list col :=
  [("iter", FInt, 5); ("alpha", FSci, 10); ("prim_err", FSci, 10); ("dual_err", FSci, 10);
   ("preg", FSci, 10); ("cost", FSci, 10); ("dphi0", FSci, 11); ("ΔM", FSci, 11)].
Definition fddp_names : list string := List.map name fddp_cols.
(** the cell of a name after an iteration (or before any) *)
Definition fddp_cell (o : option (vals V)) (x : string) : cell V :=
  match o with
  | None => Blank
  | Some v =>
      if String.eqb x "iter" then Cell FInt 5 (VInt (v_iter v))
      else if String.eqb x "alpha" then Cell FSci 10 (VReal (v_alpha v))
      else if String.eqb x "prim_err" then Cell FSci 10 (VReal (v_prim v))
      else if String.eqb x "dual_err" then Cell FSci 10 (VReal (v_dual v))
      else if String.eqb x "preg" then Cell FSci 10 (VReal (v_preg v))
      else if String.eqb x "dphi0" then Cell FSci 11 (VReal (v_dphi0 v))
      else if String.eqb x "ΔM" then Cell FSci 11 (VReal (v_dM v))
      else Blank
  end.
(** the eight cells; the sixth, under "cost", is blank *)
Definition fddp_row (o : option (vals V)) : list (cell V) :=
  match o with
  | None => repeat Blank 8
  | Some v => [Cell FInt 5 (VInt (v_iter v)); Cell FSci 10 (VReal (v_alpha v)); Cell FSci 10 (VReal (v_prim v));
               Cell FSci 10 (VReal (v_dual v)); Cell FSci 10 (VReal (v_preg v)); Blank;
               Cell FSci 11 (VReal (v_dphi0 v)); Cell FSci 11 (VReal (v_dM v))]
  end.
Definition copies {A} (n : nat) (l : list A) : list A := List.concat (repeat l n).
Definition last_of (o : option (vals V)) (l : list (vals V)) : option (vals V) :=
  List.fold_left (fun _ v => Some v) l o.
(** the last values entered by a run *)
Definition fddp_last (o : option (vals V)) (r : fddp_run V) : option (vals V) :=
  match f_exit r with After v _ | Thrown (Some v) => Some v | _ => last_of o (f_iters r) end.
(** a run with n copies of the columns, after entries o *)
Definition fddp_print (n : nat) (o : option (vals V)) (r : fddp_run V) : list (output V) :=
  let row o := Row (copies n (fddp_row o)) in
  Head (copies n (List.map title fddp_cols)) :: List.map (fun v => row (Some v)) (f_iters r) ++
  match f_exit r with
  | Before => [row (last_of o (f_iters r)); End true]
  | After v c => [row (Some v); End c]
  | Exhausted => [End false]
  | Thrown _ => []
  end.
(** a run whose first row is printed *)
Definition prints (r : fddp_run V) : Prop :=
  f_verbose r = true /\ (f_iters r <> [] \/ match f_exit r with Before | After _ _ => True | _ => False end).

(** ** The first key of a text *)
Fixpoint key_of {A} (x : string) (m : map A) : option key :=
  match m with [] => None | (k, _) :: m' => if String.eqb (text k) x then Some k else key_of x m' end.
Lemma key_assoc {A} x (m : map A) : key_of x m = None <-> assoc x m = None.
Proof. induction m as [|[k v] m IH]; simpl; [easy|]. now destruct (String.eqb (text k) x). Qed.
Lemma key_assign {A} x y (v : A) m : key_of y (assign x v m) = key_of y m.
Proof.
  induction m as [|[k w] m IH]; simpl; auto. destruct (String.eqb (text k) x); simpl; auto. now rewrite IH.
Qed.
Lemma key_put {A} x y (v : A) m : x <> y -> key_of y (put x v m) = key_of y m.
Proof.
  intros N. unfold put. destruct (assoc x m); [apply key_assign|]. simpl.
  destruct (String.eqb_spec x y); [contradiction|reflexivity].
Qed.
(** a key whose characters are gone is read by every search for its text *)
Lemma dead_find {A} b x (m : map A) k : key_of x m = Some k -> read b k = None -> find bucket b x m = Ub.
Proof.
  induction m as [|[k' v] m IH]; simpl; [discriminate|]. intros H R.
  destruct (String.eqb_spec (text k') x) as [E|N].
  - injection H as ->. now rewrite E, Nat.eqb_refl, R.
  - destruct (Nat.eqb _ _); [|auto]. destruct (read b k') as [s|] eqn:E; auto.
    assert (s = text k'). { destruct k' as [s'|b' i s']; simpl in *; [congruence|]. destruct (Nat.eqb _ _); congruence. }
    subst s. destruct (String.eqb_spec (text k') x); [contradiction|auto].
Qed.
Lemma each_keep {A} b (d : A) cs : forall i m cells m' x k,
  each bucket b i d cs m = Ok (cells, m') -> key_of x m = Some k -> key_of x m' = Some k.
Proof.
  induction cs as [|y cs IH]; simpl; intros i m cells m' x k E K; [injection E as _ <-; auto|].
  unfold index in E; simpl in E. destruct (find bucket b y m) as [o| |] eqn:F; simpl in E; try discriminate.
  destruct o as [v|]; simpl in E.
  - destruct (each bucket b (S i) d cs m) as [[c1 m1]| |] eqn:E1; simpl in E; try discriminate.
    injection E as _ <-. eauto.
  - destruct (each bucket b (S i) d cs _) as [[c1 m1]| |] eqn:E1; simpl in E; try discriminate.
    injection E as _ <-. destruct (String.eqb_spec y x) as [->|N].
    + exfalso. clear -F K. induction m as [|[k' v'] m IH]; simpl in *; [discriminate|].
      destruct (String.eqb_spec (text k') x) as [E|N].
      * rewrite E, Nat.eqb_refl in F. destruct (read b k') as [s|] eqn:R; [|discriminate].
        assert (s = text k'). { destruct k' as [s'|b' i s']; simpl in *; [congruence|]. destruct (Nat.eqb _ _); congruence. }
        subst s. rewrite E, String.eqb_refl in F. discriminate.
      * destruct (Nat.eqb _ _); [|auto]. destruct (read b k') as [s|]; [|discriminate].
        destruct (String.eqb s x); [discriminate|auto].
    + eapply IH; [exact E1|]. simpl. destruct (String.eqb_spec y x); [contradiction|exact K].
Qed.
Lemma each_new {A} b (d : A) cs : forall i m cells m' x,
  each bucket b i d cs m = Ok (cells, m') -> key_of x m = None -> In x cs ->
  exists j, key_of x m' = Some (View b j x).
Proof.
  induction cs as [|y cs IH]; simpl; intros i m cells m' x E K I; [easy|].
  unfold index in E; simpl in E. destruct (find bucket b y m) as [o| |] eqn:F; simpl in E; try discriminate.
  destruct o as [v|]; simpl in E.
  - destruct (each bucket b (S i) d cs m) as [[c1 m1]| |] eqn:E1; simpl in E; try discriminate.
    injection E as _ <-. destruct I as [->|I]; [|eauto].
    exfalso. clear -F K. induction m as [|[k' v'] m IH]; simpl in *; [discriminate|].
    destruct (String.eqb_spec (text k') x) as [E|N]; [discriminate|].
    destruct (Nat.eqb _ _); [|auto]. destruct (read b k') as [s|] eqn:R; [|discriminate].
    assert (s = text k'). { destruct k' as [s'|b' i s']; simpl in *; [congruence|]. destruct (Nat.eqb _ _); congruence. }
    subst s. destruct (String.eqb_spec (text k') x); [contradiction|auto].
  - destruct (each bucket b (S i) d cs _) as [[c1 m1]| |] eqn:E1; simpl in E; try discriminate.
    injection E as _ <-. destruct (String.eqb_spec y x) as [->|N].
    + exists i. eapply each_keep; [exact E1|]. simpl. now rewrite String.eqb_refl.
    + destruct I as [->|I]; [contradiction|]. eapply IH; [exact E1| |exact I]. simpl.
      destruct (String.eqb_spec y x); [contradiction|exact K].
Qed.

(** ** Invariant *)
Definition fddp_spec (x : string) : nat * format :=
  match List.find (fun c => String.eqb (name c) x) fddp_cols with Some c => (width c, fmt c) | None => (0, FEmpty) end.
Record binv (n : nat) (o : option (vals V)) (s : st V) : Prop := {
  b_cols : columns s = copies n fddp_names;
  b_lits : lits (specs s);
  b_spec : forall x, get (0, FEmpty) (specs s) x = fddp_spec x;
  b_good : good (block s) (line s);
  b_line : forall x, get Blank (line s) x = fddp_cell o x }.
Definition same (s s' : st V) : Prop :=
  active s' = active s /\ columns s' = columns s /\ block s' = block s /\ cap s' = cap s.

Lemma get_put {A} (d : A) x (v : A) m y : get d (put x v m) y = if String.eqb y x then v else get d m y.
Proof. unfold get. rewrite assoc_put. now destruct (String.eqb y x). Qed.

(** an entry, with the specs only: what is put and where *)
Lemma entry_spec (x : string) (v : value V) (c : cell V) (s : st V) :
  lits (specs s) -> (forall y, get (0, FEmpty) (specs s) y = fddp_spec y) ->
  render (snd (fddp_spec x)) (fst (fddp_spec x)) v = Ok c ->
  exists sp, lits sp /\ (forall y, get (0, FEmpty) sp y = fddp_spec y) /\
  add_entry bucket x v s =
    bind (insert_or_assign bucket (block s) (Lit x) c (line s)) (fun m =>
    Ok (St (active s) (columns s) (block s) (cap s) sp m (out s))).
Proof.
  intros L G R. unfold add_entry, index; simpl. rewrite (find_good _ _ _ _ (lits_good _ _ L)); simpl.
  pose proof (G x) as Gx. unfold get in Gx.
  destruct (assoc x (specs s)) as [p|] eqn:E; simpl.
  - exists (specs s). rewrite Gx, R; simpl. auto.
  - exists ((Lit x, (0, FEmpty)) :: specs s). rewrite <- Gx in R; simpl in R. injection R as <-. split; [|split; auto].
    + constructor; [now exists x|exact L].
    + intros y. unfold get; simpl. destruct (String.eqb_spec x y) as [<-|N]; [now rewrite <- Gx|apply G].
Qed.

Definition put_all (v : vals V) (m : map (cell V)) : map (cell V) :=
  put "ΔM" (Cell FSci 11 (VReal (v_dM v))) (put "merit" Blank (put "dphi0" (Cell FSci 11 (VReal (v_dphi0 v)))
  (put "preg" (Cell FSci 10 (VReal (v_preg v))) (put "dual_err" (Cell FSci 10 (VReal (v_dual v)))
  (put "prim_err" (Cell FSci 10 (VReal (v_prim v))) (put "alpha" (Cell FSci 10 (VReal (v_alpha v)))
  (put "iter" (Cell FInt 5 (VInt (v_iter v))) m))))))).

Ltac entry L G :=
  match goal with |- context [add_entry bucket ?x ?v ?s] =>
    let sp := fresh "sp" in let L' := fresh "L" in let G' := fresh "G" in let E := fresh "E" in
    destruct (entry_spec x v _ s L G eq_refl) as [sp [L' [G' E]]]; simpl in E; rewrite E; clear E L G;
    rename L' into L; rename G' into G end.

Lemma entries_ok v n o s : binv n o s ->
  exists s', exec (fddp_entries v) s = Ok s' /\ binv n (Some v) s' /\ same s s' /\ out s' = out s /\
    line s' = put_all v (line s).
Proof.
  intros [B1 L G B4 B5]. unfold fddp_entries. simpl.
  do 8 (entry L G; rewrite ioa_good by (repeat apply good_put; exact B4); cbn [bind line block active columns cap specs out]).
  eexists. split; [reflexivity|]. split; [|repeat split].
  constructor; simpl; auto; [repeat apply good_put; exact B4|].
  intros x. rewrite !get_put, B5.
  destruct (String.eqb_spec x "iter") as [->|]; [reflexivity|].
  destruct (String.eqb_spec x "alpha") as [->|]; [reflexivity|].
  destruct (String.eqb_spec x "prim_err") as [->|]; [reflexivity|].
  destruct (String.eqb_spec x "dual_err") as [->|]; [reflexivity|].
  destruct (String.eqb_spec x "preg") as [->|]; [reflexivity|].
  destruct (String.eqb_spec x "dphi0") as [->|]; [reflexivity|].
  destruct (String.eqb_spec x "ΔM") as [->|]; [reflexivity|].
  destruct (String.eqb_spec x "merit") as [->|]; [reflexivity|].
  unfold fddp_cell. destruct o as [w|]; auto.
  repeat match goal with |- context [String.eqb x ?y] => destruct (String.eqb_spec x y); [contradiction|] end. reflexivity.
Qed.

Lemma map_copies {A B} (f : A -> B) n l : List.map f (copies n l) = copies n (List.map f l).
Proof. unfold copies. induction n; simpl; auto. now rewrite map_app, IHn. Qed.
Lemma combine_copies {A B} n (l : list A) (l' : list B) : List.length l = List.length l' ->
  combine (copies n l) (copies n l') = copies n (combine l l').
Proof.
  intros E. unfold copies. induction n; simpl; auto. rewrite <- IHn. clear IHn. revert l' E.
  generalize (List.concat (repeat l n)). intros X l'. revert X. generalize (List.concat (repeat l' n)). intros Y X.
  revert l'. induction l as [|a l IH]; intros [|b l'] E; simpl in *; try discriminate; auto.
  now rewrite IH; [|injection E].
Qed.
Lemma fddp_row_cells o : List.map (fddp_cell o) fddp_names = fddp_row o.
Proof. destruct o; reflexivity. Qed.

Lemma log_ok n o s : binv n o s ->
  exists s', log bucket s = Ok s' /\ binv n o s' /\ same s s' /\
    out s' = out s ++ (if active s then [Row (copies n (fddp_row o))] else []) /\
    (active s = false -> line s' = line s) /\
    (forall k, key_of "cost" (line s) = Some k -> key_of "cost" (line s') = Some k) /\
    (n <> 0 -> active s = true -> key_of "cost" (line s) = None -> exists j, key_of "cost" (line s') = Some (View (block s) j "cost")).
Proof.
  intros [B1 B2 B3 B4 B5]. unfold log. destruct (active s) eqn:A.
  - destruct (each_good bucket (block s) Blank (columns s) 0 (line s) B4) as [m [E [G H]]].
    rewrite E. simpl. eexists. split; [reflexivity|]. split; [|split; [repeat split; simpl; auto|simpl; split; [|split; [discriminate|split]]]].
    + constructor; simpl; auto. intros x. rewrite <- B5. unfold get. rewrite H.
      destruct (assoc x (line s)); auto. now destruct (existsb _ _).
    + rewrite B1, map_copies. do 4 f_equal. rewrite <- fddp_row_cells. apply map_ext. intros x. apply B5.
    + intros k K. eapply each_keep; eauto.
    + intros Hn _ K. eapply each_new; [exact E|exact K|]. rewrite B1. destruct n as [|n]; [contradiction|].
      unfold copies. simpl. tauto.
  - exists s. split; auto. split; [constructor; auto|]. split; [repeat split|]. split; [now rewrite app_nil_r|]. split; [auto|]. split; [auto|]. discriminate.
Qed.

(** ** One run *)
Lemma iters_ok l : forall n o s, binv n o s -> (key_of "cost" (line s) = None \/ exists j, key_of "cost" (line s) = Some (View (block s) j "cost")) ->
  exists s', exec (flat_map (fun v => fddp_entries v ++ [Log]) l) s = Ok s' /\ binv n (last_of o l) s' /\ same s s' /\
    out s' = out s ++ (if active s then List.map (fun v => Row (copies n (fddp_row (Some v)))) l else []) /\
    (active s = false -> lits (line s) -> lits (line s')) /\
    (active s = false -> key_of "cost" (line s') = key_of "cost" (line s)) /\
    (key_of "cost" (line s') = None \/ exists j, key_of "cost" (line s') = Some (View (block s') j "cost")) /\
    (n <> 0 -> active s = true -> l <> [] -> exists j, key_of "cost" (line s') = Some (View (block s') j "cost")) /\
    (forall k, key_of "cost" (line s) = Some k -> key_of "cost" (line s') = Some k).
Proof.
  induction l as [|v l IH]; intros n o s B K.
  - exists s. simpl. split; auto. split; auto. split; [repeat split|]. split; [destruct (active s); now rewrite app_nil_r|].
    repeat split; auto. intros _ _ H; contradiction.
  - cbn [flat_map]. rewrite <- app_assoc. rewrite exec_app.
    destruct (entries_ok v n o s B) as [s1 [E1 [B1 [S1 [O1 L1]]]]]. rewrite E1. cbn [bind app LoggerModel.exec LoggerModel.step].
    destruct (log_ok n _ s1 B1) as [s2 [E2 [B2 [S2 [O2 [L2 [K2 N2]]]]]]]. rewrite E2. cbn [bind].
    destruct S1 as [A1 [C1 [Bl1 P1]]]. destruct S2 as [A2 [C2 [Bl2 P2]]].
    assert (KK : key_of "cost" (line s1) = key_of "cost" (line s)).
    { rewrite L1. unfold put_all. rewrite !key_put; auto; discriminate. }
    assert (K' : key_of "cost" (line s2) = None \/ exists j, key_of "cost" (line s2) = Some (View (block s2) j "cost")).
    { destruct (key_of "cost" (line s2)) as [k|] eqn:Q; auto. right.
      destruct K as [K|[j K]].
      - rewrite <- KK in K. destruct (active s1) eqn:A.
        + destruct n as [|n].
          * exfalso. destruct B1 as [BC _ _ _ _]. unfold log in E2. rewrite A, BC in E2. simpl in E2. injection E2 as <-. simpl in Q. congruence.
          * destruct N2 as [j N2]; auto. exists j. congruence.
        + rewrite L2 in Q; auto. congruence.
      - exists j. rewrite <- KK in K. pose proof (K2 _ K). congruence. }
    destruct (IH n (Some v) s2 B2 K') as [s3 [E3 [B3 [S3 [O3 [L3 [Q3 [K3 [N3 P3]]]]]]]]].
    exists s3. split; [exact E3|]. split; [exact B3|].
    destruct S3 as [A3 [C3 [Bl3 P3']]].
    split; [repeat split; congruence|]. split; [|split; [|split; [|split; [|split]]]].
    + rewrite O3, O2, O1, A2, A1. destruct (active s); simpl; now rewrite <- ?app_assoc, ?app_nil_r.
    + intros A Li. apply L3; [congruence|]. rewrite L2 by congruence. rewrite L1. unfold put_all. now repeat apply lits_put.
    + intros A. rewrite Q3 by congruence. rewrite L2 by congruence. exact KK.
    + exact K3.
    + intros Hn A _.
      destruct (key_of "cost" (line s1)) as [k|] eqn:Q.
      * destruct K as [K|[j K]]; [congruence|]. exists j. rewrite Bl3, Bl2, Bl1, <- K, <- KK. apply P3, K2. reflexivity.
      * destruct N2 as [j N2]; auto; [congruence|]. exists j. rewrite Bl3, Bl2. now apply P3.
    + intros k Kk. apply P3, K2. congruence.
Qed.

(** ** The columns *)
Fixpoint grow (len c k : nat) : nat :=
  match k with 0 => c | S k' => grow (S len) (if Nat.eqb len c then Nat.max 1 (2 * c) else c) k' end.
Definition from (cs : list col) (x : string) : option (nat * format) :=
  match List.find (fun c => String.eqb (name c) x) cs with Some c => Some (width c, fmt c) | None => None end.

Lemma adds_ok cs : forall s : st V, lits (specs s) ->
  exists s', exec (List.map column cs) s = Ok s' /\ active s' = active s /\ columns s' = columns s ++ List.map name cs /\
    lits (specs s') /\
    (forall x, assoc x (specs s') = match assoc x (specs s) with Some p => Some p | None => from cs x end) /\
    line s' = line s /\ out s' = out s /\ block s <= block s' /\
    (List.length (columns s) = cap s -> cs <> [] -> block s < block s') /\
    cap s' = grow (List.length (columns s)) (cap s) (List.length cs).
Proof.
  induction cs as [|c cs IH]; intros s L.
  - exists s. simpl. rewrite app_nil_r. repeat split; auto; try easy. intros x. now destruct (assoc x (specs s)).
  - simpl. unfold add_column. set (b := if _ : bool then S (block s) else block s).
    set (q := if _ : bool then Nat.max 1 _ else cap s). unfold emplace; simpl.
    rewrite (find_good _ _ _ _ (lits_good _ _ L)); simpl.
    set (sp := match assoc (fst (fst c)) (specs s) with Some _ => specs s | None => (Lit (fst (fst c)), (snd c, snd (fst c))) :: specs s end).
    assert (Ls : lits sp).
    { unfold sp. destruct (assoc _ _); auto. constructor; [now eexists|exact L]. }
    destruct (IH (St (active s) (columns s ++ [fst (fst c)]) b q sp (line s) (out s)) Ls) as [s' [E [A [C [L' [S' [Ln [O [Bl [_ Cp]]]]]]]]]].
    simpl in *. exists s'. split.
    { unfold sp in E. destruct (assoc _ _); simpl; exact E. }
    rewrite <- app_assoc in C. simpl in C. rewrite app_length, Nat.add_1_r in Cp.
    assert (Hb : block s <= b) by (unfold b; destruct (Nat.eqb _ _); lia).
    repeat split; auto; try lia.
    + intros x. rewrite S'. unfold sp, from. simpl. destruct (assoc (fst (fst c)) (specs s)) eqn:Q.
      * destruct (assoc x (specs s)) eqn:R; auto. unfold name at 2. destruct (String.eqb_spec (fst (fst c)) x); subst; auto. congruence.
      * simpl. unfold name at 2. destruct (String.eqb_spec (fst (fst c)) x) as [<-|]; [now rewrite Q|reflexivity].
    + intros Q _. unfold b in Bl. rewrite Q, Nat.eqb_refl in Bl. lia.
Qed.

Lemma start_ops w : @fddp_start V w = Active w :: List.map column fddp_cols ++ [Headline].
Proof. reflexivity. Qed.

Lemma start_ok n s (w : bool) : columns s = copies n fddp_names -> lits (specs s) ->
  (specs s = [] \/ forall x, get (0, FEmpty) (specs s) x = fddp_spec x) ->
  exists s', exec (fddp_start w) s = Ok s' /\ active s' = w /\ lits (specs s') /\
    (forall x, get (0, FEmpty) (specs s') x = fddp_spec x) /\
    columns s' = copies (S n) fddp_names /\ line s' = line s /\
    out s' = out s ++ (if w then [Head (copies (S n) (List.map title fddp_cols))] else []) /\
    (List.length (columns s) = cap s -> block s < block s') /\
    cap s' = grow (List.length (columns s)) (cap s) 8.
Proof.
  intros C L G. rewrite start_ops. cbn [LoggerModel.exec LoggerModel.step set_active bind]. rewrite exec_app.
  destruct (adds_ok fddp_cols (St w (columns s) (block s) (cap s) (specs s) (line s) (out s)) L)
    as [s1 [E [A [C1 [L1 [S1 [Ln [O [Bl [Bl' Cp]]]]]]]]]].
  rewrite E. cbn [bind]. cbn [active columns block cap specs line out] in *.
  assert (C2 : columns s1 = copies (S n) fddp_names).
  { rewrite C1, C. unfold copies. change (S n) with (1 + n). rewrite Nat.add_comm, repeat_app, concat_app. simpl.
    reflexivity. }
  assert (G1 : forall x, get (0, FEmpty) (specs s1) x = fddp_spec x).
  { intros x. unfold get. rewrite S1. destruct G as [G|G].
    - rewrite G. simpl. unfold from, fddp_spec. now destruct (List.find _ fddp_cols).
    - specialize (G x). unfold get in G. destruct (assoc x (specs s)); auto.
      revert G. unfold fddp_spec, from. destruct (List.find _ fddp_cols); auto. }
  assert (F : forall x, In x (columns s1) -> assoc x (specs s1) <> None).
  { intros x I. rewrite C2 in I.
    assert (J : In x fddp_names).
    { clear -I. unfold copies in I. revert I. generalize (S n). intros k. generalize fddp_names. intros nn. induction k; simpl repeat; simpl List.concat; [easy|].
      intros I. apply in_app_or in I. tauto. }
    specialize (G1 x). unfold get in G1. destruct (assoc x (specs s1)); [easy|].
    unfold fddp_names in J. simpl in J. repeat (destruct J as [<-|J]; [discriminate G1|]). easy. }
  assert (X : exists s', headline bucket s1 = Ok s' /\ active s' = w /\ specs s' = specs s1 /\ columns s' = columns s1 /\
    line s' = line s1 /\ block s' = block s1 /\ cap s' = cap s1 /\
    out s' = out s1 ++ (if w then [Head (copies (S n) (List.map title fddp_cols))] else [])).
  { unfold headline. rewrite A. destruct w.
    - rewrite each_all; [|now apply lits_good|exact F]. simpl. eexists. split; [reflexivity|]. simpl. repeat split; auto.
      do 3 f_equal. rewrite C2, map_map, map_copies, combine_copies; [|now rewrite map_length].
      f_equal. unfold fddp_names. rewrite map_map.
      assert (Y : forall (f : col -> string) (g : col -> nat) l, combine (List.map f l) (List.map g l) = List.map (fun c => (f c, g c)) l).
      { intros f g l. induction l; simpl; congruence. }
      rewrite Y. refine (map_ext_in _ title fddp_cols _). intros c Ic. unfold title. f_equal. rewrite G1.
      simpl in Ic. repeat (destruct Ic as [<-|Ic]; [reflexivity|]). easy.
    - exists s1. rewrite app_nil_r. repeat split; auto. }
  destruct X as [s' [E' [A' [Sp [C' [L' [B' [P' O']]]]]]]].
  exists s'. cbn [LoggerModel.exec LoggerModel.step]. rewrite E'. cbn [bind LoggerModel.exec]. rewrite Sp, C', L', B', P', O', O, Cp, Ln.
  repeat split; auto. intros Q. apply Bl'; auto. discriminate.
Qed.

(** a run from a state whose keys are all literals *)
Record sinv (n : nat) (o : option (vals V)) (s : st V) : Prop := {
  s_cols : columns s = copies n fddp_names;
  s_lits : lits (specs s);
  s_spec : specs s = [] \/ forall x, get (0, FEmpty) (specs s) x = fddp_spec x;
  s_line : lits (line s);
  s_cells : forall x, get Blank (line s) x = fddp_cell o x;
  s_cost : key_of "cost" (line s) = None }.

Lemma run_ok n o s r : sinv n o s ->
  exists s', exec (fddp_ops r) s = Ok s' /\ lits (specs s') /\ binv (S n) (fddp_last o r) s' /\
    out s' = out s ++ (if f_verbose r then fddp_print (S n) o r else []) /\
    (f_verbose r = false -> sinv (S n) (fddp_last o r) s') /\
    (prints r -> exists j, key_of "cost" (line s') = Some (View (block s') j "cost")) /\
    cap s' = grow (List.length (columns s)) (cap s) 8.
Proof.
  intros [S1 S2 S3 S4 S5 S6]. unfold fddp_ops. rewrite exec_app.
  destruct (start_ok n s (f_verbose r) S1 S2 S3) as [s1 [E1 [A1 [L1 [G1 [C1 [Ln1 [O1 [_ P1]]]]]]]]]. rewrite E1. cbn [bind].
  assert (B1 : binv (S n) o s1).
  { constructor; auto; rewrite Ln1; [now apply lits_good|exact S5]. }
  rewrite exec_app.
  destruct (iters_ok (f_iters r) (S n) o s1 B1) as [s2 [E2 [B2 [M2 [O2 [L2 [Q2 [K2 [N2 _]]]]]]]]]; [left; now rewrite Ln1|].
  rewrite E2. cbn [bind]. destruct M2 as [A2 [C2 [Bl2 P2]]].
  rewrite A1 in *. rewrite Ln1 in *.
  (* the end *)
  assert (END : exists s', exec (fddp_end (f_exit r)) s2 = Ok s' /\ binv (S n) (fddp_last o r) s' /\ same s2 s' /\
     out s' = out s2 ++ (if f_verbose r then match f_exit r with
  | Before => [Row (copies (S n) (fddp_row (last_of o (f_iters r)))); End true]
  | After v c => [Row (copies (S n) (fddp_row (Some v))); End c]
  | Exhausted => [End false]
  | Thrown _ => []
  end else []) /\
     (f_verbose r = false -> lits (line s2) -> lits (line s') /\ key_of "cost" (line s') = key_of "cost" (line s2)) /\
     (prints r -> exists j, key_of "cost" (line s') = Some (View (block s') j "cost"))).
  { assert (FIN : forall c (t : st V), exec [Finish c] t =
        Ok (St (active t) (columns t) (block t) (cap t) (specs t) (line t) (out t ++ (if active t then [End c] else [])))).
    { intros c t. simpl. unfold finish. destruct t as [[] a b c' d e f]; simpl; auto. now rewrite app_nil_r. }
    unfold fddp_last, prints. destruct (f_exit r) as [|v c| |[v|]] eqn:X; cbn [fddp_end].
    - destruct (log_ok _ _ _ B2) as [s3 [E3 [B3 [M3 [O3 [L3 [K3 N3]]]]]]].
      change (exec [Log; Finish true] s2) with (bind (log bucket s2) (exec [Finish true])).
      rewrite E3. cbn [bind]. rewrite FIN.
      destruct M3 as [A3 [C3 [Bl3 P3]]].
      eexists. split; [reflexivity|]. split; [|split; [repeat split; simpl; auto|split; [|split]]].
      + destruct B3. constructor; simpl; auto.
      + simpl. rewrite O3, A3, A2. destruct (f_verbose r); now rewrite <- app_assoc, ?app_nil_r.
      + simpl. intros Vb Li. rewrite L3 by congruence. auto.
      + simpl. intros [Vb _]. rewrite Bl3. destruct (key_of "cost" (line s2)) as [k|] eqn:Q.
        * destruct K2 as [K2|[j K2]]; [discriminate|]. exists j. rewrite <- K2. now apply K3.
        * apply N3; auto. congruence.
    - rewrite exec_app. destruct (entries_ok v _ _ _ B2) as [s3 [E3 [B3 [M3 [O3 L3]]]]]. rewrite E3. cbn [bind].
      destruct (log_ok _ _ _ B3) as [s4 [E4 [B4 [M4 [O4 [L4 [K4 N4]]]]]]].
      change (exec [Log; Finish c] s3) with (bind (log bucket s3) (exec [Finish c])).
      rewrite E4. cbn [bind]. rewrite FIN.
      destruct M3 as [A3 [C3 [Bl3 P3]]]. destruct M4 as [A4 [C4 [Bl4 P4]]].
      assert (KK : key_of "cost" (line s3) = key_of "cost" (line s2)).
      { rewrite L3. unfold put_all. rewrite !key_put; auto; discriminate. }
      eexists. split; [reflexivity|]. split; [|split; [repeat split; simpl; congruence|split; [|split]]].
      + destruct B4. constructor; simpl; auto.
      + simpl. rewrite O4, O3, A4, A3, A2. destruct (f_verbose r); now rewrite <- app_assoc, ?app_nil_r.
      + simpl. intros Vb Li. rewrite L4 by congruence. split; [|exact KK]. rewrite L3. unfold put_all. now repeat apply lits_put.
      + simpl. intros [Vb _]. rewrite Bl4, Bl3. destruct (key_of "cost" (line s3)) as [k|] eqn:Q.
        * destruct K2 as [K2|[j K2]]; [congruence|]. exists j. rewrite <- K2, <- KK. now apply K4.
        * destruct N4 as [j N4]; auto; [congruence|]. exists j. now rewrite N4, Bl3.
    - rewrite FIN. eexists. split; [reflexivity|]. split; [|split; [repeat split; simpl; auto|split; [|split]]].
      + destruct B2. constructor; simpl; auto.
      + simpl. now rewrite A2.
      + simpl. auto.
      + simpl. intros [Vb [H|[]]]. apply N2; auto.
    - destruct (entries_ok v _ _ _ B2) as [s3 [E3 [B3 [M3 [O3 L3]]]]]. exists s3. split; [exact E3|]. split; [exact B3|]. split; [exact M3|].
      assert (KK : key_of "cost" (line s3) = key_of "cost" (line s2)).
      { rewrite L3. unfold put_all. rewrite !key_put; auto; discriminate. }
      split; [|split].
      + rewrite O3. destruct (f_verbose r); now rewrite app_nil_r.
      + intros _ Li. split; [|exact KK]. rewrite L3. unfold put_all. now repeat apply lits_put.
      + intros [Vb [H|[]]]. rewrite KK. destruct M3 as [_ [_ [-> _]]]. apply N2; auto.
    - exists s2. split; [reflexivity|]. split; [exact B2|]. split; [repeat split|]. split; [destruct (f_verbose r); now rewrite app_nil_r|].
      split; [auto|]. intros [Vb [H|[]]]. apply N2; auto. }
  destruct END as [s' [E' [B' [M' [O' [L' K']]]]]]. destruct M' as [A' [C' [Bl' P']]].
  exists s'. split; [exact E'|]. split; [exact (b_lits _ _ _ B')|]. split; [exact B'|]. split; [|split; [|split]].
  - rewrite O', O2, O1. unfold fddp_print. destruct (f_verbose r); simpl; rewrite <- ?app_assoc, ?app_nil_r; reflexivity.
  - intros Vb. destruct (L' Vb) as [Q1 Q3]; [apply L2; auto|].
    constructor; try (apply B'; fail); auto.
    + right. apply B'.
    + rewrite Q3, Q2; auto.
  - exact K'.
  - rewrite P', P2. exact P1.
Qed.

Lemma sinv_fresh : sinv 0 None (@fresh V).
Proof. constructor; simpl; auto; constructor. Qed.

Lemma quiet_runs qs : forall n o s, sinv n o s -> Forall (fun r => f_verbose r = false) qs ->
  exists s', exec (flat_map fddp_ops qs) s = Ok s' /\ sinv (n + List.length qs) (List.fold_left fddp_last qs o) s' /\ out s' = out s.
Proof.
  induction qs as [|r qs IH]; intros n o s S0 Q; cbn [flat_map List.length fold_left].
  { exists s. rewrite Nat.add_0_r. auto. }
  inversion Q; subst. rewrite exec_app.
  destruct (run_ok n o s r S0) as [s1 [E1 [_ [_ [O1 [S1 _]]]]]]. rewrite E1. cbn [bind].
  destruct (IH (S n) (fddp_last o r) s1 (S1 H1) H2) as [s2 [E2 [S2 O2]]]. exists s2. split; auto. split.
  - now rewrite Nat.add_succ_r.
  - rewrite O2, O1, H1. apply app_nil_r.
Qed.

(** A verbose SolverFDDP run after any number of quiet ones: nothing throws, no dead key is
    read.  The table has one copy of the columns for each run so far, nothing under "cost",
    and the row printed on convergence repeats the previous one. *)
Theorem C67_fddp_partial (qs : list (fddp_run V)) (r : fddp_run V) :
  Forall (fun r => f_verbose r = false) qs ->
  exists s, exec (flat_map fddp_ops qs ++ fddp_ops r) fresh = Ok s /\
    out s = if f_verbose r then fddp_print (S (List.length qs)) (List.fold_left fddp_last qs None) r else [].
Proof.
  intros Q. rewrite exec_app. destruct (quiet_runs qs 0 None (@fresh V) sinv_fresh Q) as [s1 [E1 [S1 O1]]]. rewrite E1. cbn [bind].
  destruct (run_ok _ _ s1 r S1) as [s2 [E2 [_ [_ [O2 _]]]]]. exists s2. split; auto. rewrite O2, O1. reflexivity.
Qed.

(** ** Dead keys *)
Definition dead (s : st V) : Prop := exists k, key_of "cost" (line s) = Some k /\ read (block s) k = None.

Lemma find_cases {A} b x (m : map A) : find bucket b x m = Ub \/ exists o, find bucket b x m = Ok o.
Proof.
  induction m as [|[k v] m IH]; simpl; eauto. destruct (Nat.eqb _ _); auto.
  destruct (read b k); auto. destruct (String.eqb _ _); eauto.
Qed.
Lemma ioa_dead x (c : cell V) (s : st V) : x <> "cost" -> dead s ->
  insert_or_assign bucket (block s) (Lit x) c (line s) = Ub \/
  exists m, insert_or_assign bucket (block s) (Lit x) c (line s) = Ok m /\ key_of "cost" m = key_of "cost" (line s).
Proof.
  intros N _. unfold insert_or_assign; simpl. destruct (find_cases (block s) x (line s)) as [->|[o ->]]; simpl; auto.
  right. destruct o; eexists; split; try reflexivity; [apply key_assign|]. simpl.
  destruct (String.eqb_spec x "cost"); [contradiction|reflexivity].
Qed.

Record dinv (n : nat) (s : st V) : Prop := {
  d_cols : columns s = copies (S n) fddp_names; d_lits : lits (specs s);
  d_spec : forall x, get (0, FEmpty) (specs s) x = fddp_spec x; d_act : active s = true; d_dead : dead s }.

Lemma entry_dead n x v c s : x <> "cost" -> dinv n s ->
  render (snd (fddp_spec x)) (fst (fddp_spec x)) v = Ok c ->
  add_entry bucket x v s = Ub \/ exists s', add_entry bucket x v s = Ok s' /\ dinv n s'.
Proof.
  intros N [D1 D2 D3 D4 D5] R. destruct (entry_spec x v c s D2 D3 R) as [sp [L [G E]]]. rewrite E.
  destruct (ioa_dead x c s N D5) as [->|[m [-> K]]]; simpl; auto. right. eexists. split; [reflexivity|].
  constructor; simpl; auto. destruct D5 as [k [K1 K2]]. exists k. simpl. split; congruence.
Qed.
Lemma entries_dead n v s : dinv n s ->
  exec (fddp_entries v) s = Ub \/ exists s', exec (fddp_entries v) s = Ok s' /\ dinv n s'.
Proof.
  intros D. unfold fddp_entries. cbn [LoggerModel.exec LoggerModel.step].
  do 8 (match goal with
  | D : dinv n ?t |- context [add_entry bucket ?x ?w ?t] =>
     let s' := fresh "s" in let D' := fresh "D" in let E := fresh "E" in
     destruct (entry_dead n x w _ t ltac:(discriminate) D eq_refl) as [E|[s' [E D']]];
     rewrite E; cbn [bind]; [now left|]; clear E D end).
  right. eexists. split; [reflexivity|]. assumption.
Qed.
Lemma log_dead n s : dinv n s -> log bucket s = Ub.
Proof.
  intros [D1 _ _ D4 [k [K R]]]. unfold log. rewrite D4.
  assert (I : In "cost" (columns s)). { rewrite D1. unfold copies. simpl. tauto. }
  assert (X : forall cs i m, In "cost" cs -> key_of "cost" m = Some k -> each bucket (block s) i (@Blank V) cs m = Ub).
  { clear -R. induction cs as [|y cs IH]; intros i m I K; [easy|]. simpl. unfold index; simpl.
    destruct (String.eqb_spec y "cost") as [->|N].
    - now rewrite (dead_find _ _ _ _ K R).
    - destruct I as [->|I]; [contradiction|].
      destruct (find_cases (block s) y m) as [->|[o ->]]; simpl; auto. destruct o; simpl.
      + now rewrite IH.
      + rewrite IH; auto. simpl. destruct (String.eqb_spec y "cost"); [contradiction|auto]. }
  now rewrite X.
Qed.
Lemma body_dead n l e s : dinv n s ->
  l <> [] \/ match e with Before | After _ _ => True | _ => False end ->
  exec (flat_map (fun v => fddp_entries v ++ [Log]) l ++ fddp_end e) s = Ub.
Proof.
  intros D P. destruct l as [|v l].
  - destruct P as [P|P]; [contradiction|]. destruct e as [|v c| |]; try easy; cbn [flat_map app fddp_end].
    + cbn [LoggerModel.exec LoggerModel.step]. now rewrite (log_dead n s D).
    + rewrite exec_app. destruct (entries_dead n v s D) as [->|[s' [-> D']]]; auto. cbn [bind LoggerModel.exec LoggerModel.step].
      now rewrite (log_dead n s' D').
  - cbn [flat_map]. rewrite <- !app_assoc, exec_app. destruct (entries_dead n v s D) as [->|[s' [-> D']]]; auto.
    cbn [bind app LoggerModel.exec LoggerModel.step]. now rewrite (log_dead n s' D').
Qed.

(** The first two runs of a SolverFDDP, both verbose and printing a row: the second reads a
    key whose characters were freed when the vector of column names grew. *)
Theorem C67_dangling_refuted (r1 r2 : fddp_run V) (rest : list (op V)) :
  prints r1 -> prints r2 -> exec (fddp_ops r1 ++ fddp_ops r2 ++ rest) fresh = Ub.
Proof.
  intros P1 [V2 P2]. rewrite exec_app.
  destruct (run_ok 0 None (@fresh V) r1 sinv_fresh) as [s1 [E1 [L1 [B1 [_ [_ [K1 C1]]]]]]]. rewrite E1. cbn [bind].
  destruct (K1 P1) as [j K]. simpl in C1.
  rewrite exec_app. unfold fddp_ops. rewrite exec_app.
  destruct (start_ok 1 s1 (f_verbose r2) (b_cols _ _ _ B1) L1 (or_intror (b_spec _ _ _ B1)))
    as [s2 [E2 [A2 [L2 [G2 [Co2 [Ln2 [_ [Bl2 _]]]]]]]]]. rewrite E2. cbn [bind].
  rewrite (body_dead 1 (f_iters r2) (f_exit r2) s2); auto.
  constructor; auto; [congruence|]. exists (View (block s1) j "cost"). rewrite Ln2. split; auto. simpl.
  assert (block s1 < block s2). { apply Bl2. rewrite C1, (b_cols _ _ _ B1). reflexivity. }
  destruct (Nat.eqb_spec (block s2) (block s1)); [lia|reflexivity].
Qed.

(** ** All runs *)
(** the cost is never printed, though the table has a column for it *)
Definition blank_cost (s : st V) : Prop :=
  (forall k c, In (k, c) (line s) -> text k = "cost" -> c = Blank) /\
  (forall cells, In (Row cells) (out s) -> nth_error cells 5 = Some Blank).
Lemma find_in {A} b x (m : map A) v : find bucket b x m = Ok (Some v) -> exists k, In (k, v) m /\ text k = x.
Proof.
  induction m as [|[k w] m IH]; simpl; [discriminate|]. destruct (Nat.eqb _ _).
  - destruct (read b k) as [s|] eqn:R; [|discriminate]. destruct (String.eqb_spec s x) as [->|N].
    + intros [= <-]. exists k. split; auto. destruct k as [s'|b' i s']; simpl in *; [congruence|]. destruct (Nat.eqb _ _); congruence.
    + intros H. destruct (IH H) as [k' [I E]]. eauto.
  - intros H. destruct (IH H) as [k' [I E]]. eauto.
Qed.
Lemma assign_in {A} x (v : A) m k c : In (k, c) (assign x v m) -> In (k, c) m \/ text k = x.
Proof.
  induction m as [|[k' w] m IH]; simpl; [easy|]. destruct (String.eqb_spec (text k') x) as [E|N]; simpl.
  - intros [H|H]; auto. injection H as <- _. auto.
  - intros [H|H]; auto. destruct (IH H); auto.
Qed.
Lemma each_blank b cs : forall i m cells m', (forall k (c : cell V), In (k, c) m -> text k = "cost" -> c = Blank) ->
  each bucket b i Blank cs m = Ok (cells, m') ->
  (forall k c, In (k, c) m' -> text k = "cost" -> c = Blank) /\
  (forall j, nth_error cs j = Some "cost" -> nth_error cells j = Some Blank).
Proof.
  induction cs as [|y cs IH]; simpl; intros i m cells m' H E.
  { injection E as <- <-. split; auto. intros [|j]; discriminate. }
  unfold index in E; simpl in E. destruct (find bucket b y m) as [o| |] eqn:F; simpl in E; try discriminate.
  destruct o as [v|]; simpl in E.
  - destruct (each bucket b (S i) Blank cs m) as [[c1 m1]| |] eqn:E1; simpl in E; try discriminate.
    injection E as <- <-. destruct (IH _ _ _ _ H E1) as [H1 H2]. split; auto.
    intros [|j]; simpl; auto. intros [= ->]. destruct (find_in _ _ _ _ F) as [k [I T]]. f_equal. eauto.
  - destruct (each bucket b (S i) Blank cs _) as [[c1 m1]| |] eqn:E1; simpl in E; try discriminate.
    injection E as <- <-. edestruct IH as [H1 H2]; [|exact E1|].
    { intros k c [J|J]; [now injection J as <- <-|eauto]. }
    split; auto. intros [|j]; simpl; auto.
Qed.

(** the operations of a run *)
Definition quiet_op (o : op V) : bool :=
  match o with AddEntry x _ => negb (String.eqb x "cost") | AddColumn _ _ _ => true | _ => true end.
Definition starts (s : st V) : Prop := exists tl, columns s = fddp_names ++ tl.
Lemma step_blank o (s s' : st V) : quiet_op o = true -> blank_cost s -> step bucket o s = Ok s' ->
  (o = Log -> starts s) -> blank_cost s'.
Proof.
  intros Q [B1 B2] E S0. destruct o as [n w f|x v| | |c|a]; simpl in E, Q.
  - unfold add_column in E. destruct (emplace _ _ _ _ _) as [m| |]; simpl in E; try discriminate. injection E as <-. split; cbn [line out]; auto.
  - unfold add_entry in E. destruct (index _ _ _ _ _) as [[p m]| |]; simpl in E; try discriminate.
    destruct (render _ _ _) as [c| |]; simpl in E; try discriminate.
    unfold insert_or_assign in E. simpl in E. destruct (find _ _ _ (line s)) as [q| |]; simpl in E; try discriminate.
    destruct q; simpl in E; injection E as <-; split; cbn [line out]; auto.
    + intros k c' I T. destruct (assign_in _ _ _ _ _ I); eauto. rewrite T in H. subst. discriminate.
    + intros k c' [I|I] T; [|eauto]. injection I as <- <-. simpl in T. subst. discriminate.
  - unfold headline in E. destruct (active s); [|injection E as <-; now split].
    destruct (each _ _ _ _ _ _) as [[p m]| |]; simpl in E; try discriminate. injection E as <-. split; cbn [line out]; auto.
    intros cells I. apply in_app_or in I. destruct I as [I|[I|[]]]; [auto|discriminate].
  - destruct (S0 eq_refl) as [tl T]. unfold log in E. destruct (active s); [|injection E as <-; now split].
    destruct (each _ _ _ _ _ _) as [[p m]| |] eqn:E1; simpl in E; try discriminate. injection E as <-.
    destruct (each_blank _ _ _ _ _ _ B1 E1) as [H1 H2]. split; cbn [line out]; auto.
    intros cells I. apply in_app_or in I. destruct I as [I|[I|[]]]; auto. injection I as <-. apply H2. now rewrite T.
  - unfold finish in E. destruct (active s); injection E as <-; split; cbn [line out]; auto.
    intros cells I. apply in_app_or in I. destruct I as [I|[I|[]]]; [auto|discriminate].
  - injection E as <-. split; cbn [line out]; auto.
Qed.
Lemma step_cols o (s s' : st V) : step bucket o s = Ok s' ->
  columns s' = columns s ++ match o with AddColumn n _ _ => [n] | _ => [] end.
Proof.
  intros E. destruct o as [n w f|x v| | |c|a]; simpl in E; rewrite ?app_nil_r.
  - unfold add_column in E. destruct (emplace _ _ _ _ _) as [m| |]; simpl in E; try discriminate. now injection E as <-.
  - unfold add_entry in E. destruct (index _ _ _ _ _) as [[p m]| |]; simpl in E; try discriminate.
    destruct (render _ _ _) as [c| |]; simpl in E; try discriminate.
    destruct (insert_or_assign _ _ _ _ _); simpl in E; try discriminate. now injection E as <-.
  - unfold headline in E. destruct (active s); [|now injection E as <-].
    destruct (each _ _ _ _ _ _) as [[p m]| |]; simpl in E; try discriminate. now injection E as <-.
  - unfold log in E. destruct (active s); [|now injection E as <-].
    destruct (each _ _ _ _ _ _) as [[p m]| |]; simpl in E; try discriminate. now injection E as <-.
  - unfold finish in E. destruct (active s); now injection E as <-.
  - now injection E as <-.
Qed.
Lemma exec_cols l : forall s s' : st V, exec l s = Ok s' ->
  columns s' = columns s ++ flat_map (fun o => match o with AddColumn n _ _ => [n] | _ => [] end) l.
Proof.
  induction l as [|o l IH]; intros s s' E; cbn [LoggerModel.exec] in E.
  - injection E as <-. simpl. now rewrite app_nil_r.
  - destruct (step bucket o s) as [s1| |] eqn:E1; try discriminate. rewrite (IH _ _ E), (step_cols _ _ _ E1), <- app_assoc. reflexivity.
Qed.
Lemma exec_blank l : forall s s', forallb quiet_op l = true -> starts s -> blank_cost s -> exec l s = Ok s' -> blank_cost s'.
Proof.
  induction l as [|o l IH]; intros s s' Q S B E; cbn [LoggerModel.exec forallb] in *.
  - now injection E as <-.
  - apply andb_prop in Q. destruct Q as [Q1 Q2]. destruct (step bucket o s) as [s1| |] eqn:E1; try discriminate.
    apply (IH s1); auto.
    + destruct S as [tl S]. eexists. rewrite (step_cols _ _ _ E1), S, <- app_assoc. reflexivity.
    + eapply step_blank; eauto.
Qed.

Lemma body_ops (P : op V -> bool) (l : list (vals V)) e :
  (forall v, forallb P (fddp_entries v) = true) -> P Log = true -> (forall c, P (Finish c) = true) ->
  forallb P (flat_map (fun v => fddp_entries v ++ [Log]) l ++ fddp_end e) = true.
Proof.
  intros H1 H2 H3. rewrite forallb_app. apply andb_true_intro. split.
  - induction l as [|v l IH]; auto. cbn [flat_map]. rewrite !forallb_app, H1, IH. cbn [forallb]. now rewrite H2.
  - destruct e as [|v c| |[v|]]; cbn [fddp_end]; rewrite ?forallb_app, ?H1; cbn [forallb]; now rewrite ?H2, ?H3.
Qed.
Lemma run_columns r : flat_map (fun o => match o with AddColumn n _ _ => [n] | _ => [] end) (@fddp_ops V r) = fddp_names.
Proof.
  unfold fddp_ops. rewrite flat_map_app.
  assert (X : forall l : list (op V), forallb (fun o => match o with AddColumn _ _ _ => false | _ => true end) l = true ->
     flat_map (fun o => match o with AddColumn n _ _ => [n] | _ => [] end) l = []).
  { induction l as [|o l IH]; simpl; auto. destruct o; simpl; auto; discriminate. }
  rewrite (X (_ ++ fddp_end _)); [reflexivity|]. apply body_ops; auto.
Qed.

(** Each run adds the eight columns again. *)
Theorem C67_columns_refuted (rs : list (fddp_run V)) s :
  exec (flat_map fddp_ops rs) fresh = Ok s -> columns s = copies (List.length rs) fddp_names.
Proof.
  intros E. rewrite (exec_cols _ _ _ E). simpl columns. rewrite app_nil_l. clear E s.
  induction rs as [|r rs IH]; auto. cbn [flat_map]. rewrite flat_map_app, run_columns, IH. reflexivity.
Qed.

(** The cell under "cost" is blank in all rows of all runs. *)
Theorem C67_cost_refuted (rs : list (fddp_run V)) s :
  exec (flat_map fddp_ops rs) fresh = Ok s ->
  forall cells, In (Row cells) (out s) -> nth_error cells 5 = Some Blank.
Proof.
  assert (G : forall rs s0 s, columns s0 = [] \/ starts s0 -> blank_cost s0 ->
    exec (flat_map fddp_ops rs) s0 = Ok s -> blank_cost s).
  { clear rs s. induction rs as [|r rs IH]; intros s0 s C B E; cbn [flat_map] in E.
    - now injection E as <-.
    - rewrite exec_app in E. unfold fddp_ops at 1 in E. rewrite exec_app in E.
      destruct (exec (fddp_start (f_verbose r)) s0) as [s1| |] eqn:E1; cbn [bind] in E; try discriminate.
      destruct (exec (flat_map _ (f_iters r) ++ _) s1) as [s2| |] eqn:E2; cbn [bind] in E; try discriminate.
      assert (C1 : columns s1 = columns s0 ++ fddp_names) by exact (exec_cols _ _ _ E1).
      assert (S1 : starts s1).
      { destruct C as [C|[tl C]]; rewrite C in C1; [exists []; exact C1|].
        exists (tl ++ fddp_names). rewrite C1, <- app_assoc. reflexivity. }
      assert (B1 : blank_cost s1).
      { assert (N : forall l t t', ~ In Log l -> forallb quiet_op l = true -> blank_cost t -> exec l t = Ok t' -> blank_cost t').
        { clear. induction l as [|o l IH]; intros t t' N Q B E; cbn [LoggerModel.exec forallb] in *.
          - now injection E as <-.
          - apply andb_prop in Q. destruct Q as [Q1 Q2]. destruct (step bucket o t) as [t1| |] eqn:E1; try discriminate.
            apply (IH t1); auto; [intros I; apply N; simpl; auto|].
            eapply step_blank; eauto. intros ->. exfalso. apply N. simpl; auto. }
        apply (N _ _ _) in E1; auto. rewrite start_ops. intros I. simpl in I.
        repeat (destruct I as [I|I]; [discriminate|]). easy. }
      assert (B2 : blank_cost s2).
      { eapply exec_blank; [|exact S1|exact B1|exact E2]. apply body_ops; auto. }
      apply (IH s2 s); auto. right. destruct S1 as [tl S1]. eexists. rewrite (exec_cols _ _ _ E2), S1, <- app_assoc. reflexivity. }
  intros E. refine (proj2 (G rs fresh s _ _ E)); [left; reflexivity|]. split; simpl; easy.
Qed.
End P.

(** ** Examples *)
Definition hash (s : string) : nat := String.length s.
Definition v1 : vals nat := Vals 1 10 11 12 13 14 15 16 17 18 1 19.
Definition v2 : vals nat := Vals 2 20 21 22 23 24 25 26 27 28 1 29.

(** a quiet run, a verbose one left by an exception, a verbose one *)
Example C67_proxddp_example :
  match @exec nat hash (prox_ctor ++ flat_map prox_ops
     [Run false [(false, v1, true)] (Some true); Run true [(false, v1, true); (true, v2, false)] None;
      Run true [(false, v2, true)] (Some true)]) fresh with
  | Ok s => out s = [prox_head nat; Row (prox_row nat v1); prox_head nat; prox_head nat; Row (prox_row nat v2); End true]
  | _ => False end.
Proof. vm_compute. reflexivity. Qed.
(** two columns, one logged twice *)
Example C67_table_example :
  let cols := [("a", FInt, 3); ("b", FSci, 4)] in
  let l := [Headline; AddEntry "a" (VInt 1); AddEntry "b" (VReal 5); Log; AddEntry "b" (VReal 6); Log; Active false; Log] in
  NoDup (List.map name cols) /\ complete nat cols (fun _ => None) true l /\
  shown nat cols (fun _ => None) true l =
    [Head [("a", 3); ("b", 4)]; Row [Cell FInt 3 (VInt 1); Cell FSci 4 (VReal 5)];
     Row [Cell FInt 3 (VInt 1); Cell FSci 4 (VReal 6)]].
Proof.
  split; [|split]; [repeat constructor; simpl; intuition discriminate| |reflexivity].
  simpl. repeat split; try (apply has_column; reflexivity); try discriminate;
  try (intros _ c [<-|[<-|[]]]; discriminate).
  - exists ("a", FInt, 3). simpl. auto.
  - exists ("b", FSci, 4). simpl. auto.
  - exists ("b", FSci, 4). simpl. auto.
Qed.
(** one iteration, then convergence: its row is printed twice *)
Example C67_fddp_example :
  match @exec nat hash (fddp_ops (FRun true [v1] Before)) fresh with
  | Ok s => out s = [Head (List.map title fddp_cols); Row (fddp_row nat (Some v1)); Row (fddp_row nat (Some v1)); End true]
  | _ => False end.
Proof. vm_compute. reflexivity. Qed.
(** convergence at once: a blank row; after a quiet run: the row of that run, twice as wide *)
Example C67_blank_example :
  match @exec nat hash (fddp_ops (FRun true [] Before)) fresh with
  | Ok s => out s = [Head (List.map title fddp_cols); Row (repeat Blank 8); End true]
  | _ => False end /\
  match @exec nat hash (fddp_ops (FRun false [v1] Before) ++ fddp_ops (FRun true [] Before)) fresh with
  | Ok s => out s = [Head (List.map title fddp_cols ++ List.map title fddp_cols);
                     Row (fddp_row nat (Some v1) ++ fddp_row nat (Some v1)); End true]
  | _ => False end.
Proof. vm_compute. split; reflexivity. Qed.
Example C67_dangling_example : @exec nat hash (fddp_ops (FRun true [v1] Before) ++ fddp_ops (FRun true [v2] Before) ++ []) fresh = Ub.
Proof. vm_compute. reflexivity. Qed.
(** later, the vector may have room: the third and the fourth run *)
Example C67_columns_example :
  match @exec nat hash (flat_map fddp_ops [FRun false [v1] Before; FRun false [v1] Before; FRun true [v1] Before; FRun true [v2] Before]) fresh with
  | Ok s => columns s = copies 4 fddp_names /\ List.length (out s) = 8
  | _ => False end.
Proof. vm_compute. split; reflexivity. Qed.
