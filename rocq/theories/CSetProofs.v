(** Proofs about the constraint-set model. *)
From Coq Require Import Reals List Lia Lra Bool Arith.
From Verif Require Import CSetModel CSetSpec.
Import ListNotations.
Local Open Scope R_scope.

(** ** Induction principle for nested products *)
Section CsetInd.
  Variable P : cset -> Prop.
  Hypothesis HEq : forall p, P (SEq p).
  Hypothesis HNeg : forall p, P (SNeg p).
  Hypothesis HBox : forall l u p, P (SBox l u p).
  Hypothesis HL1 : forall p, P (SL1 p).
  Hypothesis HProd : forall cs ns p, Forall P cs -> P (SProd cs ns p).
  Fixpoint cset_ind' (s : cset) : P s :=
    match s with
    | SEq p => HEq p | SNeg p => HNeg p | SBox l u p => HBox l u p
    | SL1 p => HL1 p
    | SProd cs ns p =>
        HProd cs ns p
          ((fix go cs : Forall P cs :=
              match cs with
              | [] => Forall_nil _
              | c :: cs' => Forall_cons c (cset_ind' c) (go cs')
              end) cs)
    end.
End CsetInd.

Definition layout_go :=
  fix go (cs : list cset) (ns : list nat) (n : nat) : option (list kind) :=
    match cs, ns with
    | [], [] => Some (repeat KFree n)
    | c :: cs', m :: ns' =>
        if Nat.leb m n then
          match layout c m, go cs' ns' (n - m)%nat with
          | Some a, Some b => Some (a ++ b)
          | _, _ => None
          end
        else None
    | _, _ => None
    end.

Lemma layout_prod cs ns p n : layout (SProd cs ns p) n = layout_go cs ns n.
Proof. reflexivity. Qed.

(** ** Lists *)
Lemma zip_with_length {A B C} (f : A -> B -> C) l l' :
  length l = length l' -> length (zip_with f l l') = length l.
Proof.
  revert l'; induction l as [|a l IH]; intros [|b l'] H; simpl in *;
    try discriminate; try reflexivity.
  f_equal; apply IH; lia.
Qed.

Fixpoint upd {A} (h : kind -> R -> A -> A) (ks : list kind) (z : list R)
  (out : list A) : list A :=
  match ks, z, out with
  | k :: ks', x :: z', o :: out' => h k x o :: upd h ks' z' out'
  | _, _, _ => out
  end.

Lemma upd_length {A} (h : kind -> R -> A -> A) ks z out :
  length (upd h ks z out) = length out.
Proof.
  revert z out; induction ks as [|k ks IH]; intros [|x z] [|o out]; simpl; auto.
Qed.

Lemma upd_app {A} (h : kind -> R -> A -> A) k1 k2 z out :
  (length k1 <= length z)%nat -> length z = length out ->
  upd h (k1 ++ k2) z out =
  upd h k1 (firstn (length k1) z) (firstn (length k1) out) ++
  upd h k2 (skipn (length k1) z) (skipn (length k1) out).
Proof.
  revert z out; induction k1 as [|k k1 IH]; intros z out H1 H2; simpl.
  - reflexivity.
  - destruct z as [|x z]; simpl in H1; [lia|].
    destruct out as [|o out]; simpl in H2; [lia|].
    simpl. f_equal. apply IH; lia.
Qed.

Lemma layout_length s : forall n ks, layout s n = Some ks -> length ks = n.
Proof.
  induction s as [p|p|l u p|p|cs ns p IH] using cset_ind'; intros n ks H.
  - inversion H; apply repeat_length.
  - inversion H; apply repeat_length.
  - simpl in H. destruct (Nat.eqb_spec (length l) n); simpl in H; [|discriminate].
    destruct (Nat.eqb_spec (length u) n); [|discriminate].
    inversion H; subst. apply zip_with_length; congruence.
  - inversion H; apply repeat_length.
  - rewrite layout_prod in H. revert ns n ks H.
    induction IH as [|c cs Hc Hcs IHcs]; intros ns n ks H.
    + destruct ns; [|discriminate]. inversion H; apply repeat_length.
    + destruct ns as [|m ns]; [discriminate|]. simpl in H.
      destruct (Nat.leb_spec m n); [|discriminate].
      destruct (layout c m) as [a|] eqn:Ea; [|discriminate].
      destruct (layout_go cs ns (n - m)) as [b|] eqn:Eb; [|discriminate].
      inversion H; subst. rewrite app_length, (Hc _ _ Ea), (IHcs _ _ _ Eb). lia.
Qed.

Lemma upd_free {A} (h : kind -> R -> A -> A) (hf : forall x o, h KFree x o = o)
  n z out : upd h (repeat KFree n) z out = out.
Proof.
  revert z out; induction n as [|n IH]; intros z out; simpl; auto.
  destruct z as [|x z]; auto. destruct out as [|o out]; auto.
  rewrite hf, IH; reflexivity.
Qed.

Lemma firstn_skipn_put {A} (out : list A) start n (b : list A) :
  length b = n -> (start + n <= length out)%nat ->
  firstn (start + n) (put out start b) = firstn start out ++ b /\
  skipn (start + n) (put out start b) = skipn (start + n) out /\
  length (put out start b) = length out.
Proof.
  intros Hb H. unfold put.
  assert (Hl : length (firstn start out ++ b) = (start + n)%nat).
  { rewrite app_length, firstn_length, Hb. lia. }
  rewrite app_assoc. repeat split.
  - rewrite firstn_app, Hl, Nat.sub_diag, firstn_O, app_nil_r.
    apply firstn_all2. lia.
  - rewrite skipn_app, Hl, Nat.sub_diag, skipn_all2 by lia. simpl.
    rewrite Hb. reflexivity.
  - rewrite app_length, Hl, skipn_length, Hb. lia.
Qed.

Lemma skipn_add {A} (l : list A) a b : skipn (a + b) l = skipn b (skipn a l).
Proof.
  revert l; induction a as [|a IH]; intros l; simpl; auto.
  destruct l; simpl; auto. now rewrite skipn_nil.
Qed.

(** ** The loop over blocks is a coordinate-wise update *)
Definition realises {A} (f : cset -> list R -> list A -> option (list A))
  (h : kind -> R -> A -> A) (s : cset) : Prop :=
  forall n ks z out, layout s n = Some ks -> length z = n -> length out = n ->
    f s z out = Some (upd h ks z out).

Lemma blk_loop_realises {A} (f : cset -> list R -> list A -> option (list A))
  (h : kind -> R -> A -> A) (hf : forall x o, h KFree x o = o) cs :
  Forall (realises f h) cs ->
  forall ns start z out ks,
    (start <= length z)%nat -> length out = length z ->
    layout_go cs ns (length z - start) = Some ks ->
    blk_loop f z cs ns start out =
    Some (firstn start out ++ upd h ks (skipn start z) (skipn start out)).
Proof.
  induction 1 as [|c cs Hc Hcs IH]; intros ns start z out ks Hs Ho Hk.
  - destruct ns; [|discriminate]. simpl in *. inversion Hk; subst.
    rewrite upd_free by assumption. now rewrite firstn_skipn.
  - destruct ns as [|m ns]; [discriminate|].
    simpl in Hk.
    destruct (Nat.leb_spec m (length z - start)); [|discriminate].
    destruct (layout c m) as [a|] eqn:Ea; [|discriminate].
    destruct (layout_go cs ns (length z - start - m)) as [b|] eqn:Eb;
      [|discriminate].
    inversion Hk; subst ks. clear Hk.
    pose proof (layout_length _ _ _ Ea) as La.
    cbn [blk_loop]. unfold seg.
    rewrite Ho.
    destruct (Nat.leb_spec (start + m) (length z)); [|lia].
    rewrite (Hc m a) by (auto; rewrite firstn_length, skipn_length; lia).
    set (o' := upd h a _ _).
    assert (Lo : length o' = m).
    { unfold o'. rewrite upd_length, firstn_length, skipn_length. lia. }
    destruct (firstn_skipn_put out start m o' Lo) as (P1 & P2 & P3); [lia|].
    change (blk_loop f z cs ns (start + m) (put out start o') =
            Some (firstn start out ++
                  upd h (a ++ b) (skipn start z) (skipn start out))).
    rewrite (IH ns (start + m)%nat z (put out start o') b); try lia.
    + rewrite P1, P2. f_equal. rewrite <- app_assoc. f_equal.
      rewrite upd_app by (rewrite ?skipn_length; lia).
      rewrite La. rewrite !skipn_add. reflexivity.
    + rewrite <- Eb. f_equal. lia.
Qed.

Lemma realises_prod {A} (f : cset -> list R -> list A -> option (list A))
  (h : kind -> R -> A -> A) (hf : forall x o, h KFree x o = o) cs ns p :
  (forall z out, f (SProd cs ns p) z out = blk_loop f z cs ns 0%nat out) ->
  Forall (realises f h) cs -> realises f h (SProd cs ns p).
Proof.
  intros Hf Hcs n ks z out Hk Hz Ho. rewrite Hf.
  rewrite (blk_loop_realises f h hf cs Hcs ns 0%nat z out ks); auto; try lia.
  rewrite Nat.sub_0_r, Hz. exact Hk.
Qed.

(** ** Scalar semantics of each routine *)
Definition sproj (k : kind) (x : R) : R :=
  match k with
  | KEq => 0 | KNeg => Rmin x 0 | KBox l u => Rmax (Rmin x u) l
  | KL1 mu => soft mu x | KFree => 0
  end.
Definition h_proj (k : kind) (x o : R) : R :=
  match k with KFree => o | _ => sproj k x end.
Definition sncp (k : kind) (x : R) : R :=
  match k with
  | KEq => x | KNeg => Rmax x 0 | KBox l u => x - Rmax (Rmin x u) l
  | KL1 mu => x - soft mu x | KFree => 0
  end.
Definition h_ncp (k : kind) (x o : R) : R :=
  match k with KFree => o | _ => sncp k x end.
Definition sact (k : kind) (x : R) : bool :=
  match k with
  | KEq => true | KNeg => gtb x 0 | KBox l u => gtb x u || gtb l x
  | KL1 mu => leb (Rabs x) mu | KFree => false
  end.
Definition h_act (k : kind) (x : R) (o : bool) : bool :=
  match k with KFree => o | _ => sact k x end.
Definition h_pj (k : kind) (x : R) (r : list R) : list R :=
  match k with KFree => r | _ => if sact k x then zero_row r else r end.
Definition h_nj (k : kind) (x : R) (r : list R) : list R :=
  match k with KFree => r | _ => if sact k x then r else zero_row r end.

Lemma same_len_true {A B} (l : list A) (l' : list B) :
  length l = length l' -> same_len l l' = true.
Proof. intros H; unfold same_len; rewrite H; apply Nat.eqb_refl. Qed.

Lemma upd_repeat {A} (h : kind -> R -> A -> A) k (g : R -> A) n z out :
  (forall x o, h k x o = g x) -> length z = n -> length out = n ->
  upd h (repeat k n) z out = map g z.
Proof.
  intros Hg. revert z out; induction n as [|n IH]; intros [|x z] [|o out] Hz Ho;
    simpl in *; try lia; auto.
  rewrite Hg, IH by lia. reflexivity.
Qed.

Lemma upd_zip {A} (h : kind -> R -> A -> A) (g : R -> R -> R -> A) lo up z out :
  (forall l u x o, h (KBox l u) x o = g l u x) ->
  length lo = length z -> length up = length z -> length out = length z ->
  upd h (zip_with KBox lo up) z out =
  zip_with (fun f x => f x) (zip_with (fun l u => g l u) lo up) z.
Proof.
  intros Hg. revert lo up out.
  induction z as [|x z IH]; intros [|l lo] [|u up] [|o out] H1 H2 H3;
    simpl in *; try lia; auto.
  rewrite Hg, IH by lia. reflexivity.
Qed.

Ltac box_case H :=
  simpl in H;
  match type of H with
  | context [Nat.eqb ?a ?b] => destruct (Nat.eqb_spec a b); simpl in H; [|discriminate]
  end;
  match type of H with
  | context [Nat.eqb ?a ?b] => destruct (Nat.eqb_spec a b); [|discriminate]
  end;
  inversion H; subst; clear H.

Lemma projection_realises s : realises projection h_proj s.
Proof.
  induction s as [p|p|l u p|p|cs ns p IH] using cset_ind'.
  - intros n ks z out Hk Hz Ho. inversion Hk; subst. simpl.
    rewrite same_len_true by congruence.
    rewrite (upd_repeat _ _ (fun _ => 0)) by auto.
    f_equal. clear Hk. revert z Ho.
    induction out as [|o out IHo]; intros [|x z] Ho; simpl in *; try lia; auto.
    f_equal; auto.
  - intros n ks z out Hk Hz Ho. inversion Hk; subst. simpl.
    rewrite same_len_true by congruence.
    now rewrite (upd_repeat _ _ (fun x => Rmin x 0)) by auto.
  - intros n ks z out Hk Hz Ho. box_case Hk. simpl.
    rewrite !same_len_true by congruence. simpl.
    rewrite (upd_zip _ (fun l u x => Rmax (Rmin x u) l)) by (auto; congruence).
    f_equal. unfold box_proj.
    match goal with H : length u = length z, H' : length l = length u |- _ => revert H H' | _ => idtac end.
    assert (length l = length z) as Hl by congruence.
    assert (length u = length z) as Hu by congruence.
    clear -Hl Hu. revert l u Hl Hu.
    induction z as [|x z IHz]; intros [|a l] [|b u] Hl Hu; simpl in *; try lia; auto.
    f_equal. apply IHz; lia.
  - intros n ks z out Hk Hz Ho. inversion Hk; subst. simpl.
    rewrite same_len_true by congruence.
    now rewrite (upd_repeat _ _ (soft (pp_mu p))) by auto.
  - apply realises_prod; auto.
Qed.

Lemma ncp_realises s : realises normal_cone_projection h_ncp s.
Proof.
  induction s as [p|p|l u p|p|cs ns p IH] using cset_ind'.
  - intros n ks z out Hk Hz Ho. inversion Hk; subst. simpl.
    rewrite same_len_true by congruence.
    rewrite (upd_repeat _ _ (fun x => x)) by auto. now rewrite map_id.
  - intros n ks z out Hk Hz Ho. inversion Hk; subst. simpl.
    rewrite same_len_true by congruence.
    now rewrite (upd_repeat _ _ (fun x => Rmax x 0)) by auto.
  - intros n ks z out Hk Hz Ho. box_case Hk. simpl.
    rewrite !same_len_true by congruence. simpl.
    rewrite (upd_zip _ (fun l u x => x - Rmax (Rmin x u) l)) by (auto; congruence).
    f_equal. unfold box_proj.
    assert (length l = length z) as Hl by congruence.
    assert (length u = length z) as Hu by congruence.
    clear -Hl Hu. revert l u Hl Hu.
    induction z as [|x z IHz]; intros [|a l] [|b u] Hl Hu; simpl in *; try lia; auto.
    f_equal. apply IHz; lia.
  - intros n ks z out Hk Hz Ho. inversion Hk; subst. simpl.
    rewrite same_len_true by congruence.
    rewrite (upd_repeat _ _ (fun x => x - soft (pp_mu p) x)) by auto.
    f_equal. clear. induction z as [|x z IH]; simpl; auto. now rewrite IH.
  - apply realises_prod; auto.
Qed.

Lemma active_realises s : realises active_set h_act s.
Proof.
  induction s as [p|p|l u p|p|cs ns p IH] using cset_ind'.
  - intros n ks z out Hk Hz Ho. inversion Hk; subst. simpl.
    rewrite same_len_true by congruence.
    rewrite (upd_repeat _ _ (fun _ => true)) by auto.
    f_equal. clear Hk. revert z Ho.
    induction out as [|o out IHo]; intros [|x z] Ho; simpl in *; try lia; auto.
    f_equal; auto.
  - intros n ks z out Hk Hz Ho. inversion Hk; subst. simpl.
    rewrite same_len_true by congruence.
    now rewrite (upd_repeat _ _ (fun x => gtb x 0)) by auto.
  - intros n ks z out Hk Hz Ho. box_case Hk. simpl.
    rewrite !same_len_true by congruence. simpl.
    rewrite (upd_zip _ (fun l u x => gtb x u || gtb l x)) by (auto; congruence).
    f_equal.
    assert (length l = length z) as Hl by congruence.
    assert (length u = length z) as Hu by congruence.
    clear -Hl Hu. revert l u Hl Hu.
    induction z as [|x z IHz]; intros [|a l] [|b u] Hl Hu; simpl in *; try lia; auto.
    f_equal. apply IHz; lia.
  - intros n ks z out Hk Hz Ho. inversion Hk; subst. simpl.
    rewrite same_len_true by congruence.
    now rewrite (upd_repeat _ _ (fun x => leb (Rabs x) (pp_mu p))) by auto.
  - apply realises_prod; auto.
Qed.

(** clearing rows with a mask *)
Lemma clear_rows_upd (keep : bool -> bool) (hj : kind -> R -> list R -> list R)
  ks z J :
  Forall (fun k => k <> KFree) ks ->
  (forall k x r, k <> KFree -> hj k x r = if keep (sact k x) then r else zero_row r) ->
  length ks = length z -> length J = length z ->
  clear_rows keep (upd h_act ks z (map (fun _ => false) z)) J = upd hj ks z J.
Proof.
  intros Hf Hh. revert z J. unfold clear_rows.
  induction Hf as [|k ks Hk Hks IH]; intros [|x z] [|r J] H1 H2;
    simpl in *; try lia; auto.
  rewrite Hh by assumption.
  replace (h_act k x false) with (sact k x) by (destruct k; auto; congruence).
  rewrite IH by lia. reflexivity.
Qed.

Lemma no_free_repeat k n : k <> KFree -> Forall (fun k => k <> KFree) (repeat k n).
Proof. intros H; induction n; simpl; auto. Qed.
Lemma no_free_box lo up : Forall (fun k => k <> KFree) (zip_with KBox lo up).
Proof.
  revert up; induction lo as [|l lo IH]; intros [|u up]; simpl; constructor; auto.
  discriminate.
Qed.

Lemma leaf_jac_realises (keep : bool -> bool)
  (hj : kind -> R -> list R -> list R) s z J n ks :
  (forall k x r, k <> KFree -> hj k x r = if keep (sact k x) then r else zero_row r) ->
  Forall (fun k => k <> KFree) ks ->
  layout s n = Some ks -> length z = n -> length J = n ->
  leaf_jac keep s z J = Some (upd hj ks z J).
Proof.
  intros Hh Hf Hk Hz HJ. unfold leaf_jac.
  rewrite same_len_true by congruence.
  rewrite (active_realises s n ks) by (rewrite ?map_length; auto).
  f_equal. apply clear_rows_upd; auto; [|congruence].
  rewrite (layout_length _ _ _ Hk). auto.
Qed.

Lemma pj_realises s : realises apply_projection_jacobian h_pj s.
Proof.
  assert (Hh : forall k x r, k <> KFree ->
            h_pj k x r = if negb (sact k x) then r else zero_row r).
  { intros [] x r H; try congruence; simpl; try reflexivity;
      match goal with |- context [if ?b then _ else _] => destruct b; reflexivity end. }
  induction s as [p|p|l u p|p|cs ns p IH] using cset_ind'.
  - intros n ks z J Hk Hz Ho. inversion Hk; subst. simpl.
    rewrite same_len_true by congruence. f_equal.
    clear Hk. revert z Ho.
    induction J as [|o out IHo]; intros [|x z] Ho; simpl in *; try lia; auto.
    f_equal; auto.
  - intros n ks z J Hk Hz Ho. simpl apply_projection_jacobian.
    eapply leaf_jac_realises; eauto. inversion Hk; apply no_free_repeat; discriminate.
  - intros n ks z J Hk Hz Ho. simpl apply_projection_jacobian.
    eapply leaf_jac_realises; eauto. box_case Hk. apply no_free_box.
  - intros n ks z J Hk Hz Ho. simpl apply_projection_jacobian.
    eapply leaf_jac_realises; eauto. inversion Hk; apply no_free_repeat; discriminate.
  - apply realises_prod; auto.
Qed.

Lemma nj_realises s : realises apply_normal_cone_jacobian h_nj s.
Proof.
  assert (Hh : forall k x r, k <> KFree ->
            h_nj k x r = if sact k x then r else zero_row r).
  { intros [] x r H; try congruence; reflexivity. }
  induction s as [p|p|l u p|p|cs ns p IH] using cset_ind'.
  - intros n ks z J Hk Hz Ho. inversion Hk; subst. simpl.
    rewrite same_len_true by congruence. f_equal.
    clear Hk. revert z Ho.
    induction J as [|o out IHo]; intros [|x z] Ho; simpl in *; try lia; auto.
    f_equal; auto.
  - intros n ks z J Hk Hz Ho. simpl apply_normal_cone_jacobian.
    eapply (leaf_jac_realises (fun a => a)); eauto.
    inversion Hk; apply no_free_repeat; discriminate.
  - intros n ks z J Hk Hz Ho. simpl apply_normal_cone_jacobian.
    eapply (leaf_jac_realises (fun a => a)); eauto. box_case Hk. apply no_free_box.
  - intros n ks z J Hk Hz Ho. simpl apply_normal_cone_jacobian.
    eapply (leaf_jac_realises (fun a => a)); eauto.
    inversion Hk; apply no_free_repeat; discriminate.
  - apply realises_prod; auto.
Qed.

(** ** Scalar facts *)
Ltac rcases :=
  repeat match goal with
  | |- context [Rmin ?a ?b] => unfold Rmin; destruct (Rle_dec a b)
  | |- context [Rmax ?a ?b] => unfold Rmax; destruct (Rle_dec a b)
  | H : context [Rmin ?a ?b] |- _ => unfold Rmin in H; destruct (Rle_dec a b)
  | H : context [Rmax ?a ?b] |- _ => unfold Rmax in H; destruct (Rle_dec a b)
  | |- context [Rlt_dec ?a ?b] => destruct (Rlt_dec a b)
  | H : context [Rlt_dec ?a ?b] |- _ => destruct (Rlt_dec a b)
  | |- context [Rle_dec ?a ?b] => destruct (Rle_dec a b)
  | H : context [Rle_dec ?a ?b] |- _ => destruct (Rle_dec a b)
  | |- context [Rcase_abs ?a] => destruct (Rcase_abs a)
  | H : context [Rcase_abs ?a] |- _ => destruct (Rcase_abs a)
  end.

Lemma soft_cases mu x : 0 <= mu ->
  soft mu x = if Rlt_dec mu x then x - mu
              else if Rlt_dec x (- mu) then x + mu else 0.
Proof.
  intros H. unfold soft, Rsign, Rabs. rcases; lra.
Qed.

Lemma sproj_dom k x : is_set k -> dom k (sproj k x).
Proof. destruct k; simpl; intros H; try easy; rcases; lra. Qed.

Lemma sproj_closest k x y : is_set k -> dom k y ->
  (x - sproj k x) * (x - sproj k x) <= (x - y) * (x - y).
Proof.
  destruct k; simpl; intros H Hy; try easy.
  - subst; lra.
  - pose proof (Rle_0_sqr (x - y)) as S; unfold Rsqr in S. rcases; nra.
  - pose proof (Rle_0_sqr (x - y)) as S; unfold Rsqr in S. rcases; nra.
Qed.

Lemma sproj_fix k x : is_set k -> dom k x -> sproj k x = x.
Proof. destruct k; simpl; intros H Hx; try easy; rcases; lra. Qed.

Lemma sproj_ncp k x : k <> KFree -> sproj k x + sncp k x = x.
Proof. destruct k; simpl; intros H; try congruence; try ring. rcases; lra. Qed.

Lemma sncp_normal k x : is_set k -> normal_at k (sproj k x) (sncp k x).
Proof.
  unfold normal_at; destruct k; simpl; intros H y Hy; try easy.
  - subst; lra.
  - rcases; nra.
  - rcases; nra.
Qed.

(** subgradient inequality: w/mu is a subgradient of |.| at the prox *)
Lemma soft_subgrad mu x y : 0 < mu ->
  (x - soft mu x) * (y - soft mu x) <= mu * (Rabs y - Rabs (soft mu x)).
Proof.
  intros Hmu. rewrite soft_cases by lra.
  destruct (Rlt_dec mu x); [|destruct (Rlt_dec x (- mu))].
  - rewrite (Rabs_right (x - mu)) by lra.
    assert (y <= Rabs y) by apply Rle_abs. nra.
  - rewrite (Rabs_left (x + mu)) by lra.
    assert (- y <= Rabs y) by (rewrite <- Rabs_Ropp; apply Rle_abs). nra.
  - rewrite Rabs_R0. unfold Rabs; destruct (Rcase_abs y); nra.
Qed.

(** prox optimality, with strong form (gap of the squared distance) *)
Lemma sproj_prox mu k x y : 0 < mu -> prox_ok mu k -> dom k y ->
  pen k (sproj k x) + (sproj k x - x) * (sproj k x - x) / (2 * mu)
  + (y - sproj k x) * (y - sproj k x) / (2 * mu)
  <= pen k y + (y - x) * (y - x) / (2 * mu).
Proof.
  intros Hmu Hk Hy.
  assert (Hi : 0 < / mu) by now apply Rinv_0_lt_compat.
  assert (E : forall t, t / (2 * mu) = t * (/ mu / 2)) by (intros; field; lra).
  rewrite !E. set (m := / mu / 2). assert (Hm : 0 < m) by (unfold m; lra).
  assert (Hmm : mu * m = 1 / 2) by (unfold m; field; lra).
  assert (I : forall p, (y - x) * (y - x) * m =
     (p - x) * (p - x) * m + (y - p) * (y - p) * m - 2 * m * ((x - p) * (y - p)))
    by (intros; ring).
  rewrite (I (sproj k x)). clear I E.
  assert (G : 2 * m * ((x - sproj k x) * (y - sproj k x)) <= pen k y - pen k (sproj k x)).
  { assert (C : is_set k \/ k = KL1 mu) by (destruct k; simpl in *; auto; subst; auto).
    destruct C as [C| ->].
    - pose proof (sncp_normal k x C y Hy) as N.
      assert (F : k <> KFree) by (intro; subst; easy).
      pose proof (sproj_ncp k x F).
      replace (pen k y) with 0 by (destruct k; easy).
      replace (pen k (sproj k x)) with 0 by (destruct k; easy).
      replace (x - sproj k x) with (sncp k x) by lra.
      set (t := sncp k x * (y - sproj k x)) in *. clearbody t. nra.
    - simpl. pose proof (soft_subgrad mu x y Hmu) as S.
      apply Rmult_le_compat_l with (r := 2 * m) in S; [|lra].
      replace (2 * m * (mu * (Rabs y - Rabs (soft mu x))))
        with (2 * (mu * m) * (Rabs y - Rabs (soft mu x))) in S by ring.
      rewrite Hmm in S. lra. }
  lra.
Qed.

(** ** Coordinate-wise lifting *)
Lemma upd_forall2 {A} (h : kind -> R -> A -> A) (Q : kind -> R -> A -> Prop) ks z out :
  length ks = length z -> length out = length z ->
  Forall2 (fun k x => forall o, Q k x (h k x o)) ks z ->
  forall i d dk dx, (i < length z)%nat ->
  Q (nth i ks dk) (nth i z dx) (nth i (upd h ks z out) d).
Proof.
  intros H1 H2 HF. revert out H2.
  induction HF as [|k x ks z Hkx HF IH]; intros [|o out] H2 i d dk dx Hi;
    simpl in *; try lia.
  destruct i; auto. apply IH; lia.
Qed.

Definition covered (ks : list kind) := Forall (fun k => k <> KFree) ks.

Lemma is_set_covered ks : Forall is_set ks -> covered ks.
Proof.
  intros H; eapply Forall_impl; [|exact H]. intros [] Hk E; try discriminate; easy.
Qed.
Lemma prox_ok_covered mu ks : Forall (prox_ok mu) ks -> covered ks.
Proof.
  intros H; eapply Forall_impl; [|exact H]. intros [] Hk E; try discriminate; easy.
Qed.

Lemma upd_covered_indep {A} (h h' : kind -> R -> A -> A) ks z out out' :
  covered ks -> (forall k x o o', k <> KFree -> h k x o = h' k x o') ->
  length ks = length z -> length out = length z -> length out' = length z ->
  upd h ks z out = upd h' ks z out'.
Proof.
  intros Hc Hh. revert z out out'.
  induction Hc as [|k ks Hk Hks IH]; intros [|x z] [|o out] [|o' out'] H1 H2 H3;
    simpl in *; try lia; auto.
  f_equal; auto.
Qed.

Definition vproj (ks : list kind) (z : list R) := zip_with sproj ks z.
Definition vncp (ks : list kind) (z : list R) := zip_with sncp ks z.

Lemma upd_zipk {A} (h : kind -> R -> A -> A) (g : kind -> R -> A) ks z out :
  covered ks -> (forall k x o, k <> KFree -> h k x o = g k x) ->
  length ks = length z -> length out = length z ->
  upd h ks z out = zip_with g ks z.
Proof.
  intros Hc Hh. revert z out.
  induction Hc as [|k ks Hk Hks IH]; intros [|x z] [|o out] H1 H2;
    simpl in *; try lia; auto.
  rewrite Hh, IH by (auto; lia). reflexivity.
Qed.

Lemma projection_eq s n ks z out :
  layout s n = Some ks -> covered ks -> length z = n -> length out = n ->
  projection s z out = Some (vproj ks z).
Proof.
  intros Hk Hc Hz Ho. rewrite (projection_realises s n ks z out Hk Hz Ho).
  f_equal. apply upd_zipk; auto; [|pose proof (layout_length _ _ _ Hk); congruence|congruence].
  intros [] x o H; try reflexivity; congruence.
Qed.

Lemma ncp_eq s n ks z out :
  layout s n = Some ks -> covered ks -> length z = n -> length out = n ->
  normal_cone_projection s z out = Some (vncp ks z).
Proof.
  intros Hk Hc Hz Ho. rewrite (ncp_realises s n ks z out Hk Hz Ho).
  f_equal. apply upd_zipk; auto; [|pose proof (layout_length _ _ _ Hk); congruence|congruence].
  intros [] x o H; try reflexivity; congruence.
Qed.

Lemma active_eq s n ks z out :
  layout s n = Some ks -> covered ks -> length z = n -> length out = n ->
  active_set s z out = Some (zip_with sact ks z).
Proof.
  intros Hk Hc Hz Ho. rewrite (active_realises s n ks z out Hk Hz Ho).
  f_equal. apply upd_zipk; auto; [|pose proof (layout_length _ _ _ Hk); congruence|congruence].
  intros [] x o H; try reflexivity; congruence.
Qed.

Lemma vproj_length ks z : length ks = length z -> length (vproj ks z) = length z.
Proof. intros; unfold vproj; rewrite zip_with_length; auto. Qed.

(** ** C01 *)
Lemma vproj_in ks z : Forall is_set ks -> length ks = length z -> in_set ks (vproj ks z).
Proof.
  intros H. revert z; induction H as [|k ks Hk Hks IH]; intros [|x z] L; simpl in *; try lia.
  - constructor.
  - constructor; [apply sproj_dom; auto | apply IH; lia].
Qed.
Lemma vproj_closest ks z y : Forall is_set ks -> length ks = length z -> in_set ks y ->
  dist2 z (vproj ks z) <= dist2 z y.
Proof.
  intros H. revert z y; induction H as [|k ks Hk Hks IH]; intros [|x z] y L Hy;
    simpl in *; try lia; inversion Hy; subst; simpl; try lra.
  pose proof (sproj_closest k x y0 Hk H1).
  assert (dist2 z (vproj ks z) <= dist2 z l') by (apply IH; auto).
  unfold vproj in *. lra.
Qed.
Lemma vproj_fix ks z : Forall is_set ks -> in_set ks z -> vproj ks z = z.
Proof.
  intros H Hz. induction Hz as [|k x ks z Hkx Hz IH]; auto.
  inversion H; subst. unfold vproj in *. simpl. rewrite IH by auto.
  f_equal. now apply sproj_fix.
Qed.

Lemma projection_closest_point s n ks z out :
  layout s n = Some ks -> Forall is_set ks -> length z = n -> length out = n ->
  exists p, projection s z out = Some p /\ in_set ks p /\
    (forall y, in_set ks y -> dist2 z p <= dist2 z y) /\
    (forall y, in_set ks y -> dist2 z y <= dist2 z p -> y = p) /\
    (forall out', length out' = n -> projection s p out' = Some p) /\
    (in_set ks z -> p = z).
Proof.
  intros Hk Hs Hz Ho.
  pose proof (layout_length _ _ _ Hk) as Lk.
  pose proof (is_set_covered _ Hs) as Hc.
  exists (vproj ks z). split; [|split; [|split; [|split; [|split]]]].
  - eapply projection_eq; eauto.
  - apply vproj_in; auto; congruence.
  - intros; apply vproj_closest; auto; congruence.
  - assert (HL : length ks = length z) by congruence. clear -Hs HL.
    revert z HL; induction Hs as [|k ks Hk Hks IH]; intros [|x z] L y Hy Hd;
      simpl in *; try lia; inversion Hy; subst; auto.
    simpl in Hd.
    pose proof (sproj_closest k x y0 Hk H1) as A.
    assert (B : dist2 z (vproj ks z) <= dist2 z l') by (apply vproj_closest; auto).
    unfold vproj in *. simpl in *.
    f_equal.
    + assert ((x - y0) * (x - y0) <= (x - sproj k x) * (x - sproj k x)) by lra.
      clear -H H1 Hk. destruct k; simpl in *; try easy; rcases; nra.
    + apply IH; auto. lra.
  - intros out' Ho'. rewrite (projection_eq s n ks); auto.
    + f_equal. apply vproj_fix; auto. apply vproj_in; auto; congruence.
    + rewrite vproj_length; congruence.
  - intros; now apply vproj_fix.
Qed.

(** ** C02 *)
Lemma projection_splits s n ks z out out' :
  layout s n = Some ks -> covered ks -> length z = n ->
  length out = n -> length out' = n ->
  exists p w, projection s z out = Some p /\
    normal_cone_projection s z out' = Some w /\ vadd p w = z /\
    (Forall is_set ks -> forall y, in_set ks y ->
       fold_right Rplus 0 (zip_with (fun wi d => wi * d) w (zip_with Rminus y p)) <= 0).
Proof.
  intros Hk Hc Hz Ho Ho'.
  pose proof (layout_length _ _ _ Hk) as Lk.
  exists (vproj ks z), (vncp ks z). split; [|split; [|split]].
  - eapply projection_eq; eauto.
  - eapply ncp_eq; eauto.
  - assert (HL : length ks = length z) by congruence. clear -Hc HL.
    revert z HL; induction Hc as [|k ks Hk Hks IH]; intros [|x z] L; simpl in *; try lia; auto.
    unfold vadd, vproj, vncp in *. simpl. rewrite sproj_ncp by auto. f_equal. apply IH; lia.
  - assert (HL : length ks = length z) by congruence. clear -HL.
    intros Hs. revert z HL; induction Hs as [|k ks Hk Hks IH]; intros [|x z] L y Hy;
      simpl in *; try lia; inversion Hy; subst; simpl; try lra.
    pose proof (sncp_normal k x Hk y0 H1) as A.
    assert (length ks = length z) as L' by lia.
    specialize (IH z L' l' H3). unfold vproj, vncp in *. lra.
Qed.

(** ** C03: exactness of the generalised Jacobians off the kinks *)
Definition smask (k : kind) (x : R) : R := if sact k x then 1 else 0.

Lemma sncp_local k x : off_kink k x ->
  (match k with KBox l u => l <= u | KL1 mu => 0 <= mu | _ => True end) ->
  exists eps, 0 < eps /\ forall d, Rabs d < eps ->
    sncp k (x + d) = sncp k x + (if sact k x then d else 0) /\
    sproj k (x + d) = sproj k x + (if sact k x then 0 else d).
Proof.
  intros Hx Hk. destruct k; simpl in *.
  - exists 1. split; [lra|]. intros; split; ring.
  - exists (Rabs x). split; [now apply Rabs_pos_lt|].
    intros d Hd. unfold gtb, Rabs in *. rcases; lra.
  - exists (Rmin (Rabs (x - l)) (Rabs (x - u))).
    split; [apply Rmin_glb_lt; apply Rabs_pos_lt; lra|].
    intros d Hd.
    assert (A : Rabs d < Rabs (x - l)) by (eapply Rlt_le_trans; [exact Hd|apply Rmin_l]).
    assert (B : Rabs d < Rabs (x - u)) by (eapply Rlt_le_trans; [exact Hd|apply Rmin_r]).
    clear Hd. unfold gtb. unfold Rabs in A, B.
    destruct (Rcase_abs d), (Rcase_abs (x - l)), (Rcase_abs (x - u));
      destruct (Rlt_dec u x); simpl; try lra; destruct (Rlt_dec x l); simpl; try lra;
      unfold Rmin, Rmax; rcases; lra.
  - exists (Rabs (Rabs x - mu)). split; [apply Rabs_pos_lt; lra|].
    intros d Hd. rewrite !soft_cases by lra. unfold leb.
    assert (Hx' : Rabs x < mu \/ mu < Rabs x) by lra.
    destruct Hx' as [Hlt|Hgt].
    + rewrite (Rabs_left (Rabs x - mu)) in Hd by lra.
      destruct (Rle_dec (Rabs x) mu); [|lra].
      assert (- mu < x < mu) by (unfold Rabs in Hlt; destruct (Rcase_abs x); lra).
      assert (- mu < x + d < mu) by
        (unfold Rabs in *; destruct (Rcase_abs x), (Rcase_abs d); lra).
      rcases; lra.
    + rewrite (Rabs_right (Rabs x - mu)) in Hd by lra.
      destruct (Rle_dec (Rabs x) mu); [lra|].
      unfold Rabs in *. destruct (Rcase_abs x), (Rcase_abs d); rcases; lra.
  - easy.
Qed.

Definition prox_valid (k : kind) : Prop :=
  match k with KBox l u => l <= u | KL1 mu => 0 <= mu | _ => True end.

Lemma vlocal ks z : Forall prox_valid ks -> Forall2 off_kink ks z ->
  exists eps, 0 < eps /\ forall d, length d = length z -> Forall (fun x => Rabs x < eps) d ->
    vncp ks (vadd z d) =
      vadd (vncp ks z) (zip_with (fun (a : bool) x => if a then x else 0) (zip_with sact ks z) d) /\
    vproj ks (vadd z d) =
      vadd (vproj ks z) (zip_with (fun (a : bool) x => if a then 0 else x) (zip_with sact ks z) d).
Proof.
  intros Hv Hk. induction Hk as [|k x ks z Hkx Hks IH].
  - exists 1. split; [lra|]. intros [|] L _; simpl in *; try lia; auto.
  - inversion Hv; subst. destruct (IH H2) as (e1 & He1 & H1').
    destruct (sncp_local k x Hkx) as (e2 & He2 & H2').
    { destruct k; auto. }
    exists (Rmin e1 e2). split; [now apply Rmin_glb_lt|].
    intros [|d ds] L HF; simpl in *; try lia. inversion HF; subst.
    destruct (H2' d) as [A B]; [eapply Rlt_le_trans; [eassumption|apply Rmin_r]|].
    destruct (H1' ds) as [C D]; [lia| |].
    { eapply Forall_impl; [|eassumption]. intros a Ha; eapply Rlt_le_trans; [exact Ha|apply Rmin_l]. }
    unfold vncp, vproj, vadd in *. simpl. rewrite A, B, C, D. auto.
Qed.

Lemma vdot_zero_row r e : vdot (zero_row r) e = 0.
Proof.
  unfold vdot, zero_row. revert e; induction r as [|a r IH]; intros [|b e]; simpl; auto.
  rewrite IH; ring.
Qed.

Lemma mv_upd_nj ks z J e : covered ks -> length ks = length z -> length J = length z ->
  mvmul (upd h_nj ks z J) e =
  zip_with (fun (a : bool) x => if a then x else 0) (zip_with sact ks z) (mvmul J e).
Proof.
  intros Hc. revert z J; induction Hc as [|k ks Hk Hks IH]; intros [|x z] [|r J] H1 H2;
    simpl in *; try lia; auto.
  rewrite IH by lia. f_equal.
  replace (h_nj k x r) with (if sact k x then r else zero_row r) by (destruct k; auto; congruence).
  destruct (sact k x); auto using vdot_zero_row.
Qed.
Lemma mv_upd_pj ks z J e : covered ks -> length ks = length z -> length J = length z ->
  mvmul (upd h_pj ks z J) e =
  zip_with (fun (a : bool) x => if a then 0 else x) (zip_with sact ks z) (mvmul J e).
Proof.
  intros Hc. revert z J; induction Hc as [|k ks Hk Hks IH]; intros [|x z] [|r J] H1 H2;
    simpl in *; try lia; auto.
  rewrite IH by lia. f_equal.
  replace (h_pj k x r) with (if sact k x then zero_row r else r) by (destruct k; auto; congruence).
  destruct (sact k x); auto using vdot_zero_row.
Qed.

Lemma jacobians_exact s n ks z J out :
  layout s n = Some ks -> Forall prox_valid ks -> Forall2 off_kink ks z ->
  length z = n -> length J = n -> length out = n ->
  exists Jp Jn eps p w,
    apply_projection_jacobian s z J = Some Jp /\
    apply_normal_cone_jacobian s z J = Some Jn /\
    projection s z out = Some p /\ normal_cone_projection s z out = Some w /\
    0 < eps /\
    forall e, Forall (fun x => Rabs x < eps) (mvmul J e) ->
      projection s (vadd z (mvmul J e)) out = Some (vadd p (mvmul Jp e)) /\
      normal_cone_projection s (vadd z (mvmul J e)) out = Some (vadd w (mvmul Jn e)).
Proof.
  intros Hk Hv Hok Hz HJ Ho.
  pose proof (layout_length _ _ _ Hk) as Lk.
  assert (Hc : covered ks).
  { clear -Hok. induction Hok as [|k x ks z H H1 IH]; constructor; auto.
    intro E; subst; easy. }
  destruct (vlocal ks z Hv Hok) as (eps & He & Hl).
  exists (upd h_pj ks z J), (upd h_nj ks z J), eps, (vproj ks z), (vncp ks z).
  split; [now apply (pj_realises s n)|].
  split; [now apply (nj_realises s n)|].
  split; [eapply projection_eq; eauto|]. split; [eapply ncp_eq; eauto|].
  split; auto. intros e Hsmall.
  assert (Lm : length (mvmul J e) = n) by (unfold mvmul; rewrite map_length; auto).
  destruct (Hl (mvmul J e)) as [A B]; [congruence|auto|].
  assert (length (vadd z (mvmul J e)) = n) by (unfold vadd; rewrite zip_with_length; congruence).
  rewrite (projection_eq s n ks), (ncp_eq s n ks) by auto.
  rewrite mv_upd_pj, mv_upd_nj by (auto; congruence).
  rewrite A, B. auto.
Qed.

(** active iff the normal-cone projection is not locally constant *)
Lemma active_iff s n ks z out out' :
  layout s n = Some ks -> Forall (fun k => prox_valid k /\ k <> KFree) ks ->
  length z = n -> length out = n -> length out' = n ->
  exists act w, active_set s z out = Some act /\
    normal_cone_projection s z out' = Some w /\ length act = n /\
    forall i, (i < n)%nat ->
      match nth i ks KFree with
      | KEq => nth i act false = true
      | KNeg | KBox _ _ => nth i act false = true <-> nth i w 0 <> 0
      | KL1 mu => nth i act false = true <-> nth i w 0 = nth i z 0
      | KFree => False
      end.
Proof.
  intros Hk Hv Hz Ho Ho'.
  pose proof (layout_length _ _ _ Hk) as Lk.
  assert (Hc : covered ks) by (eapply Forall_impl; [|exact Hv]; intros k Hk'; exact (proj2 Hk')).
  exists (zip_with sact ks z), (vncp ks z).
  split; [eapply active_eq; eauto|]. split; [eapply ncp_eq; eauto|].
  split; [rewrite zip_with_length; congruence|].
  assert (HL : length ks = length z) by congruence.
  rewrite <- Hz. clear -HL Hv. revert z HL.
  induction Hv as [|k ks [Hk Hf] Hks IH]; intros [|x z] L i Hi; simpl in *; try lia.
  destruct i as [|i]; [|apply IH; lia].
  destruct k; simpl in *; auto.
  - unfold gtb. rcases; split; intros; try discriminate; try reflexivity; try lra.
  - unfold gtb. rcases; simpl; split; intros; try discriminate; try reflexivity; try lra.
  - rewrite soft_cases by auto. unfold leb, Rabs.
    rcases; split; intros; try discriminate; try reflexivity; try lra.
Qed.

(** ** C04 *)
Lemma penalty_prox mu ks z y : 0 < mu -> Forall (prox_ok mu) ks ->
  length ks = length z -> in_set ks y ->
  penalty ks (vproj ks z) + dist2 (vproj ks z) z / (2 * mu)
    + dist2 y (vproj ks z) / (2 * mu)
  <= penalty ks y + dist2 y z / (2 * mu).
Proof.
  intros Hmu H. revert z y; induction H as [|k ks Hk Hks IH]; intros [|x z] y L Hy;
    simpl in *; try lia; inversion Hy; subst; simpl; try lra.
  assert (length ks = length z) as L' by lia.
  pose proof (sproj_prox mu k x y0 Hmu Hk H1) as A.
  specialize (IH z l' L' H3). unfold vproj in *. simpl.
  unfold Rdiv in *. lra.
Qed.

Definition eval_go (z : list R) :=
  fix go (cs : list cset) (ns : list nat) (start : nat) : option R :=
    match cs, ns with
    | [], [] => Some 0
    | c :: cs', n :: ns' =>
        match seg z start n with
        | Some zi =>
            match evaluate c zi, go cs' ns' (start + n)%nat with
            | Some a, Some b => Some (a + b)
            | _, _ => None
            end
        | None => None
        end
    | _, _ => None
    end.

Lemma penalty_app k1 k2 z : (length k1 <= length z)%nat ->
  penalty (k1 ++ k2) z =
  penalty k1 (firstn (length k1) z) + penalty k2 (skipn (length k1) z).
Proof.
  revert z; induction k1 as [|k k1 IH]; intros z H; simpl.
  - ring.
  - destruct z as [|x z]; simpl in *; [lia|]. rewrite IH by lia. ring.
Qed.
Lemma penalty_zero ks z : Forall (fun k => forall y, pen k y = 0) ks -> penalty ks z = 0.
Proof.
  intros H; revert z; induction H as [|k ks Hk Hks IH]; intros [|x z]; simpl; auto.
  rewrite Hk, IH; ring.
Qed.

Lemma evaluate_penalty s : forall n ks z, layout s n = Some ks -> length z = n ->
  evaluate s z = Some (penalty ks z).
Proof.
  assert (Z : forall k n, (forall y, pen k y = 0) -> forall z, penalty (repeat k n) z = 0).
  { intros k n Hk z; apply penalty_zero. induction n; simpl; constructor; auto. }
  induction s as [p|p|l u p|p|cs ns p IH] using cset_ind'; intros n ks z Hk Hz.
  - inversion Hk; subst. simpl. rewrite Z; auto.
  - inversion Hk; subst. simpl. rewrite Z; auto.
  - box_case Hk. simpl. rewrite penalty_zero; auto.
    clear. revert u; induction l as [|a l IH]; intros [|b u]; simpl; constructor; auto.
  - inversion Hk; subst. simpl. f_equal. clear.
    unfold norm1. induction z as [|x z IH]; simpl; auto. rewrite IH; auto.
  - rewrite layout_prod in Hk. change (evaluate (SProd cs ns p) z) with (eval_go z cs ns 0%nat).
    enough (G : forall start ks, (start <= length z)%nat ->
               layout_go cs ns (length z - start) = Some ks ->
               eval_go z cs ns start = Some (penalty ks (skipn start z))).
    { rewrite (G 0%nat ks) by (try lia; rewrite Nat.sub_0_r, Hz; auto). reflexivity. }
    clear Hk ks Hz. revert ns. induction IH as [|c cs Hc Hcs IHc]; intros ns start ks Hs Hk.
    + destruct ns; [|discriminate]. simpl in *. inversion Hk; subst. rewrite Z; auto.
    + destruct ns as [|m ns]; [discriminate|]. simpl in Hk.
      destruct (Nat.leb_spec m (length z - start)); [|discriminate].
      destruct (layout c m) as [a|] eqn:Ea; [|discriminate].
      destruct (layout_go cs ns (length z - start - m)) as [b|] eqn:Eb; [|discriminate].
      inversion Hk; subst ks. clear Hk.
      pose proof (layout_length _ _ _ Ea) as La.
      cbn [eval_go]. unfold seg.
      destruct (Nat.leb_spec (start + m) (length z)); [|lia].
      rewrite (Hc m a) by (auto; rewrite firstn_length, skipn_length; lia).
      fold (eval_go z).
      rewrite (IHc ns (start + m)%nat b) by
        (try lia; rewrite <- Eb; f_equal; lia).
      rewrite penalty_app by (rewrite skipn_length; lia).
      rewrite La, skipn_add. reflexivity.
Qed.

Lemma vncp_sub ks z : covered ks -> length ks = length z ->
  zip_with Rminus z (vncp ks z) = vproj ks z.
Proof.
  intros Hc. revert z; induction Hc as [|k ks Hk Hks IH]; intros [|x z] L; simpl in *; try lia; auto.
  unfold vncp, vproj in *. simpl. rewrite IH by lia. f_equal.
  pose proof (sproj_ncp k x Hk); lra.
Qed.
Lemma sqnorm_vncp ks z : covered ks -> length ks = length z ->
  sqnorm (vncp ks z) = dist2 (vproj ks z) z.
Proof.
  intros Hc. revert z; induction Hc as [|k ks Hk Hks IH]; intros [|x z] L; simpl in *; try lia; auto.
  unfold vncp, vproj, sqnorm in *. simpl. rewrite IH by lia.
  pose proof (sproj_ncp k x Hk). f_equal.
  replace (sncp k x) with (x - sproj k x) by lra. ring.
Qed.

Lemma prox_optimal s n ks mu z out :
  0 < mu -> layout s n = Some ks -> Forall (prox_ok mu) ks ->
  pp_mu_inv (param s) = Some (1 / mu) ->
  length z = n -> length out = n ->
  exists p w e, projection s z out = Some p /\
    compute_moreau s z out = Some (w, e) /\
    in_set ks p /\ e = penalty ks p + dist2 p z / (2 * mu) /\
    (forall y, in_set ks y -> e <= penalty ks y + dist2 y z / (2 * mu)) /\
    (forall y, in_set ks y -> penalty ks y + dist2 y z / (2 * mu) <= e ->
       dist2 y p = 0).
Proof.
  intros Hmu Hk Hp Hpar Hz Ho.
  pose proof (layout_length _ _ _ Hk) as Lk.
  pose proof (prox_ok_covered _ _ Hp) as Hc.
  assert (HL : length ks = length z) by congruence.
  exists (vproj ks z), (vncp ks z), (penalty ks (vproj ks z) + dist2 (vproj ks z) z / (2 * mu)).
  split; [eapply projection_eq; eauto|]. split.
  { unfold compute_moreau. rewrite (ncp_eq s n ks) by auto.
    unfold evaluate_moreau. rewrite Hpar, vncp_sub by auto.
    rewrite (evaluate_penalty s n ks) by (auto; rewrite vproj_length; auto).
    rewrite sqnorm_vncp by auto. do 2 f_equal. f_equal. field. lra. }
  split.
  { clear -Hp HL Hmu. revert z HL; induction Hp as [|k ks Hk Hks IH]; intros [|x z] L;
      simpl in *; try lia; constructor.
    - destruct k; simpl in *; auto; rcases; lra.
    - apply IH; lia. }
  split; auto.
  assert (P : forall x y, 0 <= dist2 x y).
  { clear. induction x as [|a x IH]; intros [|b y]; simpl; try lra. specialize (IH y).
    pose proof (Rle_0_sqr (a - b)) as S; unfold Rsqr in S. lra. }
  assert (Hi : 0 < / (2 * mu)) by (apply Rinv_0_lt_compat; lra).
  split.
  - intros y Hy. pose proof (penalty_prox mu ks z y Hmu Hp HL Hy) as A.
    specialize (P y (vproj ks z)). unfold Rdiv in *. nra.
  - intros y Hy Hle. pose proof (penalty_prox mu ks z y Hmu Hp HL Hy) as A.
    specialize (P y (vproj ks z)). unfold Rdiv in *. nra.
Qed.

(** The proximal parameter does not reach the components of a product: the L1
    penalty inside a product keeps parameter 0, and its "projection" is the
    identity, which does not minimise the objective. *)
Lemma product_l1_inert mu : 0 < mu ->
  let s := set_prox_parameter mu (SProd [SL1 pp_default] [1%nat] pp_default) in
  exists p, projection s [1] [0] = Some p /\
    ~ (forall y, length y = 1%nat ->
         norm1 p + dist2 p [1] / (2 * mu) <= norm1 y + dist2 y [1] / (2 * mu)).
Proof.
  intros Hmu s. exists [1]. split.
  - unfold s. simpl. unfold put. simpl. do 2 f_equal.
    rewrite soft_cases by lra. destruct (Rlt_dec 0 1); lra.
  - intros H.
    assert (Hi : 0 < / (2 * mu)) by (apply Rinv_0_lt_compat; lra).
    (* competitor: y = 1 - t with small t *)
    set (t := Rmin 1 mu).
    assert (Ht : 0 < t <= 1 /\ t <= mu) by (unfold t, Rmin; destruct (Rle_dec 1 mu); lra).
    specialize (H [1 - t] eq_refl). unfold norm1 in H. simpl in H.
    rewrite (Rabs_right 1), (Rabs_right (1 - t)) in H by lra.
    unfold Rdiv in H.
    assert (t * / (2 * mu) <= / 2).
    { rewrite Rinv_mult. assert (t * / mu <= 1).
      { apply Rmult_le_reg_r with mu; [lra|]. rewrite Rmult_assoc, Rinv_l; lra. }
      lra. }
    nra.
Qed.
