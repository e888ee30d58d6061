(** C68: the torques of the constrained inverse dynamics. *)
From Coq Require Import Ring.
From mathcomp Require Import all_ssreflect all_algebra.
From Verif Require Import MxRing InvDynModel.
Set Implicit Arguments.
Unset Strict Implicit.
Import Order.Theory GRing.Theory Num.Theory.
Local Open Scope ring_scope.

Section P.
Variable F : realFieldType.
Add Ring F_ring : (ops_ring F).

(** ** Specification *)
(** what ColPivHouseholderQR::solve returns: a least-squares solution *)
Definition least_squares (qr : forall m n, 'M[F]_(m, n) -> 'cV[F]_m -> 'cV[F]_n) : Prop :=
  forall m n (A : 'M[F]_(m, n)) b x, dot (A *m qr m n A b - b) (A *m qr m n A b - b) <= dot (A *m x - b) (A *m x - b).

Section Robot.
Variables nv nu : nat.
Notation rcm := (rcm F nv).
(** generalised force of the contact forces f, the k-th of which starts where the
    previous ones end *)
Fixpoint contact_force (cs : seq rcm) (o : nat) (f : nat -> F) : 'cV[F]_nv :=
  if cs is c :: cs' then (tagged c)^T *m (\col_i f (o + i)%N) + contact_force cs' (o + tag c)%N f else 0.
Definition entry n (f : 'cV[F]_n) (i : nat) : F := if insub i is Some k then f (k : 'I_n) 0 else 0.
(** equations of motion with mass matrix M: the acceleration a and the forces f; gamma is the
    drift of the constraints *)
Definition motion (M : 'M[F]_nv) (nle tau : 'cV[F]_nv) (cs : seq rcm) (gamma : nat -> F) (a : 'cV[F]_nv) (f : nat -> F) : Prop :=
  M *m a + nle = tau + contact_force cs 0 f /\
  forall i, (i < sumn [seq tag c | c <- cs])%N -> (jac_row cs i *m a) 0 0 + gamma i = 0.
Definition posdef (M : 'M[F]_nv) : Prop := forall a, a != 0 -> 0 < dot a (M *m a).

(** ** Stacking *)
Lemma size_loopE (cs : seq rcm) : forall d, size_loop d cs = (d + sumn [seq tag c | c <- cs])%N.
Proof. by elim: cs => [|c cs IH] d /=; rewrite ?addn0 // IH addnA. Qed.

(** the size is the sum of the sizes *)
Theorem C68_size (cs : seq rcm) : total_size cs = sumn [seq tag c | c <- cs].
Proof. by rewrite /total_size size_loopE. Qed.

Lemma force_entry (cs : seq rcm) : forall o (f : nat -> F) j,
  contact_force cs o f j 0 = \sum_(0 <= i < sumn [seq tag c | c <- cs]) jac_row cs i 0 j * f (o + i)%N.
Proof.
elim: cs => [|c cs IH] o f j /=; first by rewrite big_nil mxE.
rewrite mxE IH [RHS](big_cat_nat _ (n := tag c)) //= ?leq_addr //; congr (_ + _).
- rewrite mxE big_mkord; apply: eq_bigr => i _.
  by rewrite insubT // => h; rewrite !mxE; congr (tagged c _ _ * _); apply: val_inj.
- pose G i := jac_row (c :: cs) i 0 j * f (o + i)%N.
  transitivity (\sum_(tag c <= i < tag c + sumn [seq tag c | c <- cs]) G i); last by [].
  have -> : forall n, \sum_(tag c <= i < tag c + n) G i = \sum_(0 <= i < n) G (i + tag c)%N.
    by move=> n; have := big_addn 0 (tag c + n)%N (tag c) xpredT G; rewrite add0n addKn => /= ->.
  apply: eq_bigr => i _; rewrite /G /=.
  by rewrite insubN -?leqNgt ?leq_addl // addnK [(i + _)%N]addnC addnA.
Qed.

Lemma jac_force (cs : seq rcm) (l : 'cV[F]_(total_size cs)) :
  (constraints_jacobian cs)^T *m l = contact_force cs 0 (entry l).
Proof.
apply/colP => j; rewrite force_entry -C68_size mxE big_mkord; apply: eq_bigr => i _.
by rewrite !mxE add0n /entry insubT // => h; congr (_ * l _ _); apply: val_inj.
Qed.
Lemma forceN (cs : seq rcm) : forall o f, contact_force cs o (fun i => - f i) = - contact_force cs o f.
Proof.
move=> o f; apply/colP => j; rewrite [RHS]mxE !force_entry -sumrN.
by apply: eq_bigr => i _; rewrite mulrN.
Qed.

(** ** Least squares *)
Lemma dot_ge0 n (x : 'cV[F]_n) : 0 <= dot x x.
Proof. by rewrite dot_sum sumr_ge0 // => i _; rewrite -expr2 sqr_ge0. Qed.
Lemma dot_eq0 n (x : 'cV[F]_n) : dot x x = 0 -> x = 0.
Proof.
rewrite dot_sum => /eqP; rewrite psumr_eq0; last by move=> i _; rewrite -expr2 sqr_ge0.
move=> /allP H; apply/colP => i; rewrite mxE.
by have := H i (mem_index_enum _); rewrite /= mulf_eq0 orbb => /eqP.
Qed.

Lemma proxyE qr (B : 'M[F]_(nv, nu)) nle cs :
  let: (u, l) := proxy qr B nle cs in
  work B cs *m inverse_dynamics qr B nle cs = B *m u - contact_force cs 0 (entry l).
Proof.
rewrite /proxy; set x := inverse_dynamics _ _ _ _.
by rewrite -{1}[x]vsubmxK /work mul_row_col scaleN1r mulNmx jac_force.
Qed.

(** The torques and minus the forces are the best ones: no other torques and contact forces
    come nearer to balancing the nonlinear effects. *)
Theorem C68_best qr (B : 'M[F]_(nv, nu)) nle (cs : seq rcm) : least_squares qr ->
  let: (u, l) := proxy qr B nle cs in
  forall u' f', let r := B *m u + contact_force cs 0 (fun i => - entry l i) - nle in
    let r' := B *m u' + contact_force cs 0 f' - nle in dot r r <= dot r' r'.
Proof.
move=> L; have := proxyE qr B nle cs; rewrite /proxy; set x := inverse_dynamics _ _ _ _ => E u' f' /=.
rewrite forceN -E.
pose l' : 'cV[F]_(total_size cs) := \col_i - f' i.
have -> : contact_force cs 0 f' = - contact_force cs 0 (entry l').
  rewrite -forceN; apply/colP => j; rewrite !force_entry !big_mkord; apply: eq_bigr => i _; congr (_ * _).
  by rewrite add0n /entry insubT ?C68_size // => h; rewrite mxE opprK.
have := L _ _ (work B cs) nle (col_mx u' l').
by rewrite -/(inverse_dynamics qr B nle cs) -/x {3 4}/work mul_row_col scaleN1r mulNmx jac_force.
Qed.

(** If the robot can stand still, the torques and minus the forces hold it exactly. *)
Theorem C68_equilibrium qr (B : 'M[F]_(nv, nu)) nle (cs : seq rcm) : least_squares qr ->
  (exists u f, nle = B *m u + contact_force cs 0 f) ->
  let: (u, l) := proxy qr B nle cs in nle = B *m u + contact_force cs 0 (fun i => - entry l i).
Proof.
move=> L [u' [f' E]]; have := C68_best B nle cs L; rewrite /proxy; set x := inverse_dynamics _ _ _ _ => H.
have {H} := H u' f'; rewrite /= -E subrr dot0l => H.
apply/esym/eqP; rewrite -subr_eq0; apply/eqP; apply: dot_eq0; apply/eqP.
by rewrite eq_le H dot_ge0.
Qed.

Lemma forceB cs f g : contact_force cs 0 (fun i => f i - g i) = contact_force cs 0 f - contact_force cs 0 g.
Proof.
by apply/colP => j; rewrite !mxE !force_entry -sumrB; apply: eq_bigr => i _; rewrite mulrBr.
Qed.
(** the acceleration is determined by the equations of motion *)
Lemma motion_unique M nle tau cs gamma a f a' f' : posdef M ->
  motion M nle tau cs gamma a f -> motion M nle tau cs gamma a' f' -> a = a'.
Proof.
move=> PM [E1 C1] [E2 C2]; apply/eqP; rewrite -subr_eq0; apply/negPn/negP => N.
have := PM _ N.
have -> : M *m (a - a') = contact_force cs 0 (fun i => f i - f' i).
  rewrite forceB mulmxBr.
  have -> : M *m a = tau + contact_force cs 0 f - nle by rewrite -E1 addrK.
  have -> : M *m a' = tau + contact_force cs 0 f' - nle by rewrite -E2 addrK.
  by mx_open F; ring.
have -> : dot (a - a') (contact_force cs 0 (fun i => f i - f' i)) = 0; last by rewrite ltxx.
rewrite dot_sum.
under eq_bigr => j _ do rewrite force_entry big_distrr /=.
rewrite exchange_big /= big_mkord big1 // => i _.
have H1 := C1 i (ltn_ord i); have H2 := C2 i (ltn_ord i).
have H : (jac_row cs i *m (a - a')) 0 0 = 0.
  by rewrite mulmxBr mxE [X in _ + X]mxE (canRL (addrK _) H1) (canRL (addrK _) H2) subrr.
transitivity ((f (0 + i)%N - f' (0 + i)%N) * (jac_row cs i *m (a - a')) 0 0); last by rewrite H mulr0.
by rewrite mxE big_distrr /=; apply: eq_bigr => j _; fold_ops F; ring.
Qed.

(** Then the torques, given to the forward dynamics, leave it at rest, if the constraints do
    not drift (as with zero velocity). *)
Theorem C68_rest qr (B : 'M[F]_(nv, nu)) M nle (cs : seq rcm) a f : least_squares qr -> posdef M ->
  (exists u f, nle = B *m u + contact_force cs 0 f) ->
  motion M nle (B *m (proxy qr B nle cs).1) cs (fun _ => 0) a f -> a = 0.
Proof.
move=> L PM X Mo; have := C68_equilibrium L X; rewrite /proxy /= in Mo *.
set u := usubmx _ in Mo *; set l := dsubmx _ => E.
apply: (motion_unique PM Mo (f' := fun i => - entry l i)); split.
  by rewrite mulmx0 add0r.
by move=> i _; rewrite mulmx0 mxE add0r.
Qed.

(** With independent constraints the second output is minus the contact force. *)
Theorem C68_force qr (B : 'M[F]_(nv, nu)) M nle (cs : seq rcm) a f : least_squares qr -> posdef M ->
  (exists u f, nle = B *m u + contact_force cs 0 f) ->
  row_free (constraints_jacobian cs) ->
  motion M nle (B *m (proxy qr B nle cs).1) cs (fun _ => 0) a f ->
  forall i : 'I_(total_size cs), (proxy qr B nle cs).2 i 0 = - f i.
Proof.
move=> L PM X RF Mo i; have A0 := C68_rest L PM X Mo; have := C68_equilibrium L X; case: Mo => [Mo _].
rewrite /proxy /= in Mo *; set u := usubmx _ in Mo *; set l := dsubmx _ => E.
rewrite A0 mulmx0 add0r in Mo.
pose g : 'cV[F]_(total_size cs) := \col_i (l i 0 + f i).
have G : (constraints_jacobian cs)^T *m g = 0.
  rewrite jac_force.
  have -> : contact_force cs 0 (entry g) = contact_force cs 0 (fun i => f i - (- entry l i)).
    apply/colP => j; rewrite !force_entry !big_mkord; apply: eq_bigr => k _; congr (_ * _).
    rewrite add0n /entry; have h : (k < total_size cs)%N by rewrite C68_size.
    by rewrite !insubT mxE opprK addrC.
  by rewrite forceB; apply/eqP; rewrite subr_eq0; apply/eqP; apply: (addrI (B *m u)); rewrite -Mo.
have : g^T *m constraints_jacobian cs = 0 by rewrite -[constraints_jacobian cs]trmxK -trmx_mul G trmx0.
move=> H; have : g^T = 0 by apply: (row_free_inj RF); rewrite H mul0mx.
by move=> /rowP /(_ i); rewrite !mxE => /eqP; rewrite addr_eq0 => /eqP.
Qed.
End Robot.

(** ** A least-squares solver exists *)
Definition ls_solve m n (A : 'M[F]_(m, n)) (b : 'cV[F]_m) : 'cV[F]_n :=
  (b^T *m A *m pinvmx (A^T *m A))^T.
Lemma gram_sub m n (A : 'M[F]_(m, n)) : (A <= A^T *m A)%MS.
Proof.
rewrite submxE; set C := cokermx _; apply/eqP.
have H : A^T *m A *m C = 0 by rewrite mulmx_coker.
apply/matrixP => i j; rewrite mxE.
have : col j (A *m C) = 0.
  have Z : A^T *m (A *m (C *m delta_mx j (0 : 'I_1))) = 0.
    by rewrite mulmxA; rewrite mulmxA; move: H => ->; rewrite mul0mx.
  by apply: dot_eq0; rewrite colE -mulmxA dot_tr; move: Z => /= ->; rewrite dot0l.
by move=> /colP /(_ i); rewrite !mxE.
Qed.
Lemma ls_normal m n (A : 'M[F]_(m, n)) b : A^T *m (A *m ls_solve A b - b) = 0.
Proof.
have S : (b^T *m A <= A^T *m A)%MS by apply: submx_trans (submxMl _ _) (gram_sub A).
have := mulmxKpV S; rewrite /ls_solve => E.
apply: trmx_inj; rewrite trmx0 trmx_mul trmxK linearB /= trmx_mul trmxK mulmxBl -mulmxA E.
by rewrite subrr.
Qed.
Lemma least_squares_exists : least_squares ls_solve.
Proof.
move=> m n A b x; set y := ls_solve A b.
have N := ls_normal A b; rewrite -/y in N.
have -> : A *m x - b = (A *m y - b) + A *m (x - y) by rewrite mulmxBr; mx_open F; ring.
set r := A *m y - b in N *; set d := A *m _.
have rd : dot r d = 0 by rewrite /d dot_tr N dot0l.
clear N; move: rd; clearbody r d => rd.
rewrite dotDl !dotDr rd [dot d r]dotC rd addr0 add0r ler_addl.
exact: dot_ge0.
Qed.
End P.

(** ** Examples *)
Definition one_con n (j : 'rV[rat]_n) : seq (rcm [fieldType of rat] n) := [:: Tagged (fun d => 'M[rat]_(d, n)) j].
Lemma force1 n (j : 'rV[rat]_n) o f : contact_force (F := rat_realFieldType) (one_con j) o f = (f o) *: j^T.
Proof.
apply/colP => i; rewrite /one_con /= addr0 !mxE big_ord_recl big_ord0 addr0 !mxE /= addn0.
by rewrite mulrC.
Qed.
Lemma row1 n (j : 'rV[rat]_n) : jac_row (one_con j) 0 = j.
Proof. by rewrite /one_con /= insubT //=; apply/rowP => i; rewrite mxE; congr (j _ _); apply: val_inj. Qed.

(** two joints of which the first has a motor, in contact *)
Definition b2 : 'M[rat]_(2, 1) := \matrix_(i, j) (if i == 0 then 1 else 0).
Definition j2 : 'rV[rat]_2 := \row_j 1.
Definition nle2 : 'cV[rat]_2 := \col_i (if i == 0 then 3%:R else 1).
Lemma nle2E : nle2 = b2 *m const_mx 2%:R + contact_force (F := rat_realFieldType) (one_con j2) 0 (fun _ => 1).
Proof.
rewrite force1; apply/colP => i; rewrite !mxE big_ord_recl big_ord0 addr0 !mxE.
by case: (i == 0); apply/eqP; vm_compute.
Qed.
Lemma pos1 n : posdef (F := rat_realFieldType) (1%:M : 'M[rat]_n).
Proof.
move=> a N; rewrite mul1mx lt_neqAle dot_ge0 andbT eq_sym; apply/negP => /eqP H.
by move: N; rewrite (dot_eq0 (F := rat_realFieldType) H) eqxx.
Qed.
(** the torque 2 and, as second output, minus the contact force 1 *)
Example C68_example : least_squares (ls_solve (F := rat_realFieldType)) /\
  let: (u, l) := proxy (ls_solve (F := rat_realFieldType)) b2 nle2 (one_con j2) in u = const_mx 2%:R /\ l = const_mx (-1).
Proof.
split; first exact: least_squares_exists.
have := C68_equilibrium (F := rat_realFieldType) (B := b2) (nle := nle2) (cs := one_con j2) (@least_squares_exists _)
  (ex_intro _ _ (ex_intro _ _ nle2E)).
rewrite /proxy; set u := usubmx _; set l := dsubmx _ => E.
rewrite force1 in E; clearbody u l.
have H0 := congr1 (fun M : 'cV[rat]_2 => M ord0 ord0) E; have H1 := congr1 (fun M : 'cV[rat]_2 => M ord_max ord0) E.
rewrite /= !mxE !big_ord_recl !big_ord0 !addr0 !mxE /= mulr1 mul1r in H0.
rewrite /= !mxE !big_ord_recl !big_ord0 !addr0 !mxE /= mulr1 mul0r add0r in H1.
have L0 : entry (F := rat_realFieldType) l 0 = -1 by rewrite H1 opprK.
split.
- apply/colP => i; rewrite !ord1 mxE; move: H0; rewrite L0 opprK => H0.
  apply: (addIr 1); transitivity (3%:R : rat); last by apply/eqP; vm_compute.
  by symmetry; exact: H0.
- apply/colP => i; rewrite mxE -L0 /entry insubT //; congr (l _ _); apply: val_inj => /=.
  by case: i => [[|i] hi].
Qed.

(** The second output is not the contact force. *)
Theorem C68_sign_refuted : exists nv nu (B : 'M[rat]_(nv, nu)) M nle (cs : seq (rcm [fieldType of rat] nv)),
  posdef (F := rat_realFieldType) M /\
  forall qr, least_squares (F := rat_realFieldType) qr ->
  forall a f, motion (F := rat_realFieldType) M nle (B *m (proxy qr B nle cs).1) cs (fun _ => 0) a f ->
  exists i : 'I_(total_size cs), (proxy qr B nle cs).2 i 0 != f i.
Proof.
exists 2%N, 1%N, b2, 1%:M, nle2, (one_con j2); split; first exact: pos1.
move=> qr L a f Mo.
have X := ex_intro (fun u => exists f, nle2 = b2 *m u + contact_force (F := rat_realFieldType) (one_con j2) 0 f) _ (ex_intro _ _ nle2E).
have A0 := C68_rest (F := rat_realFieldType) L (@pos1 2) X Mo.
have E := C68_equilibrium (F := rat_realFieldType) L X; move: E; case: Mo => Mo _.
move=> E.
exists 0; rewrite A0 mulmx0 add0r force1 in Mo; rewrite force1 in E.
have H1 := congr1 (fun M : 'cV[rat]_2 => M ord_max ord0) E; have H2 := congr1 (fun M : 'cV[rat]_2 => M ord_max ord0) Mo.
rewrite /= !mxE !big_ord_recl !big_ord0 !addr0 !mxE /= mulr1 mul0r add0r in H1.
rewrite /= !mxE !big_ord_recl !big_ord0 !addr0 !mxE /= mulr1 mul0r add0r in H2.
rewrite -H2; set l := dsubmx _ in H1; rewrite -[(proxy _ _ _ _).2]/l; clearbody l.
have -> : l 0 0 = entry (F := rat_realFieldType) l 0 by rewrite /entry insubT //; congr (l _ _); apply: val_inj.
by apply/negP => /eqP Q; move: H1; rewrite Q => /eqP; vm_compute.
Qed.

(** If no torque holds the robot, torques are returned all the same. *)
Theorem C68_silent_refuted : forall qr a f,
  motion (F := rat_realFieldType) (nv := 1) 1%:M (const_mx 1) (0 *m (proxy (nv := 1) (nu := 1) qr 0 (const_mx 1) [::]).1) [::] (fun _ => 0) a f ->
  a = const_mx (-1).
Proof.
move=> qr a f [E _]; move: E; rewrite mul1mx mul0mx add0r /= => /eqP; rewrite addr_eq0 => /eqP ->.
by apply/colP => i; rewrite !mxE.
Qed.
(** If the constraint drifts, the torques do not leave the robot at rest. *)
Theorem C68_moving_refuted : forall qr a f,
  let B : 'M[rat]_1 := 1%:M in let cs := one_con (1%:M : 'M[rat]_1) in
  (exists u f, const_mx 1 = B *m u + contact_force (F := rat_realFieldType) cs 0 f) /\
  (motion (F := rat_realFieldType) 1%:M (const_mx 1) (B *m (proxy qr B (const_mx 1) cs).1) cs (fun _ => 1) a f -> a = const_mx (-1)).
Proof.
move=> qr a f B cs; split.
  by exists (const_mx 1), (fun _ => 0); rewrite force1 scale0r addr0 mul1mx.
move=> [_ /(_ 0%N isT)]; rewrite row1 mul1mx => /eqP; rewrite addr_eq0 => /eqP H.
by apply/colP => i; rewrite mxE !ord1.
Qed.
(** both motions exist *)
Example C68_motion_example :
  (exists a f, motion (F := rat_realFieldType) (nv := 1) 1%:M (const_mx 1) (0 *m (proxy (nv := 1) (nu := 1) (ls_solve (F := rat_realFieldType)) 0 (const_mx 1) [::]).1)
     [::] (fun _ => 0) a f) /\
  (exists a f, motion (F := rat_realFieldType) 1%:M nle2 (b2 *m (proxy (ls_solve (F := rat_realFieldType)) b2 nle2 (one_con j2)).1) (one_con j2) (fun _ => 0) a f).
Proof.
split.
- exists (const_mx (-1)), (fun _ => 0); split=> //; rewrite mul1mx mul0mx add0r /=.
  by apply/colP => i; rewrite !mxE.
- exists 0, (fun _ => 1); split; last by move=> i _; rewrite mulmx0 mxE addr0.
  have [_ [U _]] := C68_example; rewrite -[(proxy _ _ _ _).1]/(usubmx (inverse_dynamics (ls_solve (F := rat_realFieldType)) b2 nle2 (one_con j2))) U.
  by rewrite mulmx0 add0r; exact: nle2E.
Qed.
