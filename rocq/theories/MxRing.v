(** The [ring] and [field] tactics of the standard library for a mathcomp
    field (no plugin beyond those of the standard library). *)
From Coq Require Import Ring Field Setoid.
From mathcomp Require Import all_ssreflect all_algebra.
Set Implicit Arguments.
Unset Strict Implicit.
Import GRing.Theory.
Local Open Scope ring_scope.

Section Ops.
Variable F : fieldType.
Definition fadd (x y : F) : F := x + y.
Definition fmul (x y : F) : F := x * y.
Definition fopp (x : F) : F := - x.
Definition fsub (x y : F) : F := x - y.
Definition finv (x : F) : F := x^-1.
Definition fdiv (x y : F) : F := x / y.
Definition f0 : F := 0.
Definition f1 : F := 1.
Lemma ops_ring : ring_theory f0 f1 fadd fmul fsub fopp (@eq F).
Proof.
by split; rewrite /fadd /fmul /fsub /fopp /f0 /f1; intros;
  rewrite ?add0r ?addrA ?mul1r ?mulrA ?mulrDl ?subrr //; first [exact: addrC|exact: mulrC].
Qed.
Lemma ops_field : field_theory f0 f1 fadd fmul fsub fopp fdiv finv (@eq F).
Proof.
split; [exact: ops_ring | | by [] | ].
- by apply/eqP; rewrite /f0 /f1 oner_eq0.
- by move=> p /eqP pN0; rewrite /fmul /finv /f1 mulVf.
Qed.
End Ops.

(** put a goal over [F] in terms of these operations *)
Ltac fold_ops F :=
  rewrite ?(mulr_natl, mulr_natr) ?mulr2n ?mulrS ?mulr0n;
  repeat match goal with
  | |- context [@GRing.add _ ?x ?y] => progress change (@GRing.add _ x y) with (@fadd F x y)
  | |- context [@GRing.mul _ ?x ?y] => progress change (@GRing.mul _ x y) with (@fmul F x y)
  | |- context [@GRing.opp _ ?x] => progress change (@GRing.opp _ x) with (@fopp F x)
  | |- context [@GRing.inv _ ?x] => progress change (@GRing.inv _ x) with (@finv F x)
  | |- context [@GRing.zero ?V] => progress change (@GRing.zero V) with (@f0 F)
  | |- context [@GRing.one ?V] => progress change (@GRing.one V) with (@f1 F)
  end;
  match goal with |- @eq _ ?x ?y => change (@eq (GRing.Field.sort F) x y) end.


(** equations between sums of matrices: products, transposes and inverses are
    atoms *)
Ltac gen_mx :=
  repeat match goal with
  | |- context [@mulmx ?R ?m ?n ?p ?A ?B] => generalize (@mulmx R m n p A B); intro
  | |- context [@trmx ?R ?m ?n ?A] => generalize (@trmx R m n A); intro
  | |- context [@invmx ?R ?n ?A] => generalize (@invmx R n A); intro
  end.
Ltac norm_entries F :=
  repeat match goal with
  | |- context [@fun_of_matrix _ ?m ?n ?A ?i ?j] =>
      progress change (@fun_of_matrix _ m n A i j) with (@fun_of_matrix (GRing.Field.sort F) m n A i j)
  end.
(** one spelling of the scalar type in the operations on matrices *)
Ltac norm_mx F :=
  repeat match goal with
  | |- context [@mulmx ?R ?m ?n ?p ?A ?B] =>
      progress change (@mulmx R m n p A B) with (@mulmx (GRing.Field.ringType F) m n p A B)
  | |- context [@trmx ?T ?m ?n ?A] =>
      progress change (@trmx T m n A) with (@trmx (GRing.Field.sort F) m n A)
  | |- context [@usubmx ?T ?m ?n ?p ?A] =>
      progress change (@usubmx T m n p A) with (@usubmx (GRing.Field.sort F) m n p A)
  | |- context [@dsubmx ?T ?m ?n ?p ?A] =>
      progress change (@dsubmx T m n p A) with (@dsubmx (GRing.Field.sort F) m n p A)
  | |- context [@lsubmx ?T ?m ?n ?p ?A] =>
      progress change (@lsubmx T m n p A) with (@lsubmx (GRing.Field.sort F) m n p A)
  | |- context [@rsubmx ?T ?m ?n ?p ?A] =>
      progress change (@rsubmx T m n p A) with (@rsubmx (GRing.Field.sort F) m n p A)
  | |- context [@col_mx ?T ?m ?n ?p ?A ?B] =>
      progress change (@col_mx T m n p A B) with (@col_mx (GRing.Field.sort F) m n p A B)
  | |- context [@row_mx ?T ?m ?n ?p ?A ?B] =>
      progress change (@row_mx T m n p A B) with (@row_mx (GRing.Field.sort F) m n p A B)
  end.
Ltac mx_open F := norm_mx F; gen_mx; let i := fresh "i" in let j := fresh "j" in
  apply/matrixP => i j; rewrite ?mxE; fold_ops F; norm_entries F.

Section Dot.
Variable F : fieldType.
(** scalar product of column vectors *)
Definition dot n (x y : 'cV[F]_n) : F := (x^T *m y) 0 0.
Lemma dotDl n (x y z : 'cV[F]_n) : dot (x + y) z = dot x z + dot y z.
Proof. by rewrite /dot linearD /= mulmxDl mxE. Qed.
Lemma dotDr n (x y z : 'cV[F]_n) : dot z (x + y) = dot z x + dot z y.
Proof. by rewrite /dot mulmxDr mxE. Qed.
Lemma dotNl n (x z : 'cV[F]_n) : dot (- x) z = - dot x z.
Proof. by rewrite /dot linearN /= mulNmx mxE. Qed.
Lemma dotNr n (x z : 'cV[F]_n) : dot z (- x) = - dot z x.
Proof. by rewrite /dot mulmxN mxE. Qed.
Lemma dotZl n a (x z : 'cV[F]_n) : dot (a *: x) z = a * dot x z.
Proof. by rewrite /dot linearZ /= -scalemxAl mxE. Qed.
Lemma dotZr n a (x z : 'cV[F]_n) : dot z (a *: x) = a * dot z x.
Proof. by rewrite /dot -scalemxAr mxE. Qed.
Lemma dot0l n (z : 'cV[F]_n) : dot 0 z = 0.
Proof. by rewrite /dot trmx0 mul0mx mxE. Qed.
Lemma dot0r n (z : 'cV[F]_n) : dot z 0 = 0.
Proof. by rewrite /dot mulmx0 mxE. Qed.
Lemma dotC n (x y : 'cV[F]_n) : dot x y = dot y x.
Proof.
have E : (x^T *m y)^T = y^T *m x by rewrite trmx_mul trmxK.
by rewrite /dot -E [RHS]mxE.
Qed.
Lemma dot_tr m n (A : 'M[F]_(m, n)) x y : dot x (A *m y) = dot (A^T *m x) y.
Proof. by rewrite /dot trmx_mul trmxK mulmxA. Qed.
Lemma dot_col m n (x z : 'cV[F]_m) (y t : 'cV[F]_n) :
  dot (col_mx x y) (col_mx z t) = dot x z + dot y t.
Proof. by rewrite /dot tr_col_mx mul_row_col mxE. Qed.
Lemma dot_sum n (x y : 'cV[F]_n) : dot x y = \sum_i x i 0 * y i 0.
Proof. by rewrite /dot mxE; apply: eq_bigr => i _; rewrite mxE. Qed.
End Dot.
