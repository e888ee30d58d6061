(** Model of core/bunchkaufman.hpp: BunchKaufman::compute and solve, unblocked and blocked.

    Exact real scalars (conj and real are the identity; NaN and overflow are not
    modelled).  Matrices are functions of (row, column); a block view a.block(o, o, ..)
    is the same array with indices counted from o, so [o] is a parameter of the routines
    that receive a view and all indices are those of the whole array; pivots are
    stored relative to the view as in the code.  One column of the right-hand side
    (the code treats the columns alike and separately).  Eigen's triangular solves are
    written as substitutions.  while loops carry fuel; running out is an outcome of its
    own, shown not to occur. *)
From Coq Require Import Reals List Arith ZArith Bool.
Import ListNotations.
Local Open Scope R_scope.

Definition mat := nat -> nat -> R.
Definition vec := nat -> R.
Definition upd (a : mat) (i j : nat) (v : R) : mat := fun p q => if (p =? i) && (q =? j) then v else a p q.
Definition set_piv (p : nat -> Z) (i : nat) (v : Z) : nat -> Z := fun j => if j =? i then v else p j.
(** for (j = lo; j < hi; ++j) *)
Definition for_ {S} (lo hi : nat) (f : S -> nat -> S) (s : S) : S := fold_left f (seq lo (hi - lo)) s.
Definition Rleb (x y : R) : bool := if Rle_dec x y then true else false.
Definition Reqb (x y : R) : bool := if Req_EM_T x y then true else false.
(** segment(lo, hi - lo).cwiseAbs().maxCoeff(&i): the maximum and the first place it is reached *)
Definition max_coeff (f : vec) (lo hi : nat) : R * nat :=
  for_ (S lo) hi (fun m j => if Rleb (Rabs (f j)) (fst m) then m else (Rabs (f j), j)) (Rabs (f lo), lo).
(** sum over [lo, hi), for the products of Eigen *)
Definition sum (lo hi : nat) (f : vec) : R := fold_right (fun j s => f j + s) 0 (seq lo (hi - lo)).

(** 28, 180 *)
Definition alpha : R := (1 + sqrt 17) / 8.

(** 61-82 and 212-247: the pivot row and whether the pivot is 2x2.  [rowmax] and [aii] are
    |row imax| and |a(imax,imax)| *)
Definition choose (k imax : nat) (akk colmax rowmax aii : R) : nat * bool :=
  if Rleb (colmax * alpha) akk then (k, false)
  else if Rleb ((alpha * colmax) * (colmax / rowmax)) akk then (k, false)
  else if Rleb (alpha * rowmax) aii then (imax, false)
  else (imax, true).
(** 49-55 and 200-206: imax is k + 1 when the column is empty *)
Definition col_max (n k : nat) (c : vec) : R * nat :=
  if S k <? n then max_coeff c (S k) n else (0, S k).
(** 64-73 on (row imax, columns k..) and (column imax, rows after imax); 227-236 *)
Definition row_max (n k imax : nat) (r c : vec) : R :=
  let m := if k <? imax then fst (max_coeff r k imax) else 0 in
  if S imax <? n then Rmax m (fst (max_coeff c (S imax) n)) else m.

(** 85-103: symmetric swap of kk and kp in the lower triangle *)
Definition swap_lower (n k kk kp : nat) (two : bool) (a : mat) : mat :=
  if kp =? kk then a else
  let a := fun i j => if (kp <? i) && (i <? n) then if j =? kk then a i kp else if j =? kp then a i kk else a i j else a i j in
  let a := for_ (S kk) kp (fun (a : mat) j => let tmp := a j kk in upd (upd a j kk (a kp j)) kp j tmp) a in
  let a := upd (upd a kk kk (a kp kp)) kp kp (a kk kk) in
  if two then upd (upd a (S k) k (a kp k)) kp k (a (S k) k) else a.
(** 105-122 *)
Definition elim_one (n k : nat) (a : mat) : mat :=
  let d11 := 1 / a k k in
  let a := upd a k k d11 in
  let a := for_ (S k) n (fun (a : mat) j => let d11xj := a j k * d11 in
             for_ j n (fun (a : mat) i => let xi := a i k in upd a i j (a i j - d11xj * xi)) a) a in
  fun i j => if (k <? i) && (i <? n) && (j =? k) then a i j * d11 else a i j.
(** 123-151 *)
Definition elim_two (n k : nat) (a : mat) : mat :=
  let d21_abs := Rabs (a (S k) k) in
  let d21_inv := 1 / d21_abs in
  let d11 := d21_inv * a (S k) (S k) in
  let d22 := d21_inv * a k k in
  let t := 1 / (d11 * d22 - 1) in
  let d := t * d21_inv in
  let d21 := a (S k) k * d21_inv in
  let a := upd a k k (d11 * d) in
  let a := upd a (S k) k (- d21 * d) in
  let a := upd a (S k) (S k) (d22 * d) in
  for_ (S (S k)) n (fun (a : mat) j =>
    let wk := (a j k * d11 - a j (S k) * d21) * d in
    let wkp1 := (a j (S k) * d22 - a j k * d21) * d in
    let a := for_ j n (fun (a : mat) i => upd a i j (a i j - (a i k * wk + a i (S k) * wkp1))) a in
    upd (upd a j k wk) j (S k) wkp1) a.
(** 158-163 and 307-312 *)
Definition record_pivot (o k kp : nat) (two : bool) (piv : nat -> Z) : nat -> Z :=
  if two then set_piv (set_piv piv k (-1 - Z.of_nat (kp - o))) (S k) (-1 - Z.of_nat (kp - o))
  else set_piv piv k (Z.of_nat (kp - o)).

(** ComputationInfo, with the data on success *)
Inductive outcome (A : Type) := Success (x : A) | NumericalIssue | OutOfFuel.
Arguments Success {A}. Arguments NumericalIssue {A}. Arguments OutOfFuel {A}.

(** one round of the loop 46-166: None is the return NumericalIssue *)
Definition round (o n k : nat) (a : mat) (piv : nat -> Z) : option (mat * (nat -> Z) * nat) :=
  let akk := Rabs (a k k) in
  let (colmax, imax) := col_max n k (fun i => a i k) in
  if Reqb (Rmax akk colmax) 0 then None else
  let rowmax := row_max n k imax (fun j => a imax j) (fun i => a i imax) in
  let (kp, two) := choose k imax akk colmax rowmax (Rabs (a imax imax)) in
  let kk := if two then S k else k in
  let a := swap_lower n k kk kp two a in
  let a := if two then elim_two n k a else elim_one n k a in
  Some (a, record_pivot o k kp two piv, if two then 2%nat else 1%nat).
Fixpoint unblocked_loop (fuel o n k : nat) (a : mat) (piv : nat -> Z) : outcome (mat * (nat -> Z)) :=
  if k <? n then
    match fuel with
    | O => OutOfFuel
    | S fuel => match round o n k a piv with
                | None => NumericalIssue
                | Some (a, piv, k_step) => unblocked_loop fuel o n (k + k_step) a piv
                end
    end
  else Success (a, piv).
(** 22-169, on the view starting at o *)
Definition unblocked (o n : nat) (a : mat) (piv : nat -> Z) : outcome (mat * (nat -> Z)) :=
  if n - o =? 0 then Success (a, piv)
  else if n - o =? 1 then
    if Reqb (Rabs (a o o)) 0 then NumericalIssue else Success (upd a o o (1 / a o o), piv)
  else unblocked_loop (n - o) o n o a piv.

(** w.col(c).segment(k, n - k) = f, minus a.block(k, 0, n - k, k) * w.row(r).segment(0, k)^T (190-196, 215-225) *)
Definition load_col (o n k c r : nat) (f : vec) (a w : mat) : mat :=
  fun i j => if (k <=? i) && (i <? n) && (j =? c) then f i - sum o k (fun q => a i q * w r q) else w i j.
(** 251-260: column kk of the trailing matrix goes to position kp *)
Definition move_lower (o n k kk kp : nat) (a : mat) : mat :=
  let a := upd a kp kp (a kk kk) in
  let a := for_ (S kk) kp (fun (a : mat) j => upd a kp j (a j kk)) a in
  let a := fun i j => if (kp <? i) && (i <? n) && (j =? kp) then a i kk else a i j in
  fun i j => if (o <=? j) && (j <? k) then if i =? kk then a kp j else if i =? kp then a kk j else a i j else a i j.
(** 261: rows kk and kp of w, columns up to kk *)
Definition swap_w (o kk kp : nat) (w : mat) : mat :=
  fun i j => if (o <=? j) && (j <=? kk) then if i =? kk then w kp j else if i =? kp then w kk j else w i j else w i j.
(** 264-272 *)
Definition store_one (n k : nat) (a w : mat) : mat :=
  let a := fun i j => if (k <=? i) && (i <? n) && (j =? k) then w i k else a i j in
  let d11 := 1 / w k k in
  let a := upd a k k d11 in
  fun i j => if (k <? i) && (i <? n) && (j =? k) then a i j * d11 else a i j.
(** 273-300 *)
Definition store_two (n k : nat) (a w : mat) : mat :=
  let d21_abs := Rabs (w (S k) k) in
  let d21_inv := 1 / d21_abs in
  let d11 := d21_inv * w (S k) (S k) in
  let d22 := d21_inv * w k k in
  let t := 1 / (d11 * d22 - 1) in
  let d21 := w (S k) k * d21_inv in
  let d := t * d21_inv in
  let a := upd a k k (d11 * d) in
  let a := upd a (S k) k (- d21 * d) in
  let a := upd a (S k) (S k) (d22 * d) in
  for_ (S (S k)) n (fun (a : mat) j =>
    upd (upd a j k ((w j k * d11 - w j (S k) * d21) * d)) j (S k) ((w j (S k) * d22 - w j k * d21) * d)) a.
(** one round of the loop 189-315 *)
Definition block_round (o n k : nat) (a w : mat) (piv : nat -> Z) : option (mat * mat * (nat -> Z) * nat) :=
  let w := load_col o n k k k (fun i => a i k) a w in
  let akk := Rabs (w k k) in
  let (colmax, imax) := col_max n k (fun i => w i k) in
  if Reqb (Rmax akk colmax) 0 then None else
  (* 215-236 happen only if the first test fails; their effect on column k + 1 of w is
     visible only in that case *)
  let w1 := load_col o n k (S k) imax (fun i => if i <? imax then a imax i else a i imax) a w in
  let rowmax := row_max n k imax (fun i => w1 i (S k)) (fun i => w1 i (S k)) in
  let (kp, two) := choose k imax akk colmax rowmax (Rabs (w1 imax (S k))) in
  let w := if Rleb (colmax * alpha) akk then w else w1 in
  (* 240-243 *)
  let w := if negb two && (kp =? imax) then fun i j => if (k <=? i) && (i <? n) && (j =? k) then w i (S k) else w i j else w in
  let kk := if two then S k else k in
  let (a, w) := if kp =? kk then (a, w) else (move_lower o n k kk kp a, swap_w o kk kp w) in
  let a := if two then store_two n k a w else store_one n k a w in
  Some (a, w, record_pivot o k kp two piv, if two then 2%nat else 1%nat).
(** 322-344: undo the row swaps in the columns already processed; j is k - 1 on entry *)
Fixpoint undo_rows (fuel o j : nat) (a : mat) (piv : nat -> Z) : outcome mat :=
  match fuel with
  | O => OutOfFuel
  | S fuel =>
    let jj := j in
    let p := piv j in
    let neg := (p <? 0)%Z in
    let jp := (o + Z.to_nat (if neg then -1 - p else p))%nat in
    let j := if neg then (j - 1)%nat else j in
    if j =? o then Success a else
    let j := (j - 1)%nat in
    let a := if jp =? jj then a else
      fun i q => if (o <=? q) && (q <=? j) then if i =? jp then a jj q else if i =? jj then a jp q else a i q else a i q in
    if j =? o then Success a else undo_rows fuel o j a piv
  end.
(** 171-323: columns until nb - 1 of the view; then the update of the rest *)
Fixpoint block_loop (fuel o n nb k : nat) (a w : mat) (piv : nat -> Z) : outcome (mat * (nat -> Z) * nat) :=
  if (k <? n) && (S (k - o) <? nb) then
    match fuel with
    | O => OutOfFuel
    | S fuel => match block_round o n k a w piv with
                | None => NumericalIssue
                | Some (a, w, piv, k_step) => block_loop fuel o n nb (k + k_step) a w piv
                end
    end
  else
    let a := fun i j => if (k <=? j) && (j <=? i) && (i <? n) then a i j - sum o k (fun c => a i c * w j c) else a i j in
    match undo_rows (k - o) o (k - 1) a piv with
    | Success a => Success (a, piv, k)
    | NumericalIssue => NumericalIssue
    | OutOfFuel => OutOfFuel
    end.
Definition one_block (o n nb : nat) (a w : mat) (piv : nat -> Z) : outcome (mat * (nat -> Z) * nat) :=
  block_loop nb o n nb o a w piv.

(** 374-385 *)
Definition shift_pivots (o e : nat) (piv : nat -> Z) : nat -> Z :=
  fun j => if (o <=? j) && (j <? e) then if (0 <=? piv j)%Z then (piv j + Z.of_nat o)%Z else (piv j - Z.of_nat o)%Z else piv j.
(** 355-389: blocks.  The workspace w is only read where the current block has written
    (it keeps the values of the previous block: [w] is arbitrary) *)
Fixpoint blocks (fuel n nb k : nat) (w : nat -> mat) (a : mat) (piv : nat -> Z) : outcome (mat * (nat -> Z)) :=
  if k <? n then
    match fuel with
    | O => OutOfFuel
    | S fuel =>
      if negb (nb =? 0) && (nb <? n - k) then
        match one_block k n nb a (w k) piv with
        | Success (a, piv, e) => blocks fuel n nb e w a (shift_pivots k e piv)
        | NumericalIssue => NumericalIssue
        | OutOfFuel => OutOfFuel
        end
      else
        match unblocked k n a piv with
        | Success (a, piv) => blocks fuel n nb n w a (shift_pivots k n piv)
        | NumericalIssue => NumericalIssue
        | OutOfFuel => OutOfFuel
        end
    end
  else Success (a, piv).
(** 393-404: 2x2 off-diagonals move to subdiag *)
Fixpoint extract (fuel n k : nat) (a : mat) (sd : vec) (piv : nat -> Z) : mat * vec :=
  match fuel with
  | O => (a, sd)
  | S fuel =>
    if k <? n then
      if (piv k <? 0)%Z then
        extract fuel n (k + 2) (upd a (S k) k 0)
          (fun i => if i =? S k then 0 else if i =? k then a (S k) k else sd i) piv
      else extract fuel n (k + 1) a (fun i => if i =? k then 0 else sd i) piv
    else (a, sd)
  end.
(** a.row(i).segment(0, k).swap(a.row(p).segment(0, k)) *)
Definition swap_rows (k i p : nat) (a : mat) : mat :=
  fun r c => if c <? k then if r =? i then a p c else if r =? p then a i c else a r c else a r c.
(** 406-417 *)
Fixpoint swap_loop (fuel n k : nat) (a : mat) (piv : nat -> Z) : mat :=
  match fuel with
  | O => a
  | S fuel =>
    if k <? n then
      let p := piv k in
      if (p <? 0)%Z then swap_loop fuel n (k + 2) (swap_rows k (S k) (Z.to_nat (-1 - p)) a) piv
      else swap_loop fuel n (k + 1) (swap_rows k k (Z.to_nat p) a) piv
    else a
  end.
(** m_matrix, m_subdiag, m_pivots *)
Record factor := Factor { f_mat : mat; f_sub : vec; f_piv : nat -> Z }.
Definition BlockSize : nat := 32.
(** compute (654-676), with bunch_kaufman_in_place (346-420); [w] is whatever the workspace
    holds when each block starts *)
Definition compute_with (blocksize n : nat) (w : nat -> mat) (A : mat) : outcome factor :=
  let m := fun i j => if (j <=? i) && (i <? n) then A i j else 0 in
  match blocks n n blocksize 0 w m (fun _ => 0%Z) with
  | Success (a, piv) =>
      let (a, sd) := extract n n 0 a (fun _ => 0) piv in
      Success (Factor (swap_loop n n 0 a piv) sd piv)
  | NumericalIssue => NumericalIssue
  | OutOfFuel => OutOfFuel
  end.
Definition compute (n : nat) (w : nat -> mat) (A : mat) : outcome factor :=
  compute_with (if n <=? BlockSize then 0 else BlockSize) n w A.

(** x.row(i).swap(x.row(p)) *)
Definition swap_vec (i p : nat) (x : vec) : vec := fun r => if r =? i then x p else if r =? p then x i else x r.
(** 457-468 *)
Fixpoint swaps_forward (fuel n k : nat) (piv : nat -> Z) (x : vec) : vec :=
  match fuel with
  | O => x
  | S fuel =>
    if k <? n then
      let p := piv k in
      if (p <? 0)%Z then swaps_forward fuel n (k + 2) piv (swap_vec (S k) (Z.to_nat (-1 - p)) x)
      else swaps_forward fuel n (k + 1) piv (swap_vec k (Z.to_nat p) x)
    else x
  end.
(** 472: unit lower triangular solve *)
Definition lower_solve (n : nat) (L : mat) (x : vec) : vec :=
  for_ 0 n (fun x c i => if (c <? i) && (i <? n) then x i - L i c * x c else x i) x.
(** 474-502 *)
Fixpoint diag_solve (fuel n k : nat) (L : mat) (sd : vec) (piv : nat -> Z) (x : vec) : vec :=
  match fuel with
  | O => x
  | S fuel =>
    if k <? n then
      if (piv k <? 0)%Z then
        let xk := x k in let xkp1 := x (S k) in
        diag_solve fuel n (k + 2) L sd piv
          (fun i => if i =? k then xk * L k k + xkp1 * sd k
                    else if i =? S k then xkp1 * L (S k) (S k) + xk * sd k else x i)
      else diag_solve fuel n (k + 1) L sd piv (fun i => if i =? k then x i * L k k else x i)
    else x
  end.
(** 504: unit upper triangular solve with the transpose *)
Definition upper_solve (n : nat) (L : mat) (x : vec) : vec :=
  fold_right (fun c x i => if i =? c then x i - sum (S c) n (fun r => L r c * x r) else x i) x (seq 0 n).
(** 506-517 *)
Fixpoint swaps_backward (fuel k : nat) (piv : nat -> Z) (x : vec) : vec :=
  match fuel, k with
  | S fuel, S k =>
      let p := piv k in
      if (p <? 0)%Z then swaps_backward fuel (k - 1) piv (swap_vec k (Z.to_nat (-1 - p)) x)
      else swaps_backward fuel k piv (swap_vec k (Z.to_nat p) x)
  | _, _ => x
  end.
(** bunch_kaufman_solve_in_place (449-518); solveInPlace (643-650) always returns true *)
Definition solve (n : nat) (f : factor) (b : vec) : vec :=
  let x := swaps_forward n n 0 (f_piv f) b in
  let x := lower_solve n (f_mat f) x in
  let x := diag_solve n n 0 (f_mat f) (f_sub f) (f_piv f) x in
  let x := upper_solve n (f_mat f) x in
  swaps_backward n n (f_piv f) x.
