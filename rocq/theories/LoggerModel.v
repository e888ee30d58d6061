(** Model of the table logger of the solvers, /repo/include/aligator/utils/logger.hpp and
    /repo/src/utils/logger.cpp, and of its use by SolverProxDDP and SolverFDDP.

    The maps have keys of type std::string_view: a key does not own its characters.  The
    model says where they are: in a literal, or in a string of the vector m_columnNames,
    which moves when the vector grows.  Looking up a name compares it with keys of its
    bucket, and comparing with a key whose characters are gone is undefined behaviour.

    Simplifications: what fmt writes for a value is kept as the triple of format, width
    and value; the alignment of headlines is not modelled; rehashing, which reads all
    keys, is not modelled.  The vector doubles its capacity (libstdc++, libc++). *)
From Coq Require Import List String Bool Arith.
Import ListNotations.
Open Scope string_scope.
Open Scope list_scope.

Section Logger.
(** values to print; the hash of a string modulo the number of buckets *)
Variable V : Type.
Variable bucket : string -> nat.

(** ** State *)
(** int_format, sci_format, dbl_format (hpp 13-15), and the empty string *)
Inductive format := FInt | FSci | FDbl | FEmpty.
(** the overload of addEntry (cpp 58, 64) *)
Inductive value := VReal (v : V) | VInt (n : nat).
(** a formatted value; [Blank] is the empty string *)
Inductive cell := Blank | Cell (f : format) (width : nat) (v : value).
Inductive key := Lit (s : string) | View (block i : nat) (s : string).
Definition text (k : key) : string := match k with Lit s => s | View _ _ s => s end.
Definition map (A : Type) := list (key * A).
Inductive output := Head (cols : list (string * nat)) | Row (cells : list cell) | End (conv : bool).

(** hpp 33, 49-55; [block] is the buffer of m_columnNames and [cap] its capacity;
    [out] is what was printed *)
Record st := St {
  active : bool; columns : list string; block : nat; cap : nat;
  specs : map (nat * format); line : map cell; out : list output }.
(** hpp 35 *)
Definition fresh : st := St true [] 0 0 [] [] [].

Inductive res (A : Type) := Ok (a : A) | Throws | Ub.
Arguments Ok {A}. Arguments Throws {A}. Arguments Ub {A}.
Definition bind {A B} (x : res A) (f : A -> res B) : res B :=
  match x with Ok a => f a | Throws => Throws | Ub => Ub end.

(** ** boost::unordered_map *)
Definition read (b : nat) (k : key) : option string :=
  match k with
  | Lit s => Some s
  | View b' _ s => if Nat.eqb b b' then Some s else None
  end.
(** find *)
Fixpoint find {A} (b : nat) (x : string) (m : map A) : res (option A) :=
  match m with
  | [] => Ok None
  | (k, v) :: m' =>
      if Nat.eqb (bucket (text k)) (bucket x) then
        match read b k with
        | None => Ub
        | Some s => if String.eqb s x then Ok (Some v) else find b x m'
        end
      else find b x m'
  end.
(** the value of the key found is replaced *)
Fixpoint assign {A} (x : string) (v : A) (m : map A) : map A :=
  match m with
  | [] => []
  | (k, v') :: m' => if String.eqb (text k) x then (k, v) :: m' else (k, v') :: assign x v m'
  end.
(** operator[]: a missing key is inserted with an empty value *)
Definition index {A} (b : nat) (k : key) (d : A) (m : map A) : res (A * map A) :=
  bind (find b (text k) m) (fun o =>
  match o with Some v => Ok (v, m) | None => Ok (d, (k, d) :: m) end).
(** emplace *)
Definition emplace {A} (b : nat) (k : key) (v : A) (m : map A) : res (map A) :=
  bind (find b (text k) m) (fun o =>
  match o with Some _ => Ok m | None => Ok ((k, v) :: m) end).
(** insert_or_assign *)
Definition insert_or_assign {A} (b : nat) (k : key) (v : A) (m : map A) : res (map A) :=
  bind (find b (text k) m) (fun o =>
  match o with Some _ => Ok (assign (text k) v m) | None => Ok ((k, v) :: m) end).

(** ** Logger *)
(** addColumn, cpp 52-56; the name is a literal (BASIC_KEYS, hpp 23-30) *)
Definition add_column (name : string) (width : nat) (f : format) (s : st) : res st :=
  let full := Nat.eqb (List.length (columns s)) (cap s) in
  let b := if full then S (block s) else block s in
  let c := if full then Nat.max 1 (2 * cap s) else cap s in
  bind (emplace b (Lit name) (width, f) (specs s)) (fun m =>
  Ok (St (active s) (columns s ++ [name]) b c m (line s) (out s))).
(** fmt::format: a double needs e or g, an integer d *)
Definition render (f : format) (w : nat) (v : value) : res cell :=
  match f, v with
  | FEmpty, _ => Ok Blank
  | FInt, VInt _ | FSci, VReal _ | FDbl, VReal _ => Ok (Cell f w v)
  | _, _ => Throws
  end.
(** addEntry, cpp 58-68; the name is a literal *)
Definition add_entry (name : string) (v : value) (s : st) : res st :=
  bind (index (block s) (Lit name) (0, FEmpty) (specs s)) (fun r =>
  bind (render (snd (fst r)) (fst (fst r)) v) (fun c =>
  bind (insert_or_assign (block s) (Lit name) c (line s)) (fun m =>
  Ok (St (active s) (columns s) (block s) (cap s) (snd r) m (out s))))).
(** the loops of printHeadline, cpp 17-20, and log, cpp 29-31: a missing name is inserted
    with a key which is a view of the string of m_columnNames *)
Fixpoint each {A} (b i : nat) (d : A) (cs : list string) (m : map A) : res (list A * map A) :=
  match cs with
  | [] => Ok ([], m)
  | x :: cs' =>
      bind (index b (View b i x) d m) (fun r =>
      bind (each b (S i) d cs' (snd r)) (fun r' => Ok (fst r :: fst r', snd r')))
  end.
(** printHeadline, cpp 12-22 *)
Definition headline (s : st) : res st :=
  if active s then
    bind (each (block s) 0 (0, FEmpty) (columns s) (specs s)) (fun r =>
    Ok (St (active s) (columns s) (block s) (cap s) (snd r) (line s)
          (out s ++ [Head (combine (columns s) (List.map fst (fst r)))])))
  else Ok s.
(** log, cpp 24-33 *)
Definition log (s : st) : res st :=
  if active s then
    bind (each (block s) 0 Blank (columns s) (line s)) (fun r =>
    Ok (St (active s) (columns s) (block s) (cap s) (specs s) (snd r) (out s ++ [Row (fst r)])))
  else Ok s.
(** finish, cpp 41-50 *)
Definition finish (conv : bool) (s : st) : res st :=
  if active s then Ok (St (active s) (columns s) (block s) (cap s) (specs s) (line s) (out s ++ [End conv]))
  else Ok s.
Definition set_active (a : bool) (s : st) : res st :=
  Ok (St a (columns s) (block s) (cap s) (specs s) (line s) (out s)).

Inductive op :=
| AddColumn (name : string) (width : nat) (f : format) | AddEntry (name : string) (v : value)
| Headline | Log | Finish (conv : bool) | Active (a : bool).
Definition step (o : op) (s : st) : res st :=
  match o with
  | AddColumn n w f => add_column n w f s
  | AddEntry n v => add_entry n v s
  | Headline => headline s
  | Log => log s
  | Finish c => finish c s
  | Active a => set_active a s
  end.
Fixpoint exec (l : list op) (s : st) : res st :=
  match l with [] => Ok s | o :: l' => bind (step o s) (exec l') end.

(** ** The solvers *)
(** BASIC_KEYS, hpp 23-30 *)
Definition basic_keys : list (string * format * nat) :=
  [("iter", FInt, 5); ("alpha", FSci, 10); ("inner_crit", FSci, 11); ("prim_err", FSci, 10);
   ("dual_err", FSci, 10); ("preg", FSci, 10); ("cost", FSci, 10); ("dphi0", FSci, 11);
   ("merit", FSci, 10); ("ΔM", FSci, 11); ("aliter", FInt, 7); ("mu", FDbl, 7)].
Definition column (k : string * format * nat) : op := AddColumn (fst (fst k)) (snd k) (snd (fst k)).

(** solver-proxddp.hxx 92-95, in the constructor *)
Definition prox_ctor : list op := List.map column basic_keys.
(** the values logged in an iteration, in the order of 677-688 *)
Record vals := Vals {
  v_iter : nat; v_alpha : V; v_crit : V; v_prim : V; v_dual : V; v_preg : V; v_dphi0 : V; v_cost : V;
  v_merit : V; v_dM : V; v_aliter : nat; v_mu : V }.
(** solver-proxddp.hxx 675-696; [logged] is false when the iteration ends with the return
    at 692 or with an exception of a callback *)
Definition prox_iter (it : bool * vals * bool) : list op :=
  let '(head, v, logged) := it in
  (if head then [Headline] else []) ++
  [AddEntry "iter" (VInt (v_iter v)); AddEntry "alpha" (VReal (v_alpha v));
   AddEntry "inner_crit" (VReal (v_crit v)); AddEntry "prim_err" (VReal (v_prim v));
   AddEntry "dual_err" (VReal (v_dual v)); AddEntry "preg" (VReal (v_preg v));
   AddEntry "dphi0" (VReal (v_dphi0 v)); AddEntry "cost" (VReal (v_cost v));
   AddEntry "merit" (VReal (v_merit v)); AddEntry "ΔM" (VReal (v_dM v));
   AddEntry "aliter" (VInt (v_aliter v)); AddEntry "mu" (VReal (v_mu v))] ++
  (if logged then [Log] else []).
(** solver-proxddp.hxx 457-458, the iterations, and 529, which an exception skips *)
Record prox_run := Run { p_verbose : bool; p_iters : list (bool * vals * bool); p_end : option bool }.
Definition prox_ops (r : prox_run) : list op :=
  [Active (p_verbose r); Headline] ++ flat_map prox_iter (p_iters r)
  ++ match p_end r with Some c => [Finish c] | None => [] end.

(** solver-fddp.hxx 301-310, in run *)
Definition fddp_start (verbose : bool) : list op :=
  Active verbose ::
  [AddColumn "iter" 5 FInt; AddColumn "alpha" 10 FSci; AddColumn "prim_err" 10 FSci; AddColumn "dual_err" 10 FSci;
   AddColumn "preg" 10 FSci; AddColumn "cost" 10 FSci; AddColumn "dphi0" 11 FSci; AddColumn "ΔM" 11 FSci;
   Headline].
(** solver-fddp.hxx 364-371 *)
Definition fddp_entries (v : vals) : list op :=
  [AddEntry "iter" (VInt (v_iter v)); AddEntry "alpha" (VReal (v_alpha v)); AddEntry "prim_err" (VReal (v_prim v));
   AddEntry "dual_err" (VReal (v_dual v)); AddEntry "preg" (VReal (v_preg v)); AddEntry "dphi0" (VReal (v_dphi0 v));
   AddEntry "merit" (VReal (v_merit v)); AddEntry "ΔM" (VReal (v_dM v))].
(** 331-397: iterations which end at 392; then a break before the entries (346), a break
    after them (376, 386), the end of the loop, or an exception before or after the entries *)
Inductive fddp_exit := Before | After (v : vals) (conv : bool) | Exhausted | Thrown (entries : option vals).
Record fddp_run := FRun { f_verbose : bool; f_iters : list vals; f_exit : fddp_exit }.
Definition fddp_end (e : fddp_exit) : list op :=
  match e with
  | Before => [Log; Finish true]
  | After v c => fddp_entries v ++ [Log; Finish c]
  | Exhausted => [Finish false]
  | Thrown None => []
  | Thrown (Some v) => fddp_entries v
  end.
Definition fddp_ops (r : fddp_run) : list op :=
  fddp_start (f_verbose r) ++ flat_map (fun v => fddp_entries v ++ [Log]) (f_iters r) ++ fddp_end (f_exit r).
End Logger.
Arguments Ok {A}. Arguments Throws {A}. Arguments Ub {A}.
Arguments VReal {V}. Arguments VInt {V}. Arguments Blank {V}. Arguments Cell {V}.
Arguments Head {V}. Arguments Row {V}. Arguments End {V}.
Arguments St {V}. Arguments active {V}. Arguments columns {V}. Arguments block {V}. Arguments cap {V}.
Arguments specs {V}. Arguments line {V}. Arguments out {V}.
Arguments AddColumn {V}. Arguments AddEntry {V}. Arguments Headline {V}. Arguments Log {V}.
Arguments Finish {V}. Arguments Active {V}.
Arguments Vals {V}. Arguments v_iter {V}. Arguments v_alpha {V}. Arguments v_crit {V}. Arguments v_prim {V}.
Arguments v_dual {V}. Arguments v_preg {V}. Arguments v_dphi0 {V}. Arguments v_cost {V}. Arguments v_merit {V}.
Arguments v_dM {V}. Arguments v_aliter {V}. Arguments v_mu {V}.
Arguments Run {V}. Arguments p_verbose {V}. Arguments p_iters {V}. Arguments p_end {V}.
Arguments FRun {V}. Arguments f_verbose {V}. Arguments f_iters {V}. Arguments f_exit {V}.
Arguments Before {V}. Arguments After {V}. Arguments Exhausted {V}. Arguments Thrown {V}.
Arguments fresh {V}. Arguments exec {V}. Arguments step {V}. Arguments prox_ctor {V}. Arguments prox_ops {V}.
Arguments fddp_ops {V}. Arguments fddp_start {V}. Arguments fddp_entries {V}. Arguments fddp_end {V}.
Arguments column {V}. Arguments prox_iter {V}. Arguments render {V}.
Arguments add_column {V}. Arguments add_entry {V}. Arguments headline {V}. Arguments log {V}.
