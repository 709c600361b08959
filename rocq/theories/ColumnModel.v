(** Linear combinations of the columns of a table: the typed ones lookups are written with
    (circuits/src/linear_combination_typed.rs, circuits/src/columns_view.rs), the sparse ones they are translated to
    (circuits/src/linear_combination.rs), and their evaluation on rows, on traces and in circuits.
    A row is the list of its cells, a table in column-major form the list of its columns.  The cells are elements of any
    commutative ring with the integers in it (the base field, the extension field, packed fields); i64 is an integer with
    a range.  plonky2's CircuitBuilder is a list of gates, as in ExprModel. *)
From Verif Require Import Word ExprModel.
From stdpp Require Import gmap list.
Open Scope Z_scope.

(** The operations of a type of cells; [r_int] is from_noncanonical_i64. *)
Record cells (R : Type) := { r_0 : R; r_1 : R; r_add : R -> R -> R; r_mul : R -> R -> R; r_neg : R -> R; r_int : Z -> R }.
Arguments r_0 {R}. Arguments r_1 {R}. Arguments r_add {R}. Arguments r_mul {R}. Arguments r_neg {R}. Arguments r_int {R}.

Definition get {A} (l : list A) (i : nat) : res A := match l !! i with Some x => Ok x | None => Panic PIndex end.
Fixpoint map_res {A B} (f : A -> res B) (l : list A) : res (list B) :=
  match l with [] => Ok [] | x :: l => y <-- f x ;; ys <-- map_res f l ;; Ok (y :: ys) end.

(** ** Typed columns *)
(** circuits/src/linear_combination_typed.rs:12-22 ColumnWithTypedInput; the views of columns_view.rs are arrays of [n] cells *)
Record typed := mkTyped { t_lv : list Z; t_nv : list Z; t_const : Z }.
(** checked_add, checked_sub, checked_mul, checked_neg followed by expect *)
Definition checked (k : Z) : res Z := if (- 2 ^ 63 <=? k) && (k <? 2 ^ 63) then Ok k else Panic PAssert.
(** circuits/src/columns_view.rs:111-121 Zip::zip_with: the views have the same length by their type *)
Fixpoint zip_res (f : Z -> Z -> res Z) (a b : list Z) : res (list Z) :=
  match a, b with
  | [], [] => Ok []
  | x :: a, y :: b => z <-- f x y ;; zs <-- zip_res f a b ;; Ok (z :: zs)
  | _, _ => Panic PAssert
  end.
(** circuits/src/columns_view.rs:183-219 the arithmetic of views *)
Definition view_neg (a : list Z) : res (list Z) := map_res (fun x => checked (- x)) a.
Definition view_add (a b : list Z) : res (list Z) := zip_res (fun x y => checked (x + y)) a b.
Definition view_sub (a b : list Z) : res (list Z) := zip_res (fun x y => checked (x - y)) a b.
Definition view_mul (a : list Z) (k : Z) : res (list Z) := map_res (fun x => checked (x * k)) a.
(** circuits/src/columns_view.rs:229-231 Default of a view *)
Definition view_zero (n : nat) : list Z := repeat 0 n.

Section Typed.
  Context (n : nat).
  (** circuits/src/columns_view.rs:236-265 make_col_map: the column [i] of the local row *)
  Definition col_map (i : nat) : typed := mkTyped (<[i := 1]> (view_zero n)) (view_zero n) 0.
  (** the derived Default, circuits/src/linear_combination_typed.rs:12 *)
  Definition typed_zero : typed := mkTyped (view_zero n) (view_zero n) 0.
  (** circuits/src/linear_combination_typed.rs:26-32 flip *)
  Definition t_flip (c : typed) : typed := mkTyped (t_nv c) (t_lv c) (t_const c).
  (** circuits/src/linear_combination_typed.rs:46-58 Neg *)
  Definition t_neg (c : typed) : res typed :=
    l <-- view_neg (t_lv c) ;; v <-- view_neg (t_nv c) ;; k <-- checked (- t_const c) ;; Ok (mkTyped l v k).
  (** circuits/src/linear_combination_typed.rs:70-85 Add *)
  Definition t_add (a b : typed) : res typed :=
    l <-- view_add (t_lv a) (t_lv b) ;; v <-- view_add (t_nv a) (t_nv b) ;; k <-- checked (t_const a + t_const b) ;; Ok (mkTyped l v k).
  (** circuits/src/linear_combination_typed.rs:87-103 Add<i64>, and Add of a column to an i64 *)
  Definition t_add_int (a : typed) (k : Z) : res typed := c <-- checked (t_const a + k) ;; Ok (mkTyped (t_lv a) (t_nv a) c).
  (** circuits/src/linear_combination_typed.rs:105-120 Sub *)
  Definition t_sub (a b : typed) : res typed :=
    l <-- view_sub (t_lv a) (t_lv b) ;; v <-- view_sub (t_nv a) (t_nv b) ;; k <-- checked (t_const a - t_const b) ;; Ok (mkTyped l v k).
  (** circuits/src/linear_combination_typed.rs:122-135 Sub<i64> *)
  Definition t_sub_int (a : typed) (k : Z) : res typed := c <-- checked (t_const a - k) ;; Ok (mkTyped (t_lv a) (t_nv a) c).
  (** circuits/src/linear_combination_typed.rs:137-145 an i64 minus a column *)
  Definition int_t_sub (k : Z) (a : typed) : res typed := m <-- t_neg a ;; t_add_int m k.
  (** circuits/src/linear_combination_typed.rs:60-68 Not *)
  Definition t_not (a : typed) : res typed := int_t_sub 1 a.
  (** circuits/src/linear_combination_typed.rs:147-171 Mul<i64>, and Mul of an i64 with a column *)
  Definition t_mul_int (a : typed) (k : Z) : res typed :=
    l <-- view_mul (t_lv a) k ;; v <-- view_mul (t_nv a) k ;; c <-- checked (t_const a * k) ;; Ok (mkTyped l v c).
  (** circuits/src/linear_combination_typed.rs:39-43 diff *)
  Definition t_diff (a : typed) : res typed := t_sub (t_flip a) a.
  (** circuits/src/linear_combination_typed.rs:173-190 Sum *)
  Fixpoint t_sum_from (acc : typed) (l : list typed) : res typed :=
    match l with [] => Ok acc | c :: l => a <-- t_add acc c ;; t_sum_from a l end.
  Definition t_sum (l : list typed) : res typed := t_sum_from typed_zero l.
  (** circuits/src/linear_combination_typed.rs:192-203 constant *)
  Definition t_constant (k : Z) : typed := mkTyped (view_zero n) (view_zero n) k.
  (** circuits/src/linear_combination_typed.rs:215-224 reduce_with_powers: the terms from the last to the first *)
  Fixpoint t_reduce (l : list typed) (alpha : Z) : res typed :=
    match l with [] => Ok typed_zero | c :: l => a <-- t_reduce l alpha ;; m <-- t_mul_int a alpha ;; t_add m c end.
  (** circuits/src/linear_combination_typed.rs:226-231 ascending_sum *)
  Fixpoint t_scaled (i : Z) (l : list typed) : res (list typed) :=
    match l with [] => Ok [] | c :: l => m <-- t_mul_int c i ;; ms <-- t_scaled (i + 1) l ;; Ok (m :: ms) end.
  Definition t_ascending (l : list typed) : res typed := ms <-- t_scaled 0 l ;; t_sum ms.

  (** A program over typed columns: calls that refer to the results of earlier ones. *)
  Inductive tcall :=
  | TCol (i : nat) | TConstant (k : Z) | TFlip (i : nat) | TDiff (i : nat) | TNeg (i : nat) | TNot (i : nat)
  | TAdd (i j : nat) | TSub (i j : nat) | TAddInt (i : nat) (k : Z) | TSubInt (i : nat) (k : Z) | TIntSub (k : Z) (i : nat)
  | TMulInt (i : nat) (k : Z) | TSum (is : list nat) | TReduce (is : list nat) (alpha : Z) | TAscending (is : list nat).
  Definition t_at (cs : list typed) (i : nat) : typed := nth i cs typed_zero.
  Definition t_step (cs : list typed) (c : tcall) : res typed :=
    match c with
    | TCol i => Ok (col_map i) | TConstant k => Ok (t_constant k) | TFlip i => Ok (t_flip (t_at cs i)) | TDiff i => t_diff (t_at cs i)
    | TNeg i => t_neg (t_at cs i) | TNot i => t_not (t_at cs i)
    | TAdd i j => t_add (t_at cs i) (t_at cs j) | TSub i j => t_sub (t_at cs i) (t_at cs j)
    | TAddInt i k => t_add_int (t_at cs i) k | TSubInt i k => t_sub_int (t_at cs i) k | TIntSub k i => int_t_sub k (t_at cs i)
    | TMulInt i k => t_mul_int (t_at cs i) k | TSum is => t_sum (map (t_at cs) is)
    | TReduce is alpha => t_reduce (map (t_at cs) is) alpha | TAscending is => t_ascending (map (t_at cs) is)
    end.
  Fixpoint t_run (p : list tcall) (cs : list typed) : res (list typed) :=
    match p with [] => Ok cs | c :: p => x <-- t_step cs c ;; t_run p (cs ++ [x]) end.
End Typed.

(** ** Sparse columns *)
(** circuits/src/linear_combination.rs:15-24 ColumnSparse *)
Record sparse (T : Type) := mkSparse { s_lv : list (nat * T); s_nv : list (nat * T); s_const : T }.
Arguments mkSparse {T}. Arguments s_lv {T}. Arguments s_nv {T}. Arguments s_const {T}.
(** The arithmetic of the coefficients: i64, or cells *)
Record num (T : Type) := { n_0 : T; n_add : T -> T -> res T; n_mul : T -> T -> res T; n_neg : T -> res T }.
Arguments n_0 {T}. Arguments n_add {T}. Arguments n_mul {T}. Arguments n_neg {T}.
(** i64 with overflow checks *)
Definition num_i64 : num Z := {| n_0 := 0; n_add a b := i64 (a + b); n_mul a b := i64 (a * b); n_neg a := i64 (- a) |}.
Definition num_cells {R} (F : cells R) : num R := {| n_0 := r_0 F; n_add a b := Ok (r_add F a b); n_mul a b := Ok (r_mul F a b); n_neg a := Ok (r_neg F a) |}.

Section Sparse.
  Context {T : Type} (N : num T).
  (** circuits/src/linear_combination.rs:26-43 map *)
  Definition map_coefs {A B} (f : A -> res B) (l : list (nat * A)) : res (list (nat * B)) := map_res (fun '(i, c) => d <-- f c ;; Ok (i, d)) l.
  Definition s_map {A B} (f : A -> res B) (c : sparse A) : res (sparse B) :=
    l <-- map_coefs f (s_lv c) ;; v <-- map_coefs f (s_nv c) ;; k <-- f (s_const c) ;; Ok (mkSparse l v k).
  (** sort_by_key (a stable sort) *)
  Fixpoint insert_key (x : nat * T) (l : list (nat * T)) : list (nat * T) :=
    match l with [] => [x] | y :: l' => if (fst x <=? fst y)%nat then x :: l else y :: insert_key x l' end.
  Definition sort_by_key (l : list (nat * T)) : list (nat * T) := fold_right insert_key [] l.
  (** itertools' merge_join_by on the keys, followed by reduce (circuits/src/linear_combination.rs:53-62): an item of one side
      only is kept, two items of the same key are combined *)
  Fixpoint merge_join (f : T -> T -> res T) (l r : list (nat * T)) {struct l} : res (list (nat * T)) :=
    (fix go (r : list (nat * T)) : res (list (nat * T)) :=
      match l, r with
      | [], _ => Ok r
      | _, [] => Ok l
      | (i, a) :: l', (j, b) :: r' =>
          match (i ?= j)%nat with
          | Lt => rest <-- merge_join f l' r ;; Ok ((i, a) :: rest)
          | Gt => rest <-- go r' ;; Ok ((j, b) :: rest)
          | Eq => c <-- f a b ;; rest <-- merge_join f l' r' ;; Ok ((i, c) :: rest)
          end
      end) r.
  (** circuits/src/linear_combination.rs:45-70 zip_with *)
  Definition s_zip (f : T -> T -> res T) (a b : sparse T) : res (sparse T) :=
    l <-- merge_join f (sort_by_key (s_lv a)) (sort_by_key (s_lv b)) ;;
    v <-- merge_join f (sort_by_key (s_nv a)) (sort_by_key (s_nv b)) ;;
    k <-- f (s_const a) (s_const b) ;; Ok (mkSparse l v k).
  (** circuits/src/linear_combination.rs:92-96 Neg *)
  Definition s_neg (c : sparse T) : res (sparse T) := s_map (n_neg N) c.
  (** circuits/src/linear_combination.rs:98-120 Add (by value and by reference) *)
  Definition s_add (a b : sparse T) : res (sparse T) := s_zip (n_add N) a b.
  (** circuits/src/linear_combination.rs:122-137 Add of a constant *)
  Definition s_add_const (a : sparse T) (k : T) : res (sparse T) := c <-- n_add N (s_const a) k ;; Ok (mkSparse (s_lv a) (s_nv a) c).
  (** circuits/src/linear_combination.rs:139-144 Sub *)
  Definition s_sub (a b : sparse T) : res (sparse T) := m <-- s_neg b ;; s_add a m.
  (** circuits/src/linear_combination.rs:146-156 Mul *)
  Definition s_mul (a : sparse T) (k : T) : res (sparse T) := s_map (fun c => n_mul N c k) a.
  (** the derived Default *)
  Definition s_zero : sparse T := mkSparse [] [] (n_0 N).
  (** circuits/src/linear_combination.rs:158-163 Sum: reduce, and the default if there is nothing *)
  Fixpoint s_sum_from (acc : sparse T) (l : list (sparse T)) : res (sparse T) :=
    match l with [] => Ok acc | c :: l => a <-- s_add acc c ;; s_sum_from a l end.
  Definition s_sum (l : list (sparse T)) : res (sparse T) := match l with [] => Ok s_zero | c :: l => s_sum_from c l end.
  (** circuits/src/cross_table_lookup.rs:191-201 compose_ctl_with_challenge: the columns from the last to the first, then gamma *)
  Fixpoint s_compose_beta (cols : list (sparse T)) (beta : T) : res (sparse T) :=
    match cols with [] => Ok s_zero | c :: cols => a <-- s_compose_beta cols beta ;; m <-- s_mul a beta ;; s_add m c end.
  Definition compose_ctl_with_challenge (cols : list (sparse T)) (beta gamma : T) : res (sparse T) :=
    a <-- s_compose_beta cols beta ;; s_add_const a gamma.

  (** A program over sparse columns, starting from given ones *)
  Inductive scall := SNeg (i : nat) | SAdd (i j : nat) | SSub (i j : nat) | SAddConst (i : nat) (k : T) | SMul (i : nat) (k : T) | SSum (is : list nat).
  Definition s_at (cs : list (sparse T)) (i : nat) : sparse T := nth i cs s_zero.
  Definition s_step (cs : list (sparse T)) (c : scall) : res (sparse T) :=
    match c with
    | SNeg i => s_neg (s_at cs i) | SAdd i j => s_add (s_at cs i) (s_at cs j) | SSub i j => s_sub (s_at cs i) (s_at cs j)
    | SAddConst i k => s_add_const (s_at cs i) k | SMul i k => s_mul (s_at cs i) k | SSum is => s_sum (map (s_at cs) is)
    end.
  Fixpoint s_run (p : list scall) (cs : list (sparse T)) : res (list (sparse T)) :=
    match p with [] => Ok cs | c :: p => x <-- s_step cs c ;; s_run p (cs ++ [x]) end.
End Sparse.
Arguments SNeg {T}. Arguments SAdd {T}. Arguments SSub {T}. Arguments SAddConst {T}. Arguments SMul {T}. Arguments SSum {T}.

(** circuits/src/linear_combination.rs:75-90 From<ColumnWithTypedInput>: the coefficients that are not zero, with their places *)
Fixpoint to_sparse (i : nat) (v : list Z) : list (nat * Z) :=
  match v with [] => [] | x :: v => if x =? 0 then to_sparse (S i) v else (i, x) :: to_sparse (S i) v end.
Definition from_typed (c : typed) : sparse Z := mkSparse (to_sparse 0 (t_lv c)) (to_sparse 0 (t_nv c)) (t_const c).

(** ** Evaluation *)
Section Eval.
  Context {R : Type} (F : cells R).
  (** Iterator::sum *)
  Definition r_sum (l : list R) : R := fold_left (r_add F) l (r_0 F).
  (** circuits/src/linear_combination.rs:165-170 to_field *)
  Definition to_field (c : sparse Z) : res (sparse R) := s_map (fun k => Ok (r_int F k)) c.
  (** circuits/src/linear_combination.rs:172-187 eval_table; the values of a polynomial are the cells of its column *)
  Definition eval_table (c : sparse R) (table : list (list R)) (row : nat) : res R :=
    ls <-- map_res (fun '(i, f) => col <-- get table i ;; x <-- get col row ;; Ok (r_mul F x f)) (s_lv c) ;;
    vs <-- map_res (fun '(i, f) => col <-- get table i ;; x <-- get col ((row + 1) mod length col)%nat ;; Ok (r_mul F x f)) (s_nv c) ;;
    Ok (r_add F (r_add F (r_sum ls) (r_sum vs)) (s_const c)).
  (** circuits/src/linear_combination.rs:191-208 eval and 210-226 eval_row *)
  Definition eval_row (c : sparse Z) (lv nv : list R) : res R :=
    ls <-- map_res (fun '(i, f) => x <-- get lv i ;; Ok (r_mul F x (r_int F f))) (s_lv c) ;;
    vs <-- map_res (fun '(i, f) => x <-- get nv i ;; Ok (r_mul F x (r_int F f))) (s_nv c) ;;
    Ok (r_add F (r_add F (r_sum ls) (r_sum vs)) (r_int F (s_const c))).
End Eval.

(** circuits/src/linear_combination.rs:228-252 eval_circuit: first a constant for every coefficient, then one for the constant,
    then inner_product_extension(1, constant, pairs), which multiplies and adds the pairs in their order *)
Fixpoint alloc_pairs (l : list (nat * Z)) (row : list nat) (k : list gate) : res (list (nat * nat) * list gate) :=
  match l with
  | [] => Ok ([], k)
  | (i, f) :: l => v <-- get row i ;; let '(t, k1) := gate_new (GConst f) k in
      r <-- alloc_pairs l row k1 ;; Ok ((v, t) :: fst r, snd r)
  end.
Fixpoint inner_product (pairs : list (nat * nat)) (acc : nat) (k : list gate) : nat * list gate :=
  match pairs with [] => (acc, k) | (v, t) :: pairs => let '(a, k1) := gate_new (GMulAdd v t acc) k in inner_product pairs a k1 end.
Definition eval_circuit (c : sparse Z) (lv nv : list nat) (k : list gate) : res (nat * list gate) :=
  p <-- alloc_pairs (s_lv c) lv k ;;
  q <-- alloc_pairs (s_nv c) nv (snd p) ;;
  let '(a, k1) := gate_new (GConst (s_const c)) (snd q) in
  Ok (inner_product (fst p ++ fst q) a k1).

(** ** Tables of a lookup *)
(** circuits/src/stark/mozak_stark.rs:516-558 TableWithTypedOutput (its kind aside) and its Neg *)
Record table_spec := mkTableSpec { ts_columns : list (sparse Z); ts_filter : sparse Z }.
Definition table_neg (t : table_spec) : res table_spec := f <-- s_neg num_i64 (ts_filter t) ;; Ok (mkTableSpec (ts_columns t) f).
(** circuits/src/cross_table_lookup.rs:217-233: what the prover computes of row [i]: the compressed tuple and the multiplicity *)
Definition prover_row {R} (F : cells R) (beta gamma : R) (t : table_spec) (trace : list (list R)) (i : nat) : res (R * R) :=
  flt <-- to_field F (ts_filter t) ;; cols <-- map_res (to_field F) (ts_columns t) ;;
  prepped <-- compose_ctl_with_challenge (num_cells F) cols beta gamma ;;
  m <-- eval_table F flt trace i ;; d <-- eval_table F prepped trace i ;; Ok (d, m).
(** circuits/src/cross_table_lookup.rs:361-370 and circuits/src/stark/permutation.rs:67-79: what the verifier computes from the
    openings of the local and the next row; reduce_with_powers is plonky2's *)
Definition r_reduce {R} (F : cells R) (l : list R) (beta : R) : R := fold_right (fun x acc => r_add F (r_mul F acc beta) x) (r_0 F) l.
Definition verifier_row {R} (F : cells R) (beta gamma : R) (t : table_spec) (lv nv : list R) : res (R * R) :=
  evals <-- map_res (fun c => eval_row F c lv nv) (ts_columns t) ;;
  m <-- eval_row F (ts_filter t) lv nv ;; Ok (r_add F (r_reduce F evals beta) gamma, m).
