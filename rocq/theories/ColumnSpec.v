(** Specification side of C84: what linear combinations of columns stand for. *)
From Verif Require Export Word ExprModel ExprSpec ColumnModel.
From stdpp Require Export list.
From Coq Require Export ZArith Lia Ring_theory.
Open Scope Z_scope.

(** A commutative ring in which the integers are the integers. *)
Record ring_cells {R} (F : cells R) : Prop := {
  rc_ring : ring_theory (r_0 F) (r_1 F) (r_add F) (r_mul F) (fun a b => r_add F a (r_neg F b)) (r_neg F) eq;
  rc_0 : r_int F 0 = r_0 F;
  rc_1 : r_int F 1 = r_1 F;
  rc_add : forall a b, r_int F (a + b) = r_add F (r_int F a) (r_int F b);
  rc_mul : forall a b, r_int F (a * b) = r_mul F (r_int F a) (r_int F b);
  rc_neg : forall a, r_int F (- a) = r_neg F (r_int F a) }.

Section Values.
  Context {R : Type} (F : cells R).
  Notation "a + b" := (r_add F a b). Notation "a * b" := (r_mul F a b). Notation "- a" := (r_neg F a). Notation "a - b" := (r_add F a (r_neg F b)).
  (** a value on a pair of rows *)
  Notation on_rows := (list R -> list R -> R).
  Fixpoint total (l : list R) : R := match l with [] => r_0 F | x :: l => x + total l end.
  Fixpoint power (b : R) (k : nat) : R := match k with O => r_1 F | S k => b * power b k end.
  (** x0 + x1 b + x2 b^2 + ... *)
  Definition powers_total (b : R) (l : list R) : R := total (map (fun '(k, x) => x * power b k) (combine (seq 0 (length l)) l)).
  (** 0 x0 + 1 x1 + 2 x2 + ... *)
  Definition ascending_total (l : list R) : R := total (map (fun '(k, x) => x * r_int F (Z.of_nat k)) (combine (seq 0 (length l)) l)).

  Definition d_at (ds : list on_rows) (i : nat) : on_rows := nth i ds (fun _ _ => r_0 F).
  (** The value of a call on a local row [lv] and the next row [nv], given the values of the earlier calls. *)
  Definition t_value (c : tcall) (ds : list on_rows) (lv nv : list R) : R :=
    match c with
    | TCol i => nth i lv (r_0 F)
    | TConstant k => r_int F k
    | TFlip i => d_at ds i nv lv
    | TDiff i => d_at ds i nv lv - d_at ds i lv nv
    | TNeg i => - d_at ds i lv nv
    | TNot i => r_1 F - d_at ds i lv nv
    | TAdd i j => d_at ds i lv nv + d_at ds j lv nv
    | TSub i j => d_at ds i lv nv - d_at ds j lv nv
    | TAddInt i k => d_at ds i lv nv + r_int F k
    | TSubInt i k => d_at ds i lv nv - r_int F k
    | TIntSub k i => r_int F k - d_at ds i lv nv
    | TMulInt i k => d_at ds i lv nv * r_int F k
    | TSum is => total (map (fun i => d_at ds i lv nv) is)
    | TReduce is alpha => powers_total (r_int F alpha) (map (fun i => d_at ds i lv nv) is)
    | TAscending is => ascending_total (map (fun i => d_at ds i lv nv) is)
    end.
  Fixpoint t_denote (p : list tcall) (ds : list on_rows) : list on_rows :=
    match p with [] => ds | c :: p => t_denote p (ds ++ [t_value c ds]) end.

  (** Operations on sparse columns whose coefficients stand for the cells [h] says *)
  Definition s_value {T} (h : T -> R) (c : scall) (ds : list on_rows) (lv nv : list R) : R :=
    match c with
    | SNeg i => - d_at ds i lv nv
    | SAdd i j => d_at ds i lv nv + d_at ds j lv nv
    | SSub i j => d_at ds i lv nv - d_at ds j lv nv
    | SAddConst i k => d_at ds i lv nv + h k
    | SMul i k => d_at ds i lv nv * h k
    | SSum is => total (map (fun i => d_at ds i lv nv) is)
    end.
  Fixpoint s_denote {T} (h : T -> R) (p : list (scall (T:=T))) (ds : list on_rows) : list on_rows :=
    match p with [] => ds | c :: p => s_denote h p (ds ++ [s_value h c ds]) end.
  (** A sparse column: the sum of its terms and its constant *)
  Definition terms_value {T} (h : T -> R) (l : list (nat * T)) (row : list R) : R := total (map (fun '(i, c) => nth i row (r_0 F) * h c) l).
  Definition column_value {T} (h : T -> R) (c : sparse T) (lv nv : list R) : R :=
    terms_value h (s_lv c) lv + terms_value h (s_nv c) nv + h (s_const c).
End Values.

(** The columns a sparse column mentions exist. *)
Definition within {T} (n : nat) (c : sparse T) : Prop := Forall (fun x => (fst x < n)%nat) (s_lv c) /\ Forall (fun x => (fst x < n)%nat) (s_nv c).
(** Row [r] of a table in column-major form *)
Definition row_of {R} (F : cells R) (table : list (list R)) (r : nat) : list R := map (fun col => nth r col (r_0 F)) table.
(** A table of [n] columns and [h] rows *)
Definition is_table {R} (n h : nat) (table : list (list R)) : Prop := length table = n /\ Forall (fun col => length col = h) table.

(** A bound on the coefficients of a program's results, computed without a column: as if every operation added up. *)
Definition b_at (bs : list Z) (i : nat) : Z := nth i bs 0.
Fixpoint bound_reduce (l : list Z) (a : Z) : Z := match l with [] => 0 | x :: l => bound_reduce l a * a + x end.
Fixpoint bound_ascending (k : Z) (l : list Z) : Z := match l with [] => 0 | x :: l => x * k + bound_ascending (k + 1) l end.
Definition t_bound (c : tcall) (bs : list Z) : Z :=
  match c with
  | TCol _ => 1
  | TConstant k => Z.abs k
  | TFlip i | TNeg i => b_at bs i
  | TDiff i => 2 * b_at bs i
  | TNot i => b_at bs i + 1
  | TAdd i j | TSub i j => b_at bs i + b_at bs j
  | TAddInt i k | TSubInt i k | TIntSub k i => b_at bs i + Z.abs k
  | TMulInt i k => b_at bs i * Z.abs k
  | TSum is => fold_right Z.add 0 (map (b_at bs) is)
  | TReduce is alpha => bound_reduce (map (b_at bs) is) (Z.abs alpha)
  | TAscending is => bound_ascending 0 (map (b_at bs) is)
  end.
Fixpoint t_bounds (p : list tcall) (bs : list Z) : list Z :=
  match p with [] => bs | c :: p => t_bounds p (bs ++ [t_bound c bs]) end.

(** The cells of a circuit's assignment *)
Definition cell_values {R} (F : cells R) : values R := {|
  v_bin op a b := match op with EAdd => r_add F a b | ESub => r_add F a (r_neg F b) | EMul => r_mul F a b end;
  v_neg := r_neg F; v_int := r_int F |}.
