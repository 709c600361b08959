(** Specification side of C83: what the expressions of a program over the builder stand for. *)
From Verif Require Export Word ExprModel.
From stdpp Require Export gmap list.
From Coq Require Export ZArith Lia.
Open Scope Z_scope.

(** The constants of a field (or of any type of values) compute as the integers do. *)
Record integers {D} (F : values D) : Prop := {
  int_add : forall a b, v_int F (a + b) = v_bin F EAdd (v_int F a) (v_int F b);
  int_sub : forall a b, v_int F (a - b) = v_bin F ESub (v_int F a) (v_int F b);
  int_mul : forall a b, v_int F (a * b) = v_bin F EMul (v_int F a) (v_int F b);
  int_neg : forall a, v_int F (- a) = v_neg F (v_int F a);
  neg_mul : forall x, v_bin F EMul (v_int F (-1)) x = v_neg F x }.

(** The value of a call, given the values of the earlier ones: the operation itself. [lit] says what a literal stands for. *)
Definition at_vals {D} (F : values D) (ds : list D) (i : nat) : D := nth i ds (v_int F 0).
Definition api_value {V D} (F : values D) (lit : V -> D) (c : api V) (ds : list D) : D :=
  match c with
  | ALit v => lit v
  | AConstant k | AInt k => v_int F k
  | ABin op i j => v_bin F op (at_vals F ds i) (at_vals F ds j)
  | ANeg i => v_neg F (at_vals F ds i)
  | AIsBinary i => v_bin F EMul (at_vals F ds i) (v_bin F ESub (v_int F 1) (at_vals F ds i))
  | AReduce is base => fold_right (fun x acc => v_bin F EAdd (v_bin F EMul acc (v_int F base)) x) (v_int F 0) (map (at_vals F ds) is)
  | ASum is => fold_left (v_bin F EAdd) (map (at_vals F ds) is) (v_int F 0)
  end.
Fixpoint denote {V D} (F : values D) (lit : V -> D) (cs : list (api V)) (ds : list D) : list D :=
  match cs with [] => ds | c :: cs => denote F lit cs (ds ++ [api_value F lit c ds]) end.

(** The field *)
Definition Pr : Z := 2 ^ 64 - 2 ^ 32 + 1.
Definition goldilocks : values Z := {|
  v_bin op a b := match op with EAdd => (a + b) mod Pr | ESub => (a - b) mod Pr | EMul => (a * b) mod Pr end;
  v_neg a := (- a) mod Pr; v_int k := k mod Pr |}.

(** An assignment [w] of values to targets satisfies a circuit. *)
Definition gate_ok {D} (F : values D) (w : nat -> D) (i : nat) (g : gate) : Prop :=
  match g with
  | GInput => True
  | GBin op a b => w i = v_bin F op (w a) (w b)
  | GScale k a => w i = v_bin F EMul (v_int F k) (w a)
  | GConst k => w i = v_int F k
  | GMulAdd a b c => w i = v_bin F EAdd (v_bin F EMul (w a) (w b)) (w c)
  end.
Definition satisfies {D} (F : values D) (w : nat -> D) (k : circuit) : Prop := forall i g, k !! i = Some g -> gate_ok F w i g.

Definition inputs (g : gate) : list nat := match g with GInput => [] | GBin _ a b => [a; b] | GScale _ a => [a] | GConst _ => [] | GMulAdd a b c => [a; b; c] end.
(** Every gate of the circuit refers to gates of the circuit. *)
Definition closed_circuit (k : circuit) : Prop := Forall (fun g => Forall (fun t => (t < length k)%nat) (inputs g)) k.

(** The literals of a program *)
Definition literals {V} (cs : list (api V)) : list V := flat_map (fun c => match c with ALit v => [v] | _ => [] end) cs.
(** The same program with other literals *)
Definition map_api {V W} (f : V -> W) (c : api V) : api W :=
  match c with
  | ALit v => ALit (f v) | AConstant k => AConstant k | AInt k => AInt k | ABin op i j => ABin op i j | ANeg i => ANeg i
  | AIsBinary i => AIsBinary i | AReduce is base => AReduce is base | ASum is => ASum is
  end.
Definition map_consumer {V W} (f : V -> W) (c : consumer V) : consumer W :=
  mkConsumer (map f (alphas c)) (map f (accs c)) (f (z_last_row c)) (f (lagrange_first c)) (f (lagrange_last c)).
(** The targets of a consumer exist in the circuit. *)
Definition consumer_in (k : circuit) (c : consumer nat) : Prop :=
  Forall (fun t => (t < length k)%nat) (alphas c ++ accs c ++ [z_last_row c; lagrange_first c; lagrange_last c]).

(** The number of operands of the calls of a program *)
Definition operands {V} (c : api V) : Z := match c with AReduce is _ | ASum is => Z.of_nat (length is) | _ => 1 end.

(** What the consumer ends with: for every challenge, the constraints -- each multiplied by the filter of its kind of row --
    combined with powers of the challenge on top of the accumulator. *)
Definition filtered {D} (F : values D) (c : consumer D) (t : ctype) (x : D) : D :=
  match t with
  | FirstRow => v_bin F EMul x (lagrange_first c)
  | Always => x
  | Transition => v_bin F EMul x (z_last_row c)
  | LastRow => v_bin F EMul x (lagrange_last c)
  end.
Definition combined {D} (F : values D) (c : consumer D) (xs : list (ctype * D)) : list D :=
  zip_with (fun alpha acc => fold_left (fun acc '(t, x) => v_bin F EAdd (v_bin F EMul acc alpha) (filtered F c t x)) xs acc) (alphas c) (accs c).
