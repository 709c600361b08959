(** Constraint expressions (expr/src/lib.rs, expr/src/ops.rs) and their evaluation to field elements and to circuits
    (circuits/src/expr.rs).
    The arena of an expression builder is the list of the nodes allocated so far; a reference to a node is its position, and
    nodes are only ever added at the end.  All builders share one arena here: the lifetimes of the code keep a node alive as
    long as any expression refers to it.  An i64 is an integer; leaving its range panics (as in the code with overflow checks). *)
From Verif Require Import Word.
From stdpp Require Import gmap.
Open Scope Z_scope.

(** expr/src/lib.rs:238-250 BinOp, UnaOp (which has one element) *)
Inductive bop := EAdd | ESub | EMul.
(** expr/src/lib.rs:263-279 ExprTree *)
Inductive node (V : Type) :=
| NBin (op : bop) (l r : nat)
| NNeg (e : nat)
| NLit (v : V)
| NConst (k : Z).
Arguments NBin {V}. Arguments NNeg {V}. Arguments NLit {V}. Arguments NConst {V}.
Notation arena V := (list (node V)).
(** expr/src/lib.rs:69-79 Expr *)
Inductive expr := Basic (k : Z) | Compound (p : nat).

(** i64 arithmetic of PureEvaluator::<i64>::default, expr/src/lib.rs:317-343 *)
Definition i64 (k : Z) : res Z := if (- 2 ^ 63 <=? k) && (k <? 2 ^ 63) then Ok k else Panic POverflow.
Definition i64_bin (op : bop) (a b : Z) : res Z := i64 (match op with EAdd => a + b | ESub => a - b | EMul => a * b end).
Definition i64_neg (a : Z) : res Z := i64 (- a).

Section Build.
  Context {V : Type}.
  (** expr/src/lib.rs:142-144 intern *)
  Definition intern (nd : node V) (h : arena V) : nat * arena V := (length h, h ++ [nd]).
  (** expr/src/lib.rs:146-151 ensure_interned *)
  Definition ensure_interned (e : expr) (h : arena V) : nat * arena V :=
    match e with Compound p => (p, h) | Basic k => intern (NConst k) h end.
  (** expr/src/lib.rs:92-103 Expr::bin_op; the arguments of the call are evaluated from left to right *)
  Definition bin_op (op : bop) (lhs rhs : expr) (h : arena V) : res (expr * arena V) :=
    match lhs, rhs with
    | Basic a, Basic b => k <-- i64_bin op a b ;; Ok (Basic k, h)
    | _, _ =>
        let '(l, h1) := ensure_interned lhs h in
        let '(r, h2) := ensure_interned rhs h1 in
        let '(p, h3) := intern (NBin op l r) h2 in Ok (Compound p, h3)
    end.
  (** expr/src/lib.rs:105-110 Expr::una_op *)
  Definition una_op (e : expr) (h : arena V) : res (expr * arena V) :=
    match e with
    | Basic k => k' <-- i64_neg k ;; Ok (Basic k', h)
    | Compound p => let '(p', h') := intern (NNeg p) h in Ok (Compound p', h')
    end.
  (** expr/src/lib.rs:179-191 lit, constant *)
  Definition lit (v : V) (h : arena V) : expr * arena V := let '(p, h') := intern (NLit v) h in (Compound p, h').
  Definition constant (k : Z) (h : arena V) : expr * arena V := let '(p, h') := intern (NConst k) h in (Compound p, h').
  (** expr/src/lib.rs:114-118 is_binary *)
  Definition is_binary (e : expr) (h : arena V) : res (expr * arena V) :=
    r <-- bin_op ESub (Basic 1) e h ;; bin_op EMul e (fst r) (snd r).
  (** expr/src/lib.rs:120-129 reduce_with_powers: the fold runs over the terms from the last to the first *)
  Fixpoint reduce_with_powers (terms : list expr) (base : Z) (h : arena V) : res (expr * arena V) :=
    match terms with
    | [] => Ok (Basic 0, h)
    | t :: ts => a <-- reduce_with_powers ts base h ;; m <-- bin_op EMul (fst a) (Basic base) (snd a) ;; bin_op EAdd (fst m) t (snd m)
    end.
  (** expr/src/ops.rs:87-98 Sum *)
  Fixpoint sum_from (acc : expr) (terms : list expr) (h : arena V) : res (expr * arena V) :=
    match terms with [] => Ok (acc, h) | t :: ts => a <-- bin_op EAdd acc t h ;; sum_from (fst a) ts (snd a) end.
  Definition sum_exprs (terms : list expr) (h : arena V) : res (expr * arena V) := sum_from (Basic 0) terms h.

  (** A program over the builder: each call makes one more expression, from earlier ones named by position (a position out of
      range names Expr::default, expr/src/lib.rs:85-87). The operators of expr/src/ops.rs on Self, i64 and references, and the
      assigning ones, are all [ABin]/[ANeg] (with [AInt] for an i64 operand). *)
  Inductive api :=
  | ALit (v : V) | AConstant (k : Z) | AInt (k : Z)
  | ABin (op : bop) (i j : nat) | ANeg (i : nat)
  | AIsBinary (i : nat) | AReduce (is : list nat) (base : Z) | ASum (is : list nat).
  Definition at_env (env : list expr) (i : nat) : expr := nth i env (Basic 0).
  Definition call (c : api) (env : list expr) (h : arena V) : res (expr * arena V) :=
    match c with
    | ALit v => Ok (lit v h)
    | AConstant k => Ok (constant k h)
    | AInt k => Ok (Basic k, h)
    | ABin op i j => bin_op op (at_env env i) (at_env env j) h
    | ANeg i => una_op (at_env env i) h
    | AIsBinary i => is_binary (at_env env i) h
    | AReduce is base => reduce_with_powers (map (at_env env) is) base h
    | ASum is => sum_exprs (map (at_env env) is) h
    end.
  Fixpoint build (cs : list api) (env : list expr) (h : arena V) : res (list expr * arena V) :=
    match cs with
    | [] => Ok (env, h)
    | c :: cs => r <-- call c env h ;; build cs (env ++ [fst r]) (snd r)
    end.
End Build.
Arguments api V : clear implicits.

(** expr/src/lib.rs:281-312 Evaluator: an evaluator may change its own state *)
Record evaluator (S V : Type) := { ev_bin : bop -> V -> V -> S -> V * S; ev_neg : V -> S -> V * S; ev_const : Z -> S -> V * S }.
Arguments ev_bin {S V}. Arguments ev_neg {S V}. Arguments ev_const {S V}.

Section Eval.
  Context {S V : Type}.
  (** expr/src/lib.rs:290-304 Evaluator::expr_tree, with the evaluation of references as a parameter (Cached replaces it) *)
  Definition expr_tree (ev : evaluator S V) (compound : nat -> S -> option (V * S)) (nd : node V) (s : S) : option (V * S) :=
    match nd with
    | NBin op l r => '(a, s1) ← compound l s; '(b, s2) ← compound r s1; Some (ev_bin ev op a b s2)
    | NNeg e => '(a, s1) ← compound e s; Some (ev_neg ev a s1)
    | NLit v => Some (v, s)
    | NConst k => Some (ev_const ev k s)
    end.
  (** expr/src/lib.rs:305 compound_expr. The recursion follows references; they lead to earlier nodes, so [n] beyond the
      position suffices. [None]: a reference that was not allocated, or [n] too small. *)
  Fixpoint compound_expr (ev : evaluator S V) (h : arena V) (n p : nat) (s : S) : option (V * S) :=
    match n with O => None | Datatypes.S n => nd ← h !! p; expr_tree ev (compound_expr ev h n) nd s end.
  (** expr/src/lib.rs:306-311 eval *)
  Definition eval (ev : evaluator S V) (h : arena V) (e : expr) (s : S) : option (V * S) :=
    match e with Basic k => Some (ev_const ev k s) | Compound p => compound_expr ev h (length h) p s end.

End Eval.

Section Cached.
  Context {S V : Type}.
  (** expr/src/lib.rs:345-364 Cached: state is the two caches and the state of the evaluator inside *)
  Record cached := mkCached { constant_cache : gmap Z V; value_cache : gmap nat V; inside : S }.
  Definition no_cache (s : S) : cached := mkCached ∅ ∅ s.
  Definition cached_ev (ev : evaluator S V) : evaluator cached V := {|
    ev_bin op a b c := let '(v, s) := ev_bin ev op a b (inside c) in (v, mkCached (constant_cache c) (value_cache c) s);
    ev_neg a c := let '(v, s) := ev_neg ev a (inside c) in (v, mkCached (constant_cache c) (value_cache c) s);
    ev_const k c := match constant_cache c !! k with
      | Some v => (v, c)
      | None => let '(v, s) := ev_const ev k (inside c) in (v, mkCached (<[k := v]> (constant_cache c)) (value_cache c) s)
      end |}.
  (** expr/src/lib.rs:377-400 constant, compound_expr *)
  Fixpoint cached_compound (ev : evaluator S V) (h : arena V) (n p : nat) (c : cached) : option (V * cached) :=
    match n with
    | O => None
    | Datatypes.S n =>
        match value_cache c !! p with
        | Some v => Some (v, c)
        | None => nd ← h !! p; '(v, c') ← expr_tree (cached_ev ev) (cached_compound ev h n) nd c;
                  Some (v, mkCached (constant_cache c') (<[p := v]> (value_cache c')) (inside c'))
        end
    end.
  Definition cached_eval (ev : evaluator S V) (h : arena V) (e : expr) (c : cached) : option (V * cached) :=
    match e with Basic k => Some (ev_const (cached_ev ev) k c) | Compound p => cached_compound ev h (length h) p c end.

  (** expr/src/lib.rs:403-436 Counting *)
  Definition counting (ev : evaluator S V) : evaluator (Z * S) V := {|
    ev_bin op a b c := let '(v, s) := ev_bin ev op a b (snd c) in (v, (fst c + 1, s));
    ev_neg a c := let '(v, s) := ev_neg ev a (snd c) in (v, (fst c + 1, s));
    ev_const k c := let '(v, s) := ev_const ev k (snd c) in (v, (fst c + 1, s)) |}.

  (** a sequence of evaluations with one evaluator *)
  Fixpoint eval_list (f : expr -> S -> option (V * S)) (es : list expr) (s : S) : option (list V * S) :=
    match es with
    | [] => Some ([], s)
    | e :: es => '(v, s1) ← f e s; '(vs, s2) ← eval_list f es s1; Some (v :: vs, s2)
    end.
End Cached.
Arguments cached : clear implicits.

(** The values of expressions: any type with these operations *)
Record values (D : Type) := { v_bin : bop -> D -> D -> D; v_neg : D -> D; v_int : Z -> D }.
Arguments v_bin {D}. Arguments v_neg {D}. Arguments v_int {D}.
(** expr/src/lib.rs:314-343 PureEvaluator; circuits/src/expr.rs:52-68 packed_field_evaluator is this for the field *)
Definition pure {D} (F : values D) : evaluator unit D := {|
  ev_bin op a b _ := (v_bin F op a b, tt); ev_neg a _ := (v_neg F a, tt); ev_const k _ := (v_int F k, tt) |}.

(** A circuit under construction (plonky2's CircuitBuilder, outside the repository): the list of the gates so far, a target
    being the position of a gate. *)
Inductive gate := GInput | GBin (op : bop) (a b : nat) | GScale (k : Z) (a : nat) | GConst (k : Z) | GMulAdd (a b c : nat).
Notation circuit := (list gate).
Definition gate_new (g : gate) (c : circuit) : nat * circuit := (length c, c ++ [g]).
(** circuits/src/expr.rs:12-50 CircuitBuilderEvaluator: negation is multiplication by the constant -1 *)
Definition circuit_ev : evaluator circuit nat := {|
  ev_bin op a b c := gate_new (GBin op a b) c; ev_neg a c := gate_new (GScale (-1) a) c; ev_const k c := gate_new (GConst k) c |}.

(** circuits/src/expr.rs:88-96 ConstraintType *)
Inductive ctype := FirstRow | Always | Transition | LastRow.
(** starky's ConstraintConsumer and RecursiveConstraintConsumer (outside the repository): for every challenge [alpha] an
    accumulator, to which a constraint [t] is added as [acc * alpha + t]; constraints of one kind of row are first multiplied by
    the value that vanishes on the others. *)
Record consumer (V : Type) := mkConsumer { alphas : list V; accs : list V; z_last_row : V; lagrange_first : V; lagrange_last : V }.
Arguments mkConsumer {V}. Arguments alphas {V}. Arguments accs {V}. Arguments z_last_row {V}. Arguments lagrange_first {V}. Arguments lagrange_last {V}.
Definition row_filter {V} (t : ctype) (c : consumer V) : option V :=
  match t with FirstRow => Some (lagrange_first c) | Always => None | Transition => Some (z_last_row c) | LastRow => Some (lagrange_last c) end.
Definition with_accs {V} (c : consumer V) (l : list V) : consumer V := mkConsumer (alphas c) l (z_last_row c) (lagrange_first c) (lagrange_last c).
Definition consume {D} (F : values D) (t : ctype) (x : D) (c : consumer D) : consumer D :=
  let y := match row_filter t c with Some f => v_bin F EMul x f | None => x end in
  with_accs c (zip_with (fun alpha acc => v_bin F EAdd (v_bin F EMul acc alpha) y) (alphas c) (accs c)).
Fixpoint muladds (l : list (nat * nat)) (y : nat) (k : circuit) : list nat * circuit :=
  match l with
  | [] => ([], k)
  | (alpha, acc) :: l => let '(t, k1) := gate_new (GMulAdd acc alpha y) k in let '(ts, k2) := muladds l y k1 in (t :: ts, k2)
  end.
Definition consume_ext (t : ctype) (x : nat) (c : consumer nat) (k : circuit) : consumer nat * circuit :=
  let '(y, k1) := match row_filter t c with Some f => gate_new (GBin EMul x f) k | None => (x, k) end in
  let '(l, k2) := muladds (zip (alphas c) (accs c)) y k1 in (with_accs c l, k2).

(** circuits/src/expr.rs:163-189 build_packed: one cached evaluator for all constraints, then the consumer takes them in order *)
Definition build_packed {D} (F : values D) (h : arena D) (cs : list (ctype * expr)) (c : consumer D) : option (consumer D) :=
  '(vs, _) ← eval_list (cached_eval (pure F) h) (map snd cs) (no_cache tt);
  Some (fold_left (fun c '(t, v) => consume F t v c) (combine (map fst cs) vs) c).
(** circuits/src/expr.rs:142-161 build_ext: for each constraint a new cached evaluator, then the consumer *)
Fixpoint build_ext (h : arena nat) (cs : list (ctype * expr)) (c : consumer nat) (k : circuit) : option (consumer nat * circuit) :=
  match cs with
  | [] => Some (c, k)
  | (t, e) :: cs => '(x, st) ← cached_eval circuit_ev h e (no_cache k); let '(c', k') := consume_ext t x c (inside st) in build_ext h cs c' k'
  end.
