(** Quotients: how the verifier checks, from openings at one point, that the constraints of a table hold on all its rows
    (circuits/src/stark/verifier.rs, circuits/src/stark/poly.rs, starky's ConstraintConsumer).
    All over a field [F] with an element [g] that generates the subgroup of order [n], the length of the table (2^degree_bits):
    primitive_root_of_unity(degree_bits) of the Goldilocks field in its quadratic extension. *)
From mathcomp Require Import all_ssreflect all_algebra.
Import GRing.Theory.
Local Open Scope ring_scope.

(** A constraint: a polynomial in the columns of two consecutive rows.  Columns are those of the table followed by those of its lookups; public
    inputs and challenges are constants.  (How the code's expressions become such polynomials is the subject of ExprModel.) *)
Inductive cexpr (F : Type) : Type := CConst of F | CLocal of nat | CNext of nat | CAdd of cexpr F & cexpr F | CSub of cexpr F & cexpr F | CMul of cexpr F & cexpr F.
Arguments CConst {F}. Arguments CLocal {F}. Arguments CNext {F}. Arguments CAdd {F}. Arguments CSub {F}. Arguments CMul {F}.
Fixpoint ceval {F : Type} {R : ringType} (inj : F -> R) (local next : nat -> R) (e : cexpr F) : R :=
  match e with
  | CConst c => inj c
  | CLocal j => local j
  | CNext j => next j
  | CAdd a b => ceval inj local next a + ceval inj local next b
  | CSub a b => ceval inj local next a - ceval inj local next b
  | CMul a b => ceval inj local next a * ceval inj local next b
  end.
(** starky's constraint, constraint_transition, constraint_first_row, constraint_last_row *)
Inductive kind := Always | Transition | FirstRow | LastRow.
Definition constraint (F : Type) : Type := (kind * cexpr F)%type.

Section Verifier.
  Variable F : fieldType.
  (** circuits/src/stark/verifier.rs:276-283 eval_l_0_and_l_last *)
  Definition eval_l_0 (n : nat) (x : F) : F := (x ^+ n - 1) * (n%:R * (x - 1))^-1.
  Definition eval_l_last (n : nat) (g x : F) : F := (x ^+ n - 1) * (n%:R * (g * x - 1))^-1.
  (** starky's ConstraintConsumer: what a constraint of each kind is multiplied with, and the accumulator of one challenge *)
  Definition filter_by (z_last l_0 l_last : F) (k : kind) : F := match k with Always => 1 | Transition => z_last | FirstRow => l_0 | LastRow => l_last end.
  Definition accumulate (alpha : F) (vs : seq F) : F := foldl (fun acc v => acc * alpha + v) 0 vs.
  (** plonky2's reduce_with_powers *)
  Definition reduce_with_powers (terms : seq F) (x : F) : F := foldr (fun t acc => acc * x + t) 0 terms.
  (** circuits/src/stark/verifier.rs:90-167 verify_quotient_polynomials for one challenge and its chunk of quotient openings.  Inverting zero panics. *)
  Definition verify_quotient (n : nat) (g : F) (cs : seq (constraint F)) (alpha zeta : F) (local next : nat -> F) (quotient : seq F) : bool :=
    let z_last := zeta - g^-1 in
    let acc := accumulate alpha [seq filter_by z_last (eval_l_0 n zeta) (eval_l_last n g zeta) c.1 * ceval id local next c.2 | c <- cs] in
    [&& n%:R * (zeta - 1) != 0, n%:R * (g * zeta - 1) != 0 & acc == (zeta ^+ n - 1) * reduce_with_powers quotient (zeta ^+ n)].
  (** The same with the true openings of column polynomials [p] and quotient chunks [ts], as FRI guarantees them *)
  Definition accepts (n : nat) (g : F) (cs : seq (constraint F)) (p : nat -> {poly F}) (alpha zeta : F) (ts : seq {poly F}) : bool :=
    verify_quotient n g cs alpha zeta (fun j => (p j).[zeta]) (fun j => (p j).[g * zeta]) [seq t.[zeta] | t : {poly F} <- ts].
End Verifier.
Arguments eval_l_0 {F}. Arguments eval_l_last {F}. Arguments filter_by {F}. Arguments accumulate {F}. Arguments reduce_with_powers {F}. Arguments verify_quotient {F}. Arguments accepts {F}.
