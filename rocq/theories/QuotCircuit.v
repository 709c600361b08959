(** The check of the quotients for all challenges: by the verifier and by the circuit that verifies a table's proof recursively
    (circuits/src/stark/verifier.rs, circuits/src/stark/recursive_verifier.rs). *)
From mathcomp Require Import all_ssreflect all_algebra.
From Verif Require Import QuotModel.
Import GRing.Theory.
Local Open Scope ring_scope.

(** slice::chunks: pieces of [f] (positive) elements, the last one possibly shorter *)
Definition chunks {T : Type} (f : nat) (s : seq T) : seq (seq T) := [seq take f (drop (i * f) s) | i <- iota 0 ((size s + f.-1) %/ f)].

Section Circuit.
  Variable F : fieldType.
  (** circuits/src/stark/verifier.rs:90-167 verify_quotient_polynomials: one accumulator per challenge; indexing past them panics. *)
  Definition verify_quotients (f n : nat) (g : F) (cs : seq (constraint F)) (alphas : seq F) (zeta : F) (local next : nat -> F) (quotient : seq F) : bool :=
    let z_last := zeta - g^-1 in
    let accs := [seq accumulate alpha [seq filter_by z_last (eval_l_0 n zeta) (eval_l_last n g zeta) c.1 * ceval id local next c.2 | c <- cs] | alpha <- alphas] in
    let pieces := chunks f quotient in
    [&& n%:R * (zeta - 1) != 0, n%:R * (g * zeta - 1) != 0 &
      all (fun i => (i < size accs)%N && (nth 0 accs i == (zeta ^+ n - 1) * reduce_with_powers (nth [::] pieces i) (zeta ^+ n))) (iota 0 (size pieces))].

  (** Gates of plonky2: exp_power_of_2_extension squares repeatedly; mul_sub_extension; div_extension takes an inverse from the witness and constrains
      its product with the denominator to be one; mul_add_extension *)
  Definition exp_power_of_2 (x : F) (k : nat) : F := iter k (fun y => y * y) x.
  Definition mul_sub (a b c : F) : F := a * b - c.
  Definition div_constraint (y inv : F) : bool := y * inv == 1.
  Definition mul_add (a b c : F) : F := a * b + c.
  (** ReducingFactorTarget::reduce: from the last term, times the base plus the term *)
  Definition reduce_circuit (base : F) (terms : seq F) : F := foldl (fun acc t => mul_add acc base t) 0 (rev terms).
  (** RecursiveConstraintConsumer: a constraint that holds on every row is not multiplied *)
  Definition consume (z_last l_0 l_last alpha : F) (acc : F) (kv : kind * F) : F :=
    mul_add acc alpha (match kv.1 with Always => kv.2 | Transition => kv.2 * z_last | FirstRow => kv.2 * l_0 | LastRow => kv.2 * l_last end).
  (** circuits/src/stark/recursive_verifier.rs:825-842 eval_l_0_and_l_last_circuit: the two denominators *)
  Definition l_0_deno (log_n : nat) (x : F) : F := mul_sub (2 ^ log_n)%:R x (2 ^ log_n)%:R.
  Definition l_last_deno (log_n : nat) (g x : F) : F := (2 ^ log_n)%:R * mul_sub g x 1.
  (** circuits/src/stark/recursive_verifier.rs:691-752 verify_quotient_polynomials_circuit: whether the witness, here the two inverses, satisfies it.
      Simplified: the constraints' circuits are their values (ExprModel); building a circuit with more chunks than challenges panics. *)
  Definition quotients_circuit (f degree_bits : nat) (g : F) (cs : seq (constraint F)) (alphas : seq F) (zeta : F) (local next : nat -> F) (quotient : seq F)
      (inv_first inv_last : F) : bool :=
    let zeta_pow_deg := exp_power_of_2 zeta degree_bits in
    let z_h_zeta := zeta_pow_deg - 1 in
    let l_0 := z_h_zeta * inv_first in
    let l_last := z_h_zeta * inv_last in
    let z_last := zeta - g^-1 in
    let accs := [seq foldl (consume z_last l_0 l_last alpha) 0 [seq (c.1, ceval id local next c.2) | c <- cs] | alpha <- alphas] in
    let pieces := chunks f quotient in
    [&& div_constraint (l_0_deno degree_bits zeta) inv_first, div_constraint (l_last_deno degree_bits g zeta) inv_last &
      all (fun i => (i < size accs)%N && (nth 0 accs i == z_h_zeta * reduce_circuit zeta_pow_deg (nth [::] pieces i))) (iota 0 (size pieces))].
End Circuit.
Arguments verify_quotients {F}. Arguments quotients_circuit {F}. Arguments exp_power_of_2 {F}. Arguments reduce_circuit {F}. Arguments consume {F}.
Arguments l_0_deno {F}. Arguments l_last_deno {F}. Arguments div_constraint {F}.
