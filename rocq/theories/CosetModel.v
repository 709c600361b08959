(** The prover's quotients: computed from values on a coset of a larger subgroup (circuits/src/stark/poly.rs,
    circuits/src/stark/batch_prover.rs; plonky2's transforms by their formulas).
    [W] is primitive_root_of_unity(degree_bits + rate_bits), of order n * 2^rate_bits; the roots of smaller orders are its powers, as in
    plonky2.  [s] is coset_shift.  The columns [p] are those of the trace followed by those of the lookups.
    Simplified: one point at a time (P::WIDTH = 1). *)
From Coq Require PeanoNat.
From mathcomp Require Import all_ssreflect all_algebra.
From Verif Require Import QuotModel.
Import GRing.Theory.
Local Open Scope ring_scope.

Section Prover.
  Variable F : fieldType.
  (** plonky2's ifft and coset_ifft of [N] values, [w] of order [N] *)
  Definition ifft (N : nat) (w : F) (v : nat -> F) : {poly F} := \poly_(m < N) (N%:R^-1 * \sum_(i < N) v i * (w^-1) ^+ (i * m)).
  Definition coset_ifft (N : nat) (w s : F) (v : nat -> F) : {poly F} := \poly_(m < N) ((ifft N w v)`_m * (s^-1) ^+ m).
  (** PolynomialValues::selector *)
  Definition selector (m i : nat) : F := if i == m then 1 else 0.
  (** plonky2's log2_ceil *)
  Definition log2_ceil (f : nat) : nat := PeanoNat.Nat.log2_up f.
  (** circuits/src/stark/poly.rs:27-124 compute_quotient_polys for one challenge: [None] when the assertion fails *)
  Definition compute_quotient_poly (n rate_bits factor : nat) (W s : F) (cs : seq (constraint F)) (p : nat -> {poly F}) (alpha : F) : option {poly F} :=
    let quotient_degree_bits := log2_ceil factor in
    if (quotient_degree_bits <= rate_bits)%N then
      let step := PeanoNat.Nat.pow 2 (rate_bits - quotient_degree_bits) in
      let next_step := PeanoNat.Nat.pow 2 quotient_degree_bits in
      let size := (n * next_step)%N in
      let w := W ^+ step in
      let g := W ^+ (PeanoNat.Nat.pow 2 rate_bits) in
      (* the values of the committed columns on the domain of the commitment *)
      let lde j index := (p j).[s * W ^+ index] in
      let lde_onto_coset v i := (ifft n g v).[s * w ^+ i] in
      let lagrange_first := lde_onto_coset (selector 0) in
      let lagrange_last := lde_onto_coset (selector n.-1) in
      (* plonky2's ZeroPolyOnCoset *)
      let eval_inverse i := (s ^+ n * (w ^+ n) ^+ (i %% next_step) - 1)^-1 in
      let value i :=
        let i_next := ((i + next_step) %% size)%N in
        let x := s * w ^+ i in
        let local j := lde j (i * step)%N in
        let next j := lde j (i_next * step)%N in
        accumulate alpha [seq filter_by (x - g^-1) (lagrange_first i) (lagrange_last i) c.1 * ceval id local next c.2 | c <- cs] * eval_inverse i in
      Some (coset_ifft size w s value)
    else None.
  (** circuits/src/stark/batch_prover.rs:671-686: trim_to_len(degree * quotient_degree_factor), which is an error (and a panic) when a coefficient
      beyond is not zero, and the chunks of [degree] coefficients *)
  Definition quotient_chunks (n factor : nat) (q : {poly F}) : option (seq {poly F}) :=
    if (size q <= n * factor)%N then Some [seq \poly_(i < n) q`_(m * n + i) | m <- iota 0 factor] else None.
  Definition prove_quotient (n rate_bits factor : nat) (W s : F) (cs : seq (constraint F)) (p : nat -> {poly F}) (alpha : F) : option (seq {poly F}) :=
    obind (quotient_chunks n factor) (compute_quotient_poly n rate_bits factor W s cs p alpha).
End Prover.
Arguments ifft {F}. Arguments coset_ifft {F}. Arguments selector {F}. Arguments compute_quotient_poly {F}. Arguments quotient_chunks {F}. Arguments prove_quotient {F}.
