# Formal model of 0xmozak/mozak-vm in Rocq (Coq 8.16.1)

## 1. Method
* The model consists of total, computable Gallina functions (and, for the constraint systems, predicates on tables) over
  `Z`, `list`, `option`, records and std++ `gmap`.
* `u8/u32/u64/usize` values are `Z`; every wrap-around is written explicitly (`mod 2^32`), and every checked conversion,
  panic or `Err` is an explicit constructor of the result type.
* Overflow of plain `+`/`-`/`<<`/`>>` on integers is modelled as in a build with overflow checks (a panic). Where a
  release build behaves differently in a way a property depends on, the wrapping behaviour is modelled as well (C40, C50).
* Field elements (Goldilocks, p = 2^64 - 2^32 + 1) are canonical integers in [0,p); a constraint holds when its polynomial
  is 0 modulo p.
* STARK tables: a table is *accepted* when every row satisfies the always-constraints, every pair of consecutive rows the
  transition constraints, the first/last row the boundary constraints, and the cross-table lookups (CTLs) balance as
  multisets in the field (the meaning the CTL argument gives up to its soundness error). Soundness of starky/FRI and of
  plonky2's recursive verifier is *assumed*: "accepted proof" is read as "an accepted table exists".
* Hash functions (Poseidon2 permutation, leaf hash, two-to-one compression), utf-8 decoding and user code are universally
  quantified variables. Theorems that need collision resistance say so by a hypothesis of the form "or a collision is
  exhibited" or by stating equality of hashed preimages; no axiom is used.
* File roles: `*Model.v` definitions only, each citing the lines of /repo; `*Spec.v` independent specifications;
  `*Proofs.v`, `Cpu*.v` lemmas; `*Props.v` the property theorems, closed by `exact`, with concrete `Example`s meeting their
  hypotheses and `Print Assumptions` for each.

## 2. Trusted base
* The Coq 8.16.1 kernel including its `vm_compute` machine (used for evaluating concrete examples and finite case
  analyses such as enumerations of opcodes).
* `Print Assumptions` for every property theorem: **Closed under the global context** (no axioms at all). std++ loads Coq's
  own ssreflect, whose `Coq.ssr.ssrunder.Under_rel` module type has seven parameters (`Under_rel`, `Under_relE`,
  `under_rel_done`, ...); a checker that lists everything loaded reports them as library axioms. No theorem here uses them.
  The Quot* and Coset* files (C87, C88, C89) use MathComp's polynomials; MathComp seals some definitions in modules (`BigOp.bigop`, `SubsetDef.subset`,
  ...), which `coqchk` lists although they are definitions with bodies: `Print Assumptions` of the C87, C88 and C89 theorems is empty.
* The reading of the Rust source: each definition cites the file and lines it models; simplifications are stated there and
  summarised below.
* External crates are not modelled: plonky2/starky (proof systems), rkyv serialisation, the `elf` container parser,
  itertools, std collections (their documented meaning is used).

## 3. What is modelled and what is not
| part of /repo | modelled in | not modelled |
|---|---|---|
| runner: instruction.rs, decode.rs, vm.rs, state.rs, ecall.rs, poseidon2.rs, reg_abi | RunnerModel | log/trace output, `im` sharing, StorageDevice details beyond the data read |
| runner: elf.rs, code.rs, state.rs constructors | LoadModel | the `elf` crate's parsing, `MozakRunTimeArguments` serialisation |
| circuits: expr/stark evaluation, cross_table_lookup balance | Field, Stark | challenger, FRI, batching, recursive circuit builders of the tables |
| circuits/cpu: columns, all constraint files, generation.rs, lookups | CpuModel | — |
| circuits: ops/add, ops/blt_taken, xor, bitshift, rangecheck, rangecheck_u8 | TablesModel | — |
| circuits: cpu_skeleton, memory, memory_{half,full}word, memoryinit, zeroinit, register/*, program, program_multiplicities | StateModel, MemGenModel, RegGenModel | - |
| circuits: generation.rs, the list of cross-table lookups in stark/mozak_stark.rs, generation of range-check and program tables | ProofGenModel, ProofGenSpec | timing output, debug assertions |
| circuits: what stark/verifier.rs checks of a whole proof (public inputs, fixed tables), from the verifier's side | SoundSpec (`proof_accepted`, `describes`) | FRI and the STARK argument itself |
| circuits: storage_device, tape_commitments, public_sub_table (as a lookup) | DeviceModel | - |
| circuits: compression of lookups and public sub tables to sums of fractions (cross_table_lookup.rs, permutation.rs, public_sub_table.rs) | LogupModel | the transcript that draws the challenges |
| circuits: the list of all lookups and public sub tables (stark/mozak_stark.rs:454-477) at a challenge | LogupSystem | - |
| expr crate (lib.rs, ops.rs), circuits/src/expr.rs | ExprModel | gates of plonky2 and consumers of starky by their formulas; to_typed_starkframe, locations of constraints |
| circuits/src/linear_combination.rs, linear_combination_typed.rs, columns_view.rs, compose_ctl_with_challenge | ColumnModel | views as lists; indices past the width of a view (impossible by type) |
| circuits/src/stark/batch_prover.rs, batch_verifier.rs, proof.rs (openings), verifier.rs (quotients, shapes), CtlCheckVars::from_proofs | BatchModel | plonky2's batch FRI and Merkle trees (ideal: true evaluations of the committed polynomials); the transcript; the arithmetic of constraints |
| circuits/src/stark/verifier.rs (verify_quotient_polynomials, eval_l_0_and_l_last), starky's ConstraintConsumer | QuotModel | FRI |
| circuits/src/stark/poly.rs (compute_quotient_polys), the chunks in batch_prover.rs/prover.rs | CosetModel | packing of points; the fast algorithm of the transforms (their sums are used) |
| the transcripts of batch_prover.rs, batch_verifier.rs, prove_single_table, StarkProof::get_challenges; plonky2's Challenger, RecursiveChallenger and fri_challenges | TransModel, TransRec | the proof-of-work check |
| circuits/src/stark/recursive_verifier.rs (verify_quotient_polynomials_circuit, eval_l_0_and_l_last_circuit), the challenges' loop in verifier.rs | QuotCircuit | the circuits of the constraints (taken by their values) |
| circuits: poseidon2, poseidon2_sponge, poseidon2_output_bytes | PoseidonModel | the plonky2 round constants and matrices' values (parameters of every theorem), field arithmetic inside plonky2 |
| sdk: core (alloc, ecall ids), common (merkle, types), native and mozakvm tapes, poseidon padding; cli tape assembly | SdkModel | rkyv archives, process environment, example programs |
| recproofs: all non-test circuits (build_event_root, merge, verify_program, verify_tx, accumulate_delta, match_delta, state_update, verify_block) and their subcircuits, as the relation each constraint system defines; acceptance of recursive proofs as a least relation | RecModel | plonky2 itself (a proof is accepted iff the constraint system is satisfiable), witness setters, test circuits; the hash is an arbitrary relation (collision-free where stated) |
| node: block_proposer.rs, transactions.rs (event trees, cast trees) | NodeTreeModel | proving; HashMap of ongoing transactions (one entry), errors abandon the sequence |
| node: block_proposer/matches.rs | NodeMatchModel | proving; object deltas carried by the same proofs are in RecModel |
| node: block_proposer/state.rs | NodeModel | plonky2 proving (a proof is its public inputs; prove fails iff the witness the prover computes violates the circuit) |
