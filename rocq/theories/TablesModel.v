(** Model of the small tables of the circuits crate: XOR, bit shift, range check, byte range check, ADD, BLT-taken. *)
From Verif Require Export CpuModel.
Open Scope Z_scope.

(** circuits/src/generation.rs MIN_TRACE_LENGTH = 8; circuits/src/utils.rs:10-53: traces are padded to the next
    power of two, at least 8 rows *)
Fixpoint next_pow2 (fuel : nat) (p n : Z) : Z :=
  match fuel with O => p | S k => if n <=? p then p else next_pow2 k (2 * p) n end.
Definition padded_len (n : nat) : nat := Z.to_nat (Z.max 8 (next_pow2 n 1 (Z.of_nat n))).
Definition pad_with {R} (d : R) (t : list R) : list R := t ++ repeat d (padded_len (length t) - length t).

(** ** XOR (circuits/src/xor) *)
(** xor/columns.rs:5-29 XorColumnsView *)
Record xor_row := mkXor {
  x_exec : Z; x_a : Z; x_b : Z; x_out : Z; xl_a : list Z; xl_b : list Z; xl_out : list Z }.
(** xor/stark.rs:33-59 *)
Definition xor_constraints (r : xor_row) : list Z :=
  map is_binary (xl_a r ++ xl_b r ++ xl_out r)
  ++ [reduce_with_powers (xl_a r) 2 - x_a r; reduce_with_powers (xl_b r) 2 - x_b r; reduce_with_powers (xl_out r) 2 - x_out r]
  ++ map (fun '(a, (b, out)) => (a + b - out) * (a + b - 2 - out)) (combine (xl_a r) (combine (xl_b r) (xl_out r))).
Definition xor_air : air xor_row := mkAir (fun _ => []) (fun r _ => xor_constraints r) (fun _ _ => []) (fun _ => []).
(** Rust types: 32 limbs each, columns are field elements *)
Record xor_row_typed (r : xor_row) : Prop := {
  xt_len : length (xl_a r) = 32%nat /\ length (xl_b r) = 32%nat /\ length (xl_out r) = 32%nat;
  xt_canon : Forall canon (x_exec r :: x_a r :: x_b r :: x_out r :: xl_a r ++ xl_b r ++ xl_out r) }.
(** xor/columns.rs:32-36 lookup_for_cpu *)
Definition xor_looked (t : list xor_row) : entries := map (fun r => ([x_a r; x_b r; x_out r], x_exec r)) t.
(** cpu/columns.rs:333-337 lookup_for_xor *)
Definition xor_looking (t : list cpu) : entries :=
  map (fun r => ([c_xor_a r; c_xor_b r; c_xor_out r], ops_that_use_xor r)) t.
(** xor/generation.rs:18-24 to_bits *)
Definition to_bits (v : Z) : list Z := map (fun j => b2z (Z.testbit v (Z.of_nat j))) (seq 0 32).
(** xor/generation.rs:9-16, 26-38 generate_xor_trace *)
Definition gen_xor_row (a b out : Z) : xor_row := mkXor 1 a b out (to_bits a) (to_bits b) (to_bits out).
Definition xor_default : xor_row := mkXor 0 0 0 0 (repeat 0 32) (repeat 0 32) (repeat 0 32).
Definition generate_xor_trace (t : list cpu) : list xor_row :=
  pad_with xor_default (map (fun r => gen_xor_row (c_xor_a r) (c_xor_b r) (c_xor_out r))
                          (List.filter (fun r => ops_that_use_xor r mod P =? 1) t)).

(** ** Bit shift (circuits/src/bitshift) *)
(** bitshift/columns.rs:8-41 *)
Record shift_row := mkShift { s_amount : Z; s_multiplier : Z; s_mult : Z }.
(** bitshift/stark.rs:33-72 *)
Definition shift_air : air shift_row :=
  mkAir (fun lv => [s_amount lv; s_multiplier lv - 1])
        (fun _ _ => [])
        (fun lv nv => let diff := s_amount nv - s_amount lv in
                      [diff * (diff - 1); s_multiplier nv - (1 + diff) * s_multiplier lv])
        (fun lv => [s_amount lv - 31; s_multiplier lv - 2 ^ 31]).
(** bitshift/columns.rs:43-47 lookup_for_cpu, cpu/columns.rs:426-430 lookup_for_shift_amount *)
Definition shift_looked (t : list shift_row) : entries := map (fun r => ([s_amount r; s_multiplier r], s_mult r)) t.
Definition shift_looking (t : list cpu) : entries := map (fun r => ([c_bs_amount r; c_bs_multiplier r], ops_that_shift r)) t.
(** bitshift/generation.rs:6-30; the multiplicities are counted in a u32 (from_canonical_u32) *)
Definition generate_shift_trace (t : list cpu) : list shift_row :=
  let amounts := map c_bs_amount (List.filter (fun r => ops_that_shift r mod P =? 1) t) in
  map (fun k => mkShift (Z.of_nat k) (2 ^ Z.of_nat k)
                  (Z.of_nat (length (List.filter (Z.eqb (Z.of_nat k)) amounts)))) (seq 0 32).

(** ** Range check (circuits/src/rangecheck, rangecheck_u8) *)
(** rangecheck/columns.rs:8-15 RangeCheckColumnsView; the table has no constraints of its own (Unstark) *)
Record rc_row := mkRc { rc_limbs : list Z; rc_mult : Z }.
Definition rc_row_typed (r : rc_row) : Prop := length (rc_limbs r) = 4%nat /\ Forall canon (rc_mult r :: rc_limbs r).
(** rangecheck/columns.rs:21-29 lookup *)
Definition rc_value (r : rc_row) : Z :=
  sumZ (map (fun '(i, l) => l * 2 ^ (8 * Z.of_nat i)) (combine (seq 0 4) (rc_limbs r))).
Definition rc_looked (t : list rc_row) : entries := map (fun r => ([rc_value r], rc_mult r)) t.
(** rangecheck/columns.rs:36-41 rangecheck_looking: each limb is looked up with the row's multiplicity as filter *)
Definition rc_u8_looking (t : list rc_row) : entries :=
  flat_map (fun i => map (fun r => ([nth i (rc_limbs r) 0], rc_mult r)) t) (seq 0 4).
(** rangecheck_u8/columns.rs:8-25 *)
Record u8_row := mkU8 { u8_value : Z; u8_mult : Z }.
Definition u8_looked (t : list u8_row) : entries := map (fun r => ([u8_value r], u8_mult r)) t.
(** rangecheck_u8/stark.rs:32-45 *)
Definition u8_air : air u8_row :=
  mkAir (fun lv => [u8_value lv]) (fun _ _ => []) (fun lv nv => [u8_value nv - u8_value lv - 1])
        (fun lv => [u8_value lv - 255]).
(** rangecheck/generation.rs:17-21 limbs_from_u32 *)
Definition limbs_from_u32 (v : Z) : list Z := to_le_bytes32 v.

(** ** ADD (circuits/src/ops/add) *)
(** ops/add/mod.rs:16-47 *)
Record add_row := mkAdd {
  ad_pc : Z; ad_rs1 : Z; ad_rs2 : Z; ad_rd : Z; ad_imm : Z;
  ad_clk : Z; ad_op1 : Z; ad_op2 : Z; ad_dst : Z; ad_running : Z }.
(** ops/add/stark.rs:31-46 *)
Definition add_constraints (r : add_row) : list Z :=
  let added := ad_op1 r + ad_op2 r + ad_imm r in
  let wrapped := added - 2 ^ 32 in
  [(ad_dst r - added) * (ad_dst r - wrapped)].
Definition add_air : air add_row := mkAir (fun _ => []) (fun r _ => add_constraints r) (fun _ _ => []) (fun _ => []).
(** ops/add/mod.rs:83-89 rangecheck_looking *)
Definition add_rc_looking (t : list add_row) : entries := map (fun r => ([ad_dst r], ad_running r)) t.
(** ops/add/mod.rs:91-103 lookup_for_skeleton: (clk, pc, new_pc, will_halt) *)
Definition add_skeleton_looking (t : list add_row) : entries :=
  map (fun r => ([ad_clk r; ad_pc r; ad_pc r + 4; 0], ad_running r)) t.
(** ops/add/mod.rs:151-179 generate: the row of one ADD execution. [u32::try_from(clk).unwrap()] panics from
    clk = 2^32 on; this panic is [None]. *)
Definition gen_add_row (s : state) (i : instruction) (a : aux) : option add_row :=
  if clk s <? 2 ^ 32
  then Some (mkAdd (pc s) (rs1 (iargs i)) (rs2 (iargs i)) (rd (iargs i)) (imm (iargs i))
               (clk s) (freg s (rs1 (iargs i))) (freg s (rs2 (iargs i))) (dst_val a) 1)
  else None.
Definition add_default : add_row := mkAdd 0 0 0 0 0 0 0 0 0 0.

(** ** BLTU taken (circuits/src/ops/blt_taken) *)
(** ops/blt_taken/mod.rs:17-44; the table has no constraints (ops/blt_taken/stark.rs is an Unstark) *)
Record blt_row := mkBlt {
  bl_pc : Z; bl_rs1 : Z; bl_rs2 : Z; bl_imm : Z; bl_clk : Z; bl_op1 : Z; bl_op2 : Z; bl_running : Z }.
(** ops/blt_taken/mod.rs:82-94 lookup_for_skeleton *)
Definition blt_skeleton_looking (t : list blt_row) : entries :=
  map (fun r => ([bl_clk r; bl_pc r; bl_imm r; 0], bl_running r)) t.
(** ops/blt_taken/mod.rs:72-80 rangecheck_looking: defined, but not a member of the lookups of
    stark/mozak_stark.rs:699-713 *)
Definition blt_rc_looking (t : list blt_row) : entries := map (fun r => ([bl_op2 r - bl_op1 r - 1], bl_running r)) t.
