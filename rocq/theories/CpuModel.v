(** Model of the CPU table of the circuits crate: columns, constraints, looked-up values and row generation.
    A column value is an integer; a constraint is an integer expression that must be 0 modulo the Goldilocks prime. *)
From Verif Require Export Stark RunnerModel.
Open Scope Z_scope.

(** circuits/src/cpu/columns.rs:19-67 OpSelectors (fields in declaration order) *)
Inductive osel := o_add | o_sub | o_xor | o_or | o_and | o_div | o_rem | o_mul | o_mulh | o_sll | o_slt | o_srl | o_sra
  | o_jalr | o_beq | o_bne | o_sb | o_sh | o_sw | o_lb | o_lh | o_lw | o_blt | o_bge | o_ecall.
#[global] Instance osel_eq_dec : EqDecision osel.
Proof. solve_decision. Defined.
Definition all_osel : list osel := [o_add; o_sub; o_xor; o_or; o_and; o_div; o_rem; o_mul; o_mulh; o_sll; o_slt; o_srl;
  o_sra; o_jalr; o_beq; o_bne; o_sb; o_sh; o_sw; o_lb; o_lh; o_lw; o_blt; o_bge; o_ecall].

(** circuits/src/cpu/columns.rs:69-91 Instruction *)
Record icols := mkIcols {
  i_pc : Z; i_ops : osel -> Z; i_op1_signed : Z; i_op2_signed : Z; i_dst_signed : Z;
  i_rs1 : Z; i_rs2 : Z; i_rd : Z; i_imm : Z }.

(** circuits/src/cpu/columns.rs:111-137 selector set by From<(u32, Instruction)> *)
Definition sel_of (o : op) : osel :=
  match o with
  | ADD => o_add
  | LBU | LB => o_lb
  | LH | LHU => o_lh
  | LW => o_lw
  | SLL => o_sll
  | SLT | SLTU => o_slt
  | SB => o_sb
  | SH => o_sh
  | SW => o_sw
  | SRL => o_srl
  | SRA => o_sra
  | SUB => o_sub
  | DIV | DIVU => o_div
  | REM | REMU => o_rem
  | MUL => o_mul
  | MULH | MULHU | MULHSU => o_mulh
  | JALR => o_jalr
  | BEQ => o_beq
  | BNE => o_bne
  | BLT | BLTU => o_blt
  | BGE | BGEU => o_bge
  | ECALL => o_ecall
  | XOR => o_xor
  | OR => o_or
  | AND => o_and
  end.
(** circuits/src/cpu/columns.rs:98-108 *)
Definition op1_signed (o : op) : bool :=
  match o with SLT | DIV | REM | MULH | MULHSU | BLT | BGE | SRA => true | _ => false end.
Definition op2_signed (o : op) : bool :=
  match o with SLT | DIV | REM | MULH | BLT | BGE => true | _ => false end.
Definition dst_signed (o : op) : bool := match o with LB | LH => true | _ => false end.
(** circuits/src/cpu/columns.rs:93-143 impl From<(u32, Instruction)> for Instruction<u32> *)
Definition inst_cols (pc0 : Z) (i : instruction) : icols :=
  mkIcols pc0 (fun s => if decide (s = sel_of (iop i)) then 1 else 0)
    (b2z (op1_signed (iop i))) (b2z (op2_signed (iop i))) (b2z (dst_signed (iop i)))
    (rs1 (iargs i)) (rs2 (iargs i)) (rd (iargs i)) (imm (iargs i)).

(** circuits/src/cpu/columns.rs:145-165 EcallSelectors (fields in declaration order) *)
Inductive esel := e_private | e_public | e_call | e_event | e_events_commitment | e_cast_list_commitment
  | e_halt | e_poseidon2 | e_self_prog_id.
#[global] Instance esel_eq_dec : EqDecision esel.
Proof. solve_decision. Defined.
Definition all_esel : list esel := [e_private; e_public; e_call; e_event; e_events_commitment; e_cast_list_commitment;
  e_halt; e_poseidon2; e_self_prog_id].

(** circuits/src/cpu/columns.rs:167-246 CpuState *)
Record cpu := mkCpu {
  c_clk : Z; c_new_pc : Z; c_inst : icols;
  c_op1_value : Z; c_op2_value_raw : Z; c_op2_value : Z; c_op2_value_overflowing : Z;
  c_dst_value : Z; c_dst_sign_bit : Z; c_mem_value_raw : Z;
  c_op1_sign_bit : Z; c_op2_sign_bit : Z;
  c_abs_diff : Z; c_cmp_diff_inv : Z; c_less_than : Z; c_normalised_diff : Z;
  c_xor_a : Z; c_xor_b : Z; c_xor_out : Z;
  c_bs_amount : Z; c_bs_multiplier : Z;
  c_op2_value_inv : Z; c_quotient_value : Z; c_quotient_sign : Z; c_skip_quotient_sign : Z;
  c_remainder_value : Z; c_remainder_sign : Z; c_remainder_slack : Z;
  c_op1_abs : Z; c_op2_abs : Z; c_skip_product_sign : Z; c_product_sign : Z;
  c_product_high : Z; c_product_low : Z; c_product_high_inv : Z;
  c_mem_addr : Z; c_io_addr : Z; c_io_size : Z;
  c_ecall : esel -> Z }.

Definition c_pc (r : cpu) : Z := i_pc (c_inst r).
Definition c_imm (r : cpu) : Z := i_imm (c_inst r).
Definition c_op (r : cpu) (s : osel) : Z := i_ops (c_inst r) s.

(** circuits/src/cpu/columns.rs:253-292 *)
Definition is_running (r : cpu) : Z := sumZ (map (c_op r) all_osel).
Definition op1_full_range (r : cpu) : Z := c_op1_value r - c_op1_sign_bit r * 2 ^ 32.
Definition op2_full_range (r : cpu) : Z := c_op2_value r - c_op2_sign_bit r * 2 ^ 32.
Definition signed_diff (r : cpu) : Z := op1_full_range r - op2_full_range r.
Definition is_jumping (r : cpu) : Z :=
  c_op r o_beq + c_op r o_bge + c_op r o_blt + c_op r o_bne + c_op r o_ecall + c_op r o_jalr.
Definition is_straightline (r : cpu) : Z := is_running r - is_jumping r.
Definition is_mem_op (r : cpu) : Z :=
  c_op r o_sb + c_op r o_lb + c_op r o_sh + c_op r o_lh + c_op r o_sw + c_op r o_lw.

(** circuits/src/cpu/stark.rs:36-38 pc_ticks_up (a transition constraint) *)
Definition pc_ticks_up (r : cpu) : list Z := [is_straightline r * (c_new_pc r - (c_pc r + 4))].
(** circuits/src/cpu/stark.rs:43-52 binary_selectors *)
Definition binary_selectors (r : cpu) : list Z :=
  map (fun s => is_binary (c_op r s)) all_osel ++ [is_binary (is_running r)].
(** circuits/src/cpu/stark.rs:57-76 populate_op2_value *)
Definition is_branch_operation (r : cpu) : Z := c_op r o_beq + c_op r o_bne + c_op r o_blt + c_op r o_bge.
Definition is_shift_operation (r : cpu) : Z := c_op r o_sll + c_op r o_srl + c_op r o_sra.
Definition populate_op2_value (r : cpu) : list Z :=
  [is_branch_operation r * (c_op2_value r - c_op2_value_raw r);
   is_shift_operation r * (c_op2_value r - c_bs_multiplier r);
   (1 - is_branch_operation r - is_shift_operation r)
     * (c_op2_value_overflowing r - c_imm r - c_op2_value_raw r);
   (1 - is_branch_operation r - is_shift_operation r)
     * (c_op2_value_overflowing r - c_op2_value r)
     * (c_op2_value_overflowing r - c_op2_value r - 2 ^ 32 * is_mem_op r)].

(** circuits/src/cpu/sub.rs:6-17 *)
Definition sub_constraints (r : cpu) : list Z :=
  let expected := c_op1_value r - c_op2_value r in
  let wrapped := 2 ^ 32 + expected in
  [c_op r o_sub * ((c_dst_value r - expected) * (c_dst_value r - wrapped))].

(** circuits/src/cpu/bitwise.rs:36-85 the gadgets' doubled outputs *)
Definition and_doubled (r : cpu) : Z := c_xor_a r + c_xor_b r - c_xor_out r.
Definition or_doubled (r : cpu) : Z := c_xor_a r + c_xor_b r + c_xor_out r.
Definition xor_doubled (r : cpu) : Z := 2 * c_xor_out r.
(** circuits/src/cpu/bitwise.rs:93-110 *)
Definition bitwise_constraints (r : cpu) : list Z :=
  flat_map (fun '(selector, doubled) =>
      [selector * (c_xor_a r - c_op1_value r);
       selector * (c_xor_b r - c_op2_value r);
       selector * (doubled - 2 * c_dst_value r)])
    [(c_op r o_and, and_doubled r); (c_op r o_or, or_doubled r); (c_op r o_xor, xor_doubled r)].

(** circuits/src/cpu/branches.rs:17-45 comparison_constraints *)
Definition comparison_constraints (r : cpu) : list Z :=
  let lt := c_less_than r in
  [is_binary lt;
   (1 - lt) * (c_abs_diff r - signed_diff r);
   lt * (c_abs_diff r + signed_diff r);
   is_binary (c_normalised_diff r);
   signed_diff r * (1 - c_normalised_diff r);
   signed_diff r * c_cmp_diff_inv r - c_normalised_diff r;
   lt * (1 - c_normalised_diff r)].
(** circuits/src/cpu/branches.rs:48-79 constraints *)
Definition branch_constraints (r : cpu) : list Z :=
  let bumped := c_pc r + 4 in
  let branched := c_imm r in
  let lt := c_less_than r in
  let nd := c_normalised_diff r in
  [c_op r o_blt * lt * (c_new_pc r - branched);
   c_op r o_blt * (1 - lt) * (c_new_pc r - bumped);
   c_op r o_bge * lt * (c_new_pc r - bumped);
   c_op r o_bge * (1 - lt) * (c_new_pc r - branched);
   c_op r o_beq * (1 - nd) * (c_new_pc r - branched);
   c_op r o_beq * nd * (c_new_pc r - bumped);
   c_op r o_bne * nd * (c_new_pc r - branched);
   c_op r o_bne * (1 - nd) * (c_new_pc r - bumped)].

(** circuits/src/cpu/memory.rs:14-48 *)
Definition memory_constraints (r : cpu) : list Z :=
  [is_mem_op r * (c_mem_addr r - c_op2_value r);
   is_binary (c_dst_sign_bit r);
   (1 - i_dst_signed (c_inst r)) * c_dst_sign_bit r;
   c_op r o_lb * (c_dst_value r - (c_mem_value_raw r + c_dst_sign_bit r * 4294967040));
   c_op r o_lh * (c_dst_value r - (c_mem_value_raw r + c_dst_sign_bit r * 4294901760));
   (c_op r o_sb + c_op r o_sh) * (c_xor_a r - c_op1_value r);
   c_op r o_sb * (c_xor_b r - 255);
   c_op r o_sh * (c_xor_b r - 65535);
   (c_op r o_sb + c_op r o_sh) * (and_doubled r - 2 * c_mem_value_raw r)].

(** circuits/src/cpu/signed_comparison.rs:26-45 *)
Definition signed_constraints (r : cpu) : list Z :=
  [is_binary (c_op1_sign_bit r);
   is_binary (c_op2_sign_bit r);
   (1 - i_op1_signed (c_inst r)) * c_op1_sign_bit r;
   (1 - i_op2_signed (c_inst r)) * c_op2_sign_bit r].
Definition slt_constraints (r : cpu) : list Z := [c_op r o_slt * (c_less_than r - c_dst_value r)].

(** circuits/src/cpu/shift.rs:13-29 *)
Definition shift_constraints (r : cpu) : list Z :=
  let is_shift := c_op r o_sll + c_op r o_srl + c_op r o_sra in
  [is_shift * (c_xor_a r - 31);
   is_shift * (c_xor_b r - c_op2_value_raw r - c_imm r);
   is_shift * (and_doubled r - 2 * c_bs_amount r)].

(** circuits/src/cpu/mul.rs:12-18 *)
Definition bit_to_sign (b : Z) : Z := 1 - 2 * b.
(** circuits/src/cpu/div.rs:14-119 *)
Definition quotient_full_range (r : cpu) : Z := c_quotient_value r - c_quotient_sign r * 2 ^ 32.
Definition remainder_full_range (r : cpu) : Z := c_remainder_value r - c_remainder_sign r * 2 ^ 32.
Definition quotient_abs (r : cpu) : Z := bit_to_sign (c_quotient_sign r) * quotient_full_range r.
Definition remainder_abs (r : cpu) : Z := bit_to_sign (c_remainder_sign r) * remainder_full_range r.
Definition div_constraints (r : cpu) : list Z :=
  [c_op2_abs r * quotient_abs r
     + (1 - c_op r o_sra) * remainder_abs r
     + c_op r o_sra * (bit_to_sign (c_op1_sign_bit r) * remainder_full_range r)
     - c_op1_abs r;
   is_binary (c_remainder_sign r);
   is_binary (c_op1_sign_bit r);
   (1 - c_op r o_sra) * c_remainder_value r * (c_op1_sign_bit r - c_remainder_sign r);
   c_op r o_sra * c_remainder_sign r;
   (1 - c_skip_quotient_sign r)
     * (bit_to_sign (c_quotient_sign r) - bit_to_sign (c_op1_sign_bit r) * bit_to_sign (c_op2_sign_bit r));
   c_skip_quotient_sign r * op2_full_range r * (c_quotient_value r + quotient_full_range r);
   (1 - c_skip_quotient_sign r)
     * (op2_full_range r * quotient_full_range r + remainder_full_range r - op1_full_range r);
   c_op2_abs r * (remainder_abs r + 1 + c_remainder_slack r - c_op2_abs r);
   (1 - c_op2_value r * c_op2_value_inv r) * (c_quotient_value r - 4294967295);
   (1 - c_op2_value r * c_op2_value_inv r) * (c_remainder_value r - c_op1_value r);
   (c_op r o_div + c_op r o_srl + c_op r o_sra) * (c_dst_value r - c_quotient_value r);
   c_op r o_rem * (c_dst_value r - c_remainder_value r)].

(** circuits/src/cpu/mul.rs:20-94 *)
Definition mul_constraints (r : cpu) : list Z :=
  let low := c_product_low r in
  let high := c_product_high r in
  let ps := c_product_sign r in
  [is_binary ps;
   (1 - ps) * (high * 2 ^ 32 + low - c_op1_abs r * c_op2_abs r);
   ps * (2 ^ 32 * (2 ^ 32 - high) - low - c_op1_abs r * c_op2_abs r);
   (1 - ps) * (1 - (4294967295 - high) * c_product_high_inv r);
   ps * (1 - high * c_product_high_inv r);
   c_op1_abs r - op1_full_range r * bit_to_sign (c_op1_sign_bit r);
   c_op2_abs r - op2_full_range r * bit_to_sign (c_op2_sign_bit r);
   (1 - i_op1_signed (c_inst r)) * ps;
   c_skip_product_sign r * c_op1_abs r * c_op2_abs r;
   (1 - c_skip_product_sign r)
     * (bit_to_sign ps - bit_to_sign (c_op1_sign_bit r) * bit_to_sign (c_op2_sign_bit r));
   (c_op r o_mul + c_op r o_sll) * (c_dst_value r - low);
   c_op r o_mulh * (c_dst_value r - high)].

(** circuits/src/cpu/jalr.rs:10-32; the second constraint is a transition constraint *)
Definition jalr_constraints (r : cpu) : list Z :=
  let return_address := c_pc r + 4 in
  [c_op r o_jalr * (c_dst_value r - return_address) * (c_dst_value r - (return_address - 2 ^ 32))].
Definition jalr_transition (r : cpu) : list Z :=
  let jump_target := c_op1_value r + c_op2_value r in
  [c_op r o_jalr * (c_new_pc r - jump_target) * (c_new_pc r - (jump_target - 2 ^ 32))].

(** sdk/src/core/ecall.rs:7-18 call number of each modelled environment call *)
Definition ecall_number (e : esel) : Z :=
  match e with
  | e_halt => 0 | e_private => 2 | e_poseidon2 => 3 | e_public => 4 | e_call => 5 | e_event => 6
  | e_events_commitment => 7 | e_cast_list_commitment => 8 | e_self_prog_id => 9
  end.
(** circuits/src/cpu/ecall.rs:10-54 *)
Definition ecall_constraints (r : cpu) : list Z :=
  map (fun e => is_binary (c_ecall r e)) all_esel
  ++ [c_op r o_ecall - sumZ (map (c_ecall r) all_esel)]
  ++ map (fun e => c_ecall r e * (c_op1_value r - ecall_number e))
       [e_halt; e_private; e_public; e_call; e_event; e_events_commitment; e_cast_list_commitment; e_self_prog_id;
        e_poseidon2].

(** circuits/src/cpu/stark.rs:81-110 generate_constraints: [always] and [transition] constraints *)
Definition cpu_always (r : cpu) : list Z :=
  binary_selectors r ++ populate_op2_value r ++ [c_op r o_add] ++ sub_constraints r ++ bitwise_constraints r
  ++ comparison_constraints r ++ branch_constraints r ++ memory_constraints r ++ signed_constraints r
  ++ slt_constraints r ++ shift_constraints r ++ div_constraints r ++ mul_constraints r ++ jalr_constraints r
  ++ ecall_constraints r.
Definition cpu_transition (r : cpu) : list Z := pc_ticks_up r ++ jalr_transition r.
(** circuits/src/cpu/stark.rs:112-156: the CPU table as a STARK; no constraint mentions the next row *)
Definition cpu_air : air cpu :=
  mkAir (fun _ => []) (fun r _ => cpu_always r) (fun r _ => cpu_transition r) (fun _ => []).

(** circuits/src/cpu/columns.rs:299-330 rangecheck_looking: (value, filter) *)
Definition rangecheck_looking (r : cpu) : list (Z * Z) :=
  let divs := c_op r o_div + c_op r o_rem + c_op r o_srl + c_op r o_sra in
  let muls := c_op r o_mul + c_op r o_mulh + c_op r o_sll in
  [(c_quotient_value r, divs);
   (c_remainder_value r, divs);
   (c_remainder_slack r, divs);
   (c_dst_value r, c_op r o_add + c_op r o_sub + c_op r o_jalr);
   (c_pc r, c_op r o_jalr);
   (c_abs_diff r, c_op r o_bge + c_op r o_blt);
   (c_product_high r, muls);
   (c_product_low r, muls);
   (c_op1_value r - c_op1_sign_bit r * 2 ^ 32 + i_op1_signed (c_inst r) * 2 ^ 31, i_op1_signed (c_inst r));
   (c_op2_value r - c_op2_sign_bit r * 2 ^ 32 + i_op2_signed (c_inst r) * 2 ^ 31, i_op2_signed (c_inst r));
   (c_dst_value r - c_dst_sign_bit r * 4294967040, c_op r o_lb);
   (c_dst_value r - c_dst_sign_bit r * 4294901760, c_op r o_lh)].
(** circuits/src/cpu/columns.rs:411-424 filters of the XOR and Bitshift lookups (333-337, 426-430) *)
Definition ops_that_use_xor (r : cpu) : Z :=
  c_op r o_xor + c_op r o_or + c_op r o_and + c_op r o_srl + c_op r o_sll + c_op r o_sra.
Definition ops_that_shift (r : cpu) : Z := c_op r o_sll + c_op r o_srl + c_op r o_sra.

(** ** Row generation (circuits/src/cpu/generation.rs) *)
(** generation.rs:193-199 compute_full_range; utils.rs sign_extend is the same function *)
Definition compute_full_range (is_signed : bool) (v : Z) : Z := if is_signed then as_i32 v else v.
(** generation.rs:317-332 generate_xor_row: inputs *)
Definition gen_xor (i : instruction) (r1 r2 : Z) : Z * Z :=
  (match iop i with AND | OR | XOR | SB | SH => r1 | SRL | SLL | SRA => 31 | _ => 0 end,
   match iop i with AND | OR | XOR | SRL | SLL | SRA => wadd r2 (imm (iargs i)) | SB => 255 | SH => 65535 | _ => 0 end).
(** generation.rs:177-189 generate_shift_row: [31 - leading_zeros] is the index of the top bit *)
Definition gen_shift_amount (shift_power : Z) : Z := if shift_power =? 0 then 0 else Z.log2 shift_power.
(** generation.rs:202-251 generate_mul_row: (product_sign, high, low) *)
Definition gen_product (f1 f2 : Z) : Z * Z * Z :=
  let prod_abs := Z.abs f1 * Z.abs f2 in
  let sign := negb (prod_abs =? 0) && xorb (f1 <? 0) (f2 <? 0) in
  let prod := if sign then 18446744073709551615 - prod_abs + 1 else prod_abs in
  (b2z sign, prod / 2 ^ 32, prod mod 2 ^ 32).
(** generation.rs:255-293 generate_div_row: (quotient, sign, skip, remainder, remainder sign, slack).
    [/] on i64 truncates, [div_euclid] with a positive divisor is the floor; [-2 ^ 31] in the source is the
    exclusive or of -2 and 31, i.e. -31. *)
Definition gen_div (i : instruction) (op2s : bool) (o1 f1 f2 : Z) : Z * Z * Z * Z * Z * Z :=
  if f2 =? 0 then (4294967295, b2z op2s, 1, o1, b2z (f1 <? 0), 0)
  else
    let q := match iop i with SRA => f1 / f2 | _ => Z.quot f1 f2 end in
    let special := (f1 =? Z.lxor (-2) 31) && (f2 =? -1) in
    let rm := f1 - q * f2 in
    (wrap32 q, if special then 1 else b2z (q <? 0), if special then 1 else b2z (q =? 0),
     wrap32 rm, b2z (rm <? 0), (Z.abs f2 - 1 - Z.abs rm) mod P).
(** generation.rs:295-303 memory_sign_handling *)
Definition gen_dst_sign (i : instruction) (d : Z) : Z :=
  match iop i with LB => b2z (128 <=? d) | LH => b2z (32768 <=? d) | _ => 0 end.
(** generation.rs:108-142 ecall selectors *)
Definition gen_ecall (i : instruction) (a : aux) (a0 : Z) (e : esel) : Z :=
  let io := match storage_device_entry a with Some x => sd_opcode x | None => SdNone end in
  let is o := b2z (bool_decide (iop i = ECALL) && bool_decide (io = o)) in
  match e with
  | e_poseidon2 => match poseidon2 a with Some _ => 1 | None => 0 end
  | e_private => is StorePrivate
  | e_public => is StorePublic
  | e_call => is StoreCallTape
  | e_event => is StoreEventTape
  | e_events_commitment => is StoreEventsCommitmentTape
  | e_cast_list_commitment => is StoreCastListCommitmentTape
  | e_self_prog_id => is StoreSelfProgIdTape
  | e_halt => b2z (bool_decide (iop i = ECALL) && (a0 =? 0))
  end.

Definition freg (s : state) (n : Z) : Z := nth (Z.to_nat n) (registers s) 0.

(** generation.rs:86-152 one row of generate_cpu_trace. Registers are read with [freg] (indices of decoded
    instructions are in range). *)
Definition gen_row (s : state) (i : instruction) (a : aux) : cpu :=
  let s1 := op1_signed (iop i) in
  let s2 := op2_signed (iop i) in
  let f1 := compute_full_range s1 (op1 a) in
  let f2 := compute_full_range s2 (op2 a) in
  let x := gen_xor i (freg s (rs1 (iargs i))) (freg s (rs2 (iargs i))) in
  let '(psign, phigh, plow) := gen_product f1 f2 in
  let '(q, qs, skip, rm, rs, slack) := gen_div i s2 (op1 a) f1 f2 in
  let diff := (f1 - f2) mod P in
  {| c_clk := clk s mod P; c_new_pc := new_pc a; c_inst := inst_cols (pc s) i;
     c_op1_value := op1 a; c_op2_value_raw := op2_raw a; c_op2_value := op2 a;
     c_op2_value_overflowing := freg s (rs2 (iargs i)) + imm (iargs i);
     c_dst_value := dst_val a; c_dst_sign_bit := gen_dst_sign i (dst_val a);
     c_mem_value_raw := match amem a with Some m => me_raw_value m | None => 0 end;
     c_op1_sign_bit := b2z (f1 <? 0); c_op2_sign_bit := b2z (f2 <? 0);
     c_abs_diff := Z.abs (f1 - f2); c_cmp_diff_inv := finv diff; c_less_than := b2z (f1 <? f2);
     c_normalised_diff := b2z (negb (diff =? 0));
     c_xor_a := fst x; c_xor_b := snd x; c_xor_out := Z.lxor (fst x) (snd x);
     c_bs_amount := gen_shift_amount (op2 a); c_bs_multiplier := op2 a;
     c_op2_value_inv := finv (op2 a); c_quotient_value := q; c_quotient_sign := qs; c_skip_quotient_sign := skip;
     c_remainder_value := rm; c_remainder_sign := rs; c_remainder_slack := slack;
     c_op1_abs := Z.abs f1; c_op2_abs := Z.abs f2;
     c_skip_product_sign := b2z (Z.abs f1 * Z.abs f2 =? 0); c_product_sign := psign;
     c_product_high := phigh; c_product_low := plow;
     c_product_high_inv := finv (if psign =? 1 then phigh else 4294967295 - phigh);
     c_mem_addr := match amem a with Some m => me_addr m | None => 0 end;
     c_io_addr := match storage_device_entry a with Some e => sd_addr e | None => 0 end;
     c_io_size := match storage_device_entry a with Some e => Z.of_nat (length (sd_data e)) | None => 0 end;
     c_ecall := gen_ecall i a (freg s REG_A0) |}.

(** generation.rs:73-85 rows not sent to the CPU table *)
Definition handled_elsewhere (s : state) (i : instruction) : bool :=
  match iop i with
  | ADD => true
  | BLTU => freg s (rs1 (iargs i)) <? freg s (rs2 (iargs i))
  | _ => false
  end.

(** generation.rs:23-33 the padding row *)
Definition pad_row : cpu :=
  let z := 0 in
  {| c_clk := z; c_new_pc := z; c_inst := mkIcols z (fun _ => z) z z z z z z z;
     c_op1_value := z; c_op2_value_raw := z; c_op2_value := z; c_op2_value_overflowing := z;
     c_dst_value := z; c_dst_sign_bit := z; c_mem_value_raw := z; c_op1_sign_bit := z; c_op2_sign_bit := z;
     c_abs_diff := z; c_cmp_diff_inv := z; c_less_than := z; c_normalised_diff := z;
     c_xor_a := z; c_xor_b := z; c_xor_out := z; c_bs_amount := z; c_bs_multiplier := z;
     c_op2_value_inv := z; c_quotient_value := 4294967295; c_quotient_sign := z; c_skip_quotient_sign := z;
     c_remainder_value := z; c_remainder_sign := z; c_remainder_slack := z;
     c_op1_abs := z; c_op2_abs := z; c_skip_product_sign := z; c_product_sign := z;
     c_product_high := z; c_product_low := z; c_product_high_inv := finv 4294967295;
     c_mem_addr := z; c_io_addr := z; c_io_size := z; c_ecall := fun _ => z |}.
