(** Specification side of the circuit properties: which rows a verifier accepts, and which RV32IM instruction a CPU
    row claims to execute. *)
From Verif Require Export TablesModel RunnerSpec.
Open Scope Z_scope.

(** Traces are at most as long as the largest two-power subgroup of the field (plonky2: two-adicity 32). *)
Definition max_rows {R} (t : list R) : Prop := Z.of_nat (length t) <= 2 ^ 32.

(** All columns of a CPU row, in order (cpu/columns.rs:167-246) *)
Definition cpu_columns (r : cpu) : list Z :=
  [c_clk r; c_new_pc r; i_pc (c_inst r)] ++ map (c_op r) all_osel ++
  [i_op1_signed (c_inst r); i_op2_signed (c_inst r); i_dst_signed (c_inst r);
   i_rs1 (c_inst r); i_rs2 (c_inst r); i_rd (c_inst r); i_imm (c_inst r);
   c_op1_value r; c_op2_value_raw r; c_op2_value r; c_op2_value_overflowing r; c_dst_value r; c_dst_sign_bit r;
   c_mem_value_raw r; c_op1_sign_bit r; c_op2_sign_bit r; c_abs_diff r; c_cmp_diff_inv r; c_less_than r;
   c_normalised_diff r; c_xor_a r; c_xor_b r; c_xor_out r; c_bs_amount r; c_bs_multiplier r; c_op2_value_inv r;
   c_quotient_value r; c_quotient_sign r; c_skip_quotient_sign r; c_remainder_value r; c_remainder_sign r;
   c_remainder_slack r; c_op1_abs r; c_op2_abs r; c_skip_product_sign r; c_product_sign r; c_product_high r;
   c_product_low r; c_product_high_inv r; c_mem_addr r; c_io_addr r; c_io_size r] ++ map (c_ecall r) all_esel.

Definition shift_canon (r : shift_row) : Prop := canon (s_amount r) /\ canon (s_multiplier r).

(** A CPU row acceptable to the verifier: its columns are field elements, all [always] constraints hold, every value
    it sends to the range check is a 32-bit number, and the triples / pairs it sends to the XOR and bit-shift tables
    occur in satisfying instances of those tables. *)
Record cpu_row_ok (r : cpu) : Prop := {
  ro_canon : Forall canon (cpu_columns r);
  ro_always : all_zero (cpu_always r);
  ro_rc : Forall (fun '(v, f) => ~ fzero f -> u32 (v mod P)) (rangecheck_looking r);
  ro_xor : ~ fzero (ops_that_use_xor r) -> exists x, xor_row_typed x /\ all_zero (xor_constraints x) /\
             x_a x = c_xor_a r /\ x_b x = c_xor_b r /\ x_out x = c_xor_out r;
  ro_shift : ~ fzero (ops_that_shift r) -> exists t s, trace_sat shift_air t /\ Forall shift_canon t /\ max_rows t /\
             In s t /\ s_amount s = c_bs_amount r /\ s_multiplier s = c_bs_multiplier r }.

(** Row [r] claims to execute RV32IM instruction [i] located at address [a]; [x1] and [x2] are the contents of the two
    source registers of the internal instruction (register x0 contains 0). *)
Record carries (r : cpu) (a : Z) (i : rv32) (x1 x2 : Z) : Prop := {
  ca_inst : c_inst r = inst_cols a (lower a i);
  ca_ok : rv_ok i;
  ca_pc : u32 a;
  ca_x1 : c_op1_value r = x1;
  ca_x2 : c_op2_value_raw r = x2;
  ca_u1 : u32 x1;
  ca_u2 : u32 x2;
  ca_z1 : rs1 (iargs (lower a i)) = 0 -> x1 = 0;
  ca_z2 : rs2 (iargs (lower a i)) = 0 -> x2 = 0 }.

(** The value an instruction writes to its destination, from the ISA specification *)
Definition rv_value (a : Z) (i : rv32) (x1 x2 : Z) : option Z :=
  match i with
  | Alu o _ _ _ => Some (alu_sem o x1 x2)
  | AluI o _ _ k => Some (alui_sem o x1 k)
  | ShiftI o _ _ sh => Some (shifti_sem o x1 sh)
  | Jal _ _ | Jalr _ _ _ => Some (word (a + 4))
  | _ => None
  end.
(** The next pc of an instruction (not ECALL) *)
Definition rv_next (a : Z) (i : rv32) (x1 x2 : Z) : Z :=
  match i with
  | Branch c _ _ off => if cond_sem c x1 x2 then word (a + off) else word (a + 4)
  | Jal _ off => word (a + off)
  | Jalr _ _ k => 2 * (word (x1 + k) / 2)
  | _ => word (a + 4)
  end.

(** Steps of decoded instructions that the CPU table can prove: everything except
    - signed operations on -31 and -1 (row generation treats -31 like the overflow case),
    - a JALR whose target is odd (the circuit does not clear bit 0),
    - environment calls other than halt, the tape reads and Poseidon2 (unknown numbers and the trace log),
    - falling off the top of the address space (the circuit's pc + 4 does not wrap). *)
Definition provable_step (s : state) (i : instruction) : Prop :=
  let x1 := reg s (rs1 (iargs i)) in
  let x2 := word (reg s (rs2 (iargs i)) + imm (iargs i)) in
  let y := match iop i with BLT | BGE => reg s (rs2 (iargs i)) | _ => x2 end in
  (op2_signed (iop i) = true -> ~ (sg x1 = -31 /\ sg y = -1)) /\
  (iop i = JALR -> (x1 + imm (iargs i)) mod 2 = 0) /\
  (iop i = ECALL -> In (reg s REG_A0) [0; 2; 3; 4; 5; 6; 7; 8; 9]) /\
  (iop i <> JALR -> iop i <> ECALL -> pc s + 4 < 2 ^ 32).

(** An accepted CPU table: a list of rows of field elements satisfying the CPU constraints, with satisfying XOR and
    bit-shift tables that answer its lookups, and whose range-checked values are 32-bit numbers (whether the range-check
    table ensures the latter is property C34). *)
Record cpu_accepted (t : list cpu) : Prop := {
  ac_sat : trace_sat cpu_air t;
  ac_canon : Forall (fun r => Forall canon (cpu_columns r)) t;
  ac_len : max_rows t;
  ac_rc : Forall (fun r => Forall (fun '(v, f) => ~ fzero f -> u32 (v mod P)) (rangecheck_looking r)) t;
  ac_xor : exists xt, trace_sat xor_air xt /\ Forall xor_row_typed xt /\ ctl_ok (xor_looking t) (xor_looked xt);
  ac_shift : exists st, trace_sat shift_air st /\ Forall shift_canon st /\ max_rows st /\ ctl_ok (shift_looking t) (shift_looked st) }.

(** Row [r] occurs in the trace, and is not its last row *)
Definition inner {R} (t : list R) (r : R) : Prop := exists k r', t !! k = Some r /\ t !! S k = Some r'.

(** ADD rows: the same claims as [carries], for the instructions the ADD table handles *)
Record add_carries (r : add_row) (a : Z) (i : rv32) (x1 x2 : Z) : Prop := {
  aa_inst : mkArgs (ad_rd r) (ad_rs1 r) (ad_rs2 r) (ad_imm r) = iargs (lower a i);
  aa_op : iop (lower a i) = ADD;
  aa_ok : rv_ok i; aa_pc : u32 a;
  aa_x1 : ad_op1 r = x1; aa_x2 : ad_op2 r = x2;
  aa_u1 : u32 x1; aa_u2 : u32 x2;
  aa_z1 : ad_rs1 r = 0 -> x1 = 0; aa_z2 : ad_rs2 r = 0 -> x2 = 0 }.
(** What those instructions write (the no-op instructions write 0, to x0) *)
Definition add_value (a : Z) (i : rv32) (x1 x2 : Z) : Z :=
  match i with
  | Alu _ _ _ _ => alu_sem rADD x1 x2
  | AluI _ _ _ k => alui_sem iADDI x1 k
  | Lui _ k => k * 2 ^ 12
  | Auipc _ k => word (a + k * 2 ^ 12)
  | _ => 0
  end.

(** Which instructions the properties speak about *)
Definition bitwise_class (i : rv32) : bool :=
  match i with Alu (rSUB | rXOR | rOR | rAND) _ _ _ | AluI (iXORI | iORI | iANDI) _ _ _ => true | _ => false end.
Definition slt_class (i : rv32) : bool := match i with Alu (rSLT | rSLTU) _ _ _ | AluI (iSLTI | iSLTIU) _ _ _ => true | _ => false end.
Definition mul_class (i : rv32) : bool :=
  match i with Alu (rMUL | rMULH | rMULHSU | rMULHU | rSLL) _ _ _ | ShiftI sSLLI _ _ _ => true | _ => false end.
Definition div_class (i : rv32) : bool :=
  match i with Alu (rDIV | rDIVU | rREM | rREMU | rSRL | rSRA) _ _ _ | ShiftI (sSRLI | sSRAI) _ _ _ => true | _ => false end.
Definition jump_class (i : rv32) : bool := match i with Jal _ _ | Jalr _ _ _ => true | _ => false end.
Definition branch_class (i : rv32) : bool := match i with Branch _ _ _ _ => true | _ => false end.
Definition memory_class (i : rv32) : bool := match i with Load _ _ _ _ _ | Store _ _ _ _ => true | _ => false end.
