(** Specification side of the runner properties: how the VM's internal instructions correspond to RV32IM
    instructions, and when a VM state represents an ISA machine. *)
From Verif Require Export RunnerModel RvSpec.
Open Scope Z_scope.

Definition op_of_alu (o : alu) : op :=
  match o with
  | rADD => ADD | rSUB => SUB | rSLL => SLL | rSLT => SLT | rSLTU => SLTU | rXOR => XOR | rSRL => SRL
  | rSRA => SRA | rOR => OR | rAND => AND | rMUL => MUL | rMULH => MULH | rMULHSU => MULHSU | rMULHU => MULHU
  | rDIV => DIV | rDIVU => DIVU | rREM => REM | rREMU => REMU
  end.
Definition op_of_alui (o : alui) : op :=
  match o with iADDI => ADD | iSLTI => SLT | iSLTIU => SLTU | iXORI => XOR | iORI => OR | iANDI => AND end.
Definition op_of_load (w : width) (us : bool) : op :=
  match w, us with wB, false => LB | wB, true => LBU | wH, false => LH | wH, true => LHU | wW, _ => LW end.
Definition op_of_store (w : width) : op := match w with wB => SB | wH => SH | wW => SW end.
Definition op_of_cond (c : cond) : op :=
  match c with cEQ => BEQ | cNE => BNE | cLT => BLT | cGE => BGE | cLTU => BLTU | cGEU => BGEU end.

(** The internal instruction that denotes RV32IM instruction [r] located at address [a]: same operation,
    same registers, immediate as a 32-bit word, jump / branch / AUIPC targets absolute. Memory instructions keep
    the address register in the second source; SLLI / SRLI become multiplication / division by a power of two. *)
Definition lower (a : Z) (r : rv32) : instruction :=
  match r with
  | Alu o d r1 r2 => mkInst (op_of_alu o) (mkArgs d r1 r2 0)
  | AluI o d r1 i => mkInst (op_of_alui o) (mkArgs d r1 0 (word i))
  | ShiftI sSLLI d r1 sh => mkInst MUL (mkArgs d r1 0 (2 ^ sh))
  | ShiftI sSRLI d r1 sh => mkInst DIVU (mkArgs d r1 0 (2 ^ sh))
  | ShiftI sSRAI d r1 sh => mkInst SRA (mkArgs d r1 0 sh)
  | Load w us d r1 i => mkInst (op_of_load w us) (mkArgs d 0 r1 (word i))
  | Store w r1 r2 i => mkInst (op_of_store w) (mkArgs 0 r2 r1 (word i))
  | Branch c r1 r2 off => mkInst (op_of_cond c) (mkArgs 0 r1 r2 (word (a + off)))
  | Lui d i => mkInst ADD (mkArgs d 0 0 (i * 2 ^ 12))
  | Auipc d i => mkInst ADD (mkArgs d 0 0 (word (a + i * 2 ^ 12)))
  | Jal d off => mkInst JALR (mkArgs d 0 0 (word (a + off)))
  | Jalr d r1 i => mkInst JALR (mkArgs d r1 0 (word i))
  | Ecall _ _ => ECALL_INST
  | Ebreak _ _ | Mret _ _ | Csr _ _ _ _ | Fence _ => NOP
  end.

(** Well-formed VM states: what the Rust types guarantee (32 registers of type u32, pc: u32, bytes in memory and
    tapes, tape positions inside the tape), plus x0 = 0. *)
Definition tape_ok (t : tape) : Prop :=
  Forall u8 (tdata t) /\ 0 <= read_index t <= Z.of_nat (length (tdata t)).
Record state_ok (s : state) : Prop := {
  ok_len : length (registers s) = 32%nat;
  ok_regs : Forall u32 (registers s);
  ok_x0 : registers s !! 0%nat = Some 0;
  ok_pc : u32 (pc s);
  ok_mem : map_Forall (fun a b => u32 a /\ u8 b) (mdata (smem s));
  ok_private : tape_ok (private_tape s);
  ok_public : tape_ok (public_tape s);
  ok_call : tape_ok (call_tape s);
  ok_event : tape_ok (event_tape s);
  ok_events_commitment : Forall u8 (events_commitment_tape s);
  ok_cast_list : Forall u8 (cast_list_commitment_tape s);
  ok_self_prog_id : Forall u8 (self_prog_id_tape s) }.

(** The value of register [r] of a state *)
Definition reg (s : state) (r : Z) : Z := nth (Z.to_nat r) (registers s) 0.

(** VM state [s] represents ISA machine [m]. *)
Definition represents (s : state) (m : machine) : Prop :=
  pc s = m_pc m /\
  (forall r, is_reg r -> reg s r = m_reg m r) /\
  (forall a, u32 a -> load_u8 s a = m_mem m a).

(** Everything of the VM state that is not pc, registers, memory contents or clock *)
Definition same_devices (s s' : state) : Prop :=
  halted s' = halted s /\ is_read_only (smem s') = is_read_only (smem s) /\
  private_tape s' = private_tape s /\ public_tape s' = public_tape s /\
  call_tape s' = call_tape s /\ event_tape s' = event_tape s /\
  events_commitment_tape s' = events_commitment_tape s /\
  cast_list_commitment_tape s' = cast_list_commitment_tape s /\
  self_prog_id_tape s' = self_prog_id_tape s.
