(** Model of the mozak-runner crate: instruction set, decoder, VM state and execution. *)
From Verif Require Export Word.
Open Scope Z_scope.

(** runner/src/instruction.rs:21-98 enum Op *)
Inductive op :=
| ADD | SUB | XOR | OR | AND | SLL | SRL | SRA | SLT | SLTU
| LB | LH | LW | LBU | LHU | SB | SH | SW
| BEQ | BNE | BLT | BGE | BLTU | BGEU | JALR | ECALL
| MUL | MULH | MULHU | MULHSU | DIV | DIVU | REM | REMU.
#[global] Instance op_eq_dec : EqDecision op.
Proof. solve_decision. Defined.

(** runner/src/instruction.rs:6-15 struct Args (rd, rs1, rs2 : u8; imm : u32) *)
Record args := mkArgs { rd : Z; rs1 : Z; rs2 : Z; imm : Z }.
(** runner/src/instruction.rs:113-118 struct Instruction *)
Record instruction := mkInst { iop : op; iargs : args }.

(** runner/src/instruction.rs:101-109 const NOP *)
Definition NOP : instruction := mkInst ADD (mkArgs 0 0 0 0).
(** runner/src/decode.rs:276-287 const ECALL; sdk/src/core/reg_abi.rs REG_ZERO=0, REG_A0=10, REG_A1=11 *)
Definition REG_A0 := 10. Definition REG_A1 := 11. Definition REG_A2 := 12. Definition REG_A3 := 13.
Definition ECALL_INST : instruction := mkInst ECALL (mkArgs 0 REG_A0 REG_A1 0).

(** bitfield crate: BitRange::bit_range(msb, lsb) on u32, used at decode.rs:26,225,232 and for InstructionBits *)
Definition bit_range (w msb lsb : Z) : Z := (Z.shiftr w lsb) mod 2 ^ (msb - lsb + 1).

(** runner/src/decode.rs:22-33 extract_immediate *)
Definition extract_immediate (word : Z) (segments : list (Z * Z)) (pad : Z) : Z :=
  let len := fold_right Z.add 0 (map (fun '(msb, lsb) => msb - lsb + 1) segments) in
  let u := fold_left (fun acc '(msb, lsb) =>
             Z.lor (wrap32 (Z.shiftl acc (msb - lsb + 1))) (bit_range word msb lsb)) segments 0 in
  wrap32 (Z.shiftr (as_i32 (wrap32 (Z.shiftl u (32 - len)))) (32 - len - pad)).

(** runner/src/decode.rs:35-58 bitfield! InstructionBits *)
Definition bf_opcode (w : Z) := bit_range w 6 0.
Definition bf_rd (w : Z) := bit_range w 11 7.
Definition bf_funct3 (w : Z) := bit_range w 14 12.
Definition bf_rs1 (w : Z) := bit_range w 19 15.
Definition bf_rs2 (w : Z) := bit_range w 24 20.
Definition bf_funct7 (w : Z) := bit_range w 31 25.
Definition bf_funct12 (w : Z) := bit_range w 31 20.

(** runner/src/instruction.rs:126-130 DecodingError {pc, instruction} as error payload; result of decode *)
Definition decode_result := sum instruction (Z * Z).
Definition DErr (pc word : Z) : decode_result := inr (pc, word).
Definition DOk (o : op) (a : args) : decode_result := inl (mkInst o a).

(** runner/src/decode.rs:83-274 decode_instruction.
    [match] on numeric literals is written as a chain of tests in the same order. *)
Definition decode_instruction (pc word : Z) : decode_result :=
  let r1 := bf_rs1 word in
  let r2 := bf_rs2 word in
  let d := bf_rd word in
  let stype := mkArgs 0 r2 r1 (extract_immediate word [(31,31);(30,25);(11,8);(7,7)] 0) in
  let rtype := mkArgs d r1 r2 0 in
  let itype := mkArgs d r1 0 (extract_immediate word [(31,20)] 0) in
  let itype_load := mkArgs d 0 r1 (extract_immediate word [(31,20)] 0) in
  let jtype := mkArgs d 0 0 (wadd (extract_immediate word [(31,31);(19,12);(20,20);(30,25);(24,21)] 1) pc) in
  let btype := mkArgs 0 r1 r2 (wadd (extract_immediate word [(31,31);(7,7);(30,25);(11,8)] 1) pc) in
  let utype := mkArgs d 0 0 (extract_immediate word [(31,12)] 12) in
  let utype_absolute := mkArgs d 0 0 (wadd (extract_immediate word [(31,12)] 12) pc) in
  let nop := DOk (iop NOP) (iargs NOP) in
  let default := DErr pc word in
  let opcode := bf_opcode word in
  let f3 := bf_funct3 word in
  let f7 := bf_funct7 word in
  let f12 := bf_funct12 word in
  if opcode =? 51 (* 0b011_0011 *) then
    if (f3 =? 0) && (f7 =? 0) then DOk ADD rtype
    else if (f3 =? 0) && (f7 =? 32) then DOk SUB rtype
    else if (f3 =? 1) && (f7 =? 0) then DOk SLL rtype
    else if (f3 =? 2) && (f7 =? 0) then DOk SLT rtype
    else if (f3 =? 3) && (f7 =? 0) then DOk SLTU rtype
    else if (f3 =? 4) && (f7 =? 0) then DOk XOR rtype
    else if (f3 =? 5) && (f7 =? 0) then DOk SRL rtype
    else if (f3 =? 5) && (f7 =? 32) then DOk SRA rtype
    else if (f3 =? 6) && (f7 =? 0) then DOk OR rtype
    else if (f3 =? 7) && (f7 =? 0) then DOk AND rtype
    else if (f3 =? 4) && (f7 =? 1) then DOk DIV rtype
    else if (f3 =? 5) && (f7 =? 1) then DOk DIVU rtype
    else if (f3 =? 6) && (f7 =? 1) then DOk REM rtype
    else if (f3 =? 7) && (f7 =? 1) then DOk REMU rtype
    else if (f3 =? 0) && (f7 =? 1) then DOk MUL rtype
    else if (f3 =? 1) && (f7 =? 1) then DOk MULH rtype
    else if (f3 =? 2) && (f7 =? 1) then DOk MULHSU rtype
    else if (f3 =? 3) && (f7 =? 1) then DOk MULHU rtype
    else default
  else if opcode =? 3 (* 0b000_0011 *) then
    if f3 =? 0 then DOk LB itype_load
    else if f3 =? 1 then DOk LH itype_load
    else if f3 =? 2 then DOk LW itype_load
    else if f3 =? 4 then DOk LBU itype_load
    else if f3 =? 5 then DOk LHU itype_load
    else default
  else if opcode =? 35 (* 0b010_0011 *) then
    if f3 =? 0 then DOk SB stype
    else if f3 =? 1 then DOk SH stype
    else if f3 =? 2 then DOk SW stype
    else default
  else if opcode =? 19 (* 0b001_0011 *) then
    if f3 =? 0 then DOk ADD itype
    else if (f3 =? 1) && (0 =? Z.land (imm itype) 4294967264 (* !0b1_1111 *)) then
      DOk MUL (mkArgs d r1 0 (wrap32 (Z.shiftl 1 (imm itype))))
    else if f3 =? 2 then DOk SLT itype
    else if f3 =? 3 then DOk SLTU itype
    else if f3 =? 4 then DOk XOR itype
    else if f3 =? 5 then
      let imm0 := imm itype in
      let imm_masked := bit_range imm0 4 0 in
      if bit_range imm0 11 5 =? 32 then DOk SRA (mkArgs d r1 0 imm_masked)
      else if bit_range imm0 11 5 =? 0 then
        DOk DIVU (mkArgs d r1 0 (wrap32 (Z.shiftl 1 imm_masked)))
      else default
    else if f3 =? 6 then DOk OR itype
    else if f3 =? 7 then DOk AND itype
    else default
  else if opcode =? 115 (* 0b111_0011 *) then
    if (f3 =? 0) && (f12 =? 0) then DOk (iop ECALL_INST) (iargs ECALL_INST)
    else if (f3 =? 0) && (f12 =? 770 (* 0x302 *)) then nop
    else if (f3 =? 0) && (f12 =? 1) then nop
    else if f3 =? 1 then nop
    else if f3 =? 2 then nop
    else if f3 =? 5 then nop
    else default
  else if opcode =? 111 (* 0b110_1111 *) then DOk JALR jtype
  else if opcode =? 103 (* 0b110_0111 *) then
    if f3 =? 0 then DOk JALR itype else default
  else if opcode =? 99 (* 0b110_0011 *) then
    if f3 =? 0 then DOk BEQ btype
    else if f3 =? 1 then DOk BNE btype
    else if f3 =? 4 then DOk BLT btype
    else if f3 =? 5 then DOk BGE btype
    else if f3 =? 6 then DOk BLTU btype
    else if f3 =? 7 then DOk BGEU btype
    else default
  else if opcode =? 55 (* 0b011_0111 *) then DOk ADD utype
  else if opcode =? 23 (* 0b001_0111 *) then DOk ADD utype_absolute
  else if opcode =? 15 (* 0b000_1111 *) then nop
  else default.

(** runner/src/state.rs:105-110 StorageDeviceTape (Rc<[u8]> as list) *)
Record tape := mkTape { tdata : list Z; read_index : Z }.

(** runner/src/state.rs:83-88 StateMemory *)
Record memory := mkMem { mdata : gmap Z Z; is_read_only : gset Z }.

(** runner/src/state.rs:62-79 State (PhantomData dropped) *)
Record state := mkState {
  clk : Z; halted : bool; registers : list Z; pc : Z; smem : memory;
  private_tape : tape; public_tape : tape; call_tape : tape; event_tape : tape;
  events_commitment_tape : list Z; cast_list_commitment_tape : list Z; self_prog_id_tape : list Z }.

Definition upd_clk (s : state) v := mkState v (halted s) (registers s) (pc s) (smem s) (private_tape s) (public_tape s) (call_tape s) (event_tape s) (events_commitment_tape s) (cast_list_commitment_tape s) (self_prog_id_tape s).
Definition upd_halted (s : state) v := mkState (clk s) v (registers s) (pc s) (smem s) (private_tape s) (public_tape s) (call_tape s) (event_tape s) (events_commitment_tape s) (cast_list_commitment_tape s) (self_prog_id_tape s).
Definition upd_regs (s : state) v := mkState (clk s) (halted s) v (pc s) (smem s) (private_tape s) (public_tape s) (call_tape s) (event_tape s) (events_commitment_tape s) (cast_list_commitment_tape s) (self_prog_id_tape s).
Definition upd_pc (s : state) v := mkState (clk s) (halted s) (registers s) v (smem s) (private_tape s) (public_tape s) (call_tape s) (event_tape s) (events_commitment_tape s) (cast_list_commitment_tape s) (self_prog_id_tape s).
Definition upd_mem (s : state) v := mkState (clk s) (halted s) (registers s) (pc s) v (private_tape s) (public_tape s) (call_tape s) (event_tape s) (events_commitment_tape s) (cast_list_commitment_tape s) (self_prog_id_tape s).
Definition upd_private (s : state) v := mkState (clk s) (halted s) (registers s) (pc s) (smem s) v (public_tape s) (call_tape s) (event_tape s) (events_commitment_tape s) (cast_list_commitment_tape s) (self_prog_id_tape s).
Definition upd_public (s : state) v := mkState (clk s) (halted s) (registers s) (pc s) (smem s) (private_tape s) v (call_tape s) (event_tape s) (events_commitment_tape s) (cast_list_commitment_tape s) (self_prog_id_tape s).
Definition upd_call (s : state) v := mkState (clk s) (halted s) (registers s) (pc s) (smem s) (private_tape s) (public_tape s) v (event_tape s) (events_commitment_tape s) (cast_list_commitment_tape s) (self_prog_id_tape s).
Definition upd_event (s : state) v := mkState (clk s) (halted s) (registers s) (pc s) (smem s) (private_tape s) (public_tape s) (call_tape s) v (events_commitment_tape s) (cast_list_commitment_tape s) (self_prog_id_tape s).

(** runner/src/code.rs:20-35 Code, get_instruction *)
Definition code := gmap Z decode_result.

(** runner/src/elf.rs:16-31 Program *)
Record program := mkProgram { entry_point : Z; ro_memory : gmap Z Z; rw_memory : gmap Z Z; ro_code : code }.

(** runner/src/state.rs:175-179 MemEntry *)
Record mem_entry := mkMemEntry { me_addr : Z; me_raw_value : Z }.
(** runner/src/state.rs:181-193 StorageDeviceOpcode *)
Inductive sd_op := SdNone | StorePrivate | StorePublic | StoreCallTape | StoreEventTape
  | StoreEventsCommitmentTape | StoreCastListCommitmentTape | StoreSelfProgIdTape.
#[global] Instance sd_op_eq_dec : EqDecision sd_op.
Proof. solve_decision. Defined.
(** runner/src/state.rs:195-200 StorageDeviceEntry *)
Record sd_entry := mkSd { sd_addr : Z; sd_opcode : sd_op; sd_data : list Z }.
(** runner/src/poseidon2.rs:13-26 SpongeData, Entry (field elements as Z) *)
Record sponge_data := mkSponge { preimage : list Z; output : list Z; gen_output : Z }.
Record p2_entry := mkP2 { p2_addr : Z; p2_output_addr : Z; p2_len : Z; p2_sponge : list sponge_data }.

(** runner/src/state.rs:202-217 Aux *)
Record aux := mkAux {
  dst_val : Z; new_pc : Z; amem : option mem_entry; mem_addresses_used : list Z; will_halt : bool;
  op1 : Z; op2 : Z; op2_raw : Z; poseidon2 : option p2_entry; storage_device_entry : option sd_entry }.
Definition aux_default : aux := mkAux 0 0 None [] false 0 0 0 None None.
Definition aux_dst (v : Z) : aux := mkAux v 0 None [] false 0 0 0 None None.

(** runner/src/state.rs:340-389 halt, has_halted, get/set_register_value, set_pc, get_pc, bump_pc, bump_clock *)
Definition halt (s : state) : state := upd_halted s true.
Definition get_reg (s : state) (i : Z) : res Z :=
  match registers s !! Z.to_nat i with Some v => Ok v | None => Panic PIndex end.
Definition set_reg (s : state) (i v : Z) : res state :=
  if i =? 0 then Ok s
  else if (Z.to_nat i <? length (registers s))%nat then Ok (upd_regs s (<[Z.to_nat i := v]> (registers s)))
  else Panic PIndex.
Definition set_pc (s : state) (v : Z) : state := upd_pc s v.
Definition bump_pc (s : state) : state := set_pc s (wadd (pc s) 4).
Definition bump_clock (s : state) : state := upd_clk s (clk s + 1).

(** runner/src/state.rs:408-416 load_u8 *)
Definition load_u8 (s : state) (addr : Z) : Z := default 0 (mdata (smem s) !! addr).
(** runner/src/state.rs:418-434 store_u8, with the [.unwrap()] every caller applies *)
Definition store_u8 (s : state) (addr value : Z) : res state :=
  if decide (addr ∈ is_read_only (smem s)) then Panic (PReadOnly addr)
  else Ok (upd_mem s (mkMem (<[addr := value]> (mdata (smem s))) (is_read_only (smem s)))).

(** the [.fold(self, |acc, (i, byte)| acc.store_u8(i, byte).unwrap())] loops of vm.rs:125-129,
    ecall.rs:85-92 and poseidon2.rs:117-123 *)
Fixpoint store_bytes (s : state) (l : list (Z * Z)) : res state :=
  match l with
  | [] => Ok s
  | (a, b) :: r => s' <-- store_u8 s a b ;; store_bytes s' r
  end.

(** runner/src/state.rs:436-447 current_instruction *)
Definition current_instruction (s : state) (p : program) : option decode_result := ro_code p !! pc s.

(** runner/src/vm.rs:9-57 *)
Definition mulh (a b : Z) : Z := wrap32 (Z.shiftr (as_i32 a * as_i32 b) 32).
Definition mulhu (a b : Z) : Z := wrap32 (Z.shiftr (a * b) 32).
Definition mulhsu (a b : Z) : Z := wrap32 (Z.shiftr (as_i32 a * b) 32).
(** overflowing_div on i32 is truncating division wrapped to 32 bits *)
Definition div (a b : Z) : Z :=
  if as_i32 b =? 0 then 4294967295 else wrap32 (Z.quot (as_i32 a) (as_i32 b)).
Definition divu (a b : Z) : Z := if b =? 0 then 4294967295 else a / b.
Definition rem (a b : Z) : Z :=
  if as_i32 b =? 0 then wrap32 (as_i32 a)
  else if (as_i32 a =? -2147483648) && (as_i32 b =? -1) then 0
  else wrap32 (Z.rem (as_i32 a) (as_i32 b)).
Definition remu (a b : Z) : Z := if b =? 0 then a else a mod b.

(** runner/src/vm.rs:59-92 dup, lbu_raw .. lw on the four bytes at the address *)
Definition lbu_raw (m : list Z) : Z := nth 0 m 0.
Definition lbu m : Z * Z := (lbu_raw m, lbu_raw m).
Definition lb m : Z * Z := (lbu_raw m, wrap32 (as_i8 (lbu_raw m))).
Definition lhu_raw (m : list Z) : Z := nth 0 m 0 + 256 * nth 1 m 0.
Definition lhu m : Z * Z := (lhu_raw m, lhu_raw m).
Definition lh m : Z * Z := (lhu_raw m, wrap32 (as_i16 (lhu_raw m))).
Definition lw (m : list Z) : Z * Z :=
  let v := from_le_bytes32 (nth 0 m 0) (nth 1 m 0) (nth 2 m 0) (nth 3 m 0) in (v, v).

(** [(0..n).map(|i| addr.wrapping_add(i))] *)
Definition addr_range (addr : Z) (n : nat) : list Z := map (fun i => wadd addr (Z.of_nat i)) (seq 0 n).

(** runner/src/state.rs:266-283 register_op *)
Definition register_op (s : state) (a : args) (f : Z -> Z -> Z) : res (aux * state) :=
  o1 <-- get_reg s (rs1 a) ;;
  r2 <-- get_reg s (rs2 a) ;;
  let o2 := wadd r2 (imm a) in
  let d := f o1 o2 in
  s' <-- set_reg s (rd a) d ;;
  Ok (aux_dst d, bump_pc s').

(** runner/src/state.rs:285-318 memory_load *)
Definition memory_load (s : state) (a : args) (bytes : nat) (f : list Z -> Z * Z) : res (aux * state) :=
  r2 <-- get_reg s (rs2 a) ;;
  let addr := wadd r2 (imm a) in
  let used := addr_range addr 4 in
  let '(raw, d) := f (map (load_u8 s) used) in
  s' <-- set_reg s (rd a) d ;;
  Ok (mkAux d 0 (Some (mkMemEntry addr raw)) (take bytes used) false 0 0 0 None None, bump_pc s').

(** runner/src/state.rs:320-334 branch_op *)
Definition branch_op (s : state) (a : args) (f : Z -> Z -> bool) : res (aux * state) :=
  o1 <-- get_reg s (rs1 a) ;;
  o2 <-- get_reg s (rs2 a) ;;
  Ok (aux_default, if f o1 o2 then set_pc s (imm a) else bump_pc s).

(** runner/src/vm.rs:95-106 jalr; [& !1] clears bit 0 *)
Definition jalr (s : state) (a : args) : res (aux * state) :=
  o1 <-- get_reg s (rs1 a) ;;
  let npc := Z.land (wadd o1 (imm a)) 4294967294 in
  let d := wadd (pc s) 4 in
  s' <-- set_reg (set_pc s npc) (rd a) d ;;
  Ok (aux_dst d, s').

(** runner/src/vm.rs:108-132 store (bytes is 1, 2 or 4) *)
Definition store (s : state) (a : args) (bytes : nat) : res (aux * state) :=
  let mask := Z.shiftr 4294967295 (32 - 8 * Z.of_nat bytes) in
  r1 <-- get_reg s (rs1 a) ;;
  r2 <-- get_reg s (rs2 a) ;;
  let raw := Z.land r1 mask in
  let addr := wadd r2 (imm a) in
  let used := addr_range addr bytes in
  s' <-- store_bytes s (combine used (to_le_bytes32 raw)) ;;
  Ok (mkAux raw 0 (Some (mkMemEntry addr raw)) used false 0 0 0 None None, bump_pc s').

(** runner/src/state.rs:27-42 read_bytes: (bytes read, new index); [None] = subtraction underflow panic,
    which cannot happen for an index produced by read_bytes itself *)
Definition read_bytes (buf : list Z) (index num : Z) : res (list Z * Z) :=
  let blen := Z.of_nat (length buf) in
  if blen <? index then Panic POverflow
  else
    let limit := Z.min num (blen - index) in
    Ok (take (Z.to_nat limit) (drop (Z.to_nat index) buf), index + limit).

Definition read_tape (t : tape) (num : Z) : res (list Z * tape) :=
  r <-- read_bytes (tdata t) (read_index t) num ;;
  Ok (fst r, mkTape (tdata t) (snd r)).

(** runner/src/ecall.rs:12-22 ecall_halt *)
Definition ecall_halt (s : state) : res (aux * state) :=
  Ok (mkAux 0 0 None [] true 0 0 0 None None, halt s).

(** runner/src/ecall.rs:24-96 ecall_read: selection of the tape ... *)
Definition ecall_fetch (s : state) (o : sd_op) (num : Z) : res (list Z * state) :=
  match o with
  | StorePublic => r <-- read_tape (public_tape s) num ;; Ok (fst r, upd_public s (snd r))
  | StorePrivate => r <-- read_tape (private_tape s) num ;; Ok (fst r, upd_private s (snd r))
  | StoreCallTape => r <-- read_tape (call_tape s) num ;; Ok (fst r, upd_call s (snd r))
  | StoreEventTape => r <-- read_tape (event_tape s) num ;; Ok (fst r, upd_event s (snd r))
  | StoreEventsCommitmentTape => r <-- read_bytes (events_commitment_tape s) 0 num ;; Ok (fst r, s)
  | StoreCastListCommitmentTape => r <-- read_bytes (cast_list_commitment_tape s) 0 num ;; Ok (fst r, s)
  | StoreSelfProgIdTape => r <-- read_bytes (self_prog_id_tape s) 0 num ;; Ok (fst r, s)
  | SdNone => Panic PAssert
  end.
(** ... and the copy to memory. [data.len()] always fits u32 because it is at most the u32 request. *)
Definition ecall_read (s : state) (o : sd_op) : res (aux * state) :=
  buffer_start <-- get_reg s REG_A1 ;;
  num <-- get_reg s REG_A2 ;;
  r <-- ecall_fetch s o num ;;
  let data := fst r in
  let n := length data in
  let used := addr_range buffer_start n in
  s' <-- store_bytes (snd r) (combine used data) ;;
  Ok (mkAux (Z.of_nat n) 0 None used false 0 0 0 None (Some (mkSd buffer_start o data)), bump_pc s').

(** Bytes of the message at [msg_ptr .. msg_ptr + msg_len) (ecall.rs:104-109, 123-128): the plain u32 addition
    panics on overflow. The message only goes to the log, so only "is it valid UTF-8" matters. *)
Definition read_msg (s : state) (ptr len : Z) : res (list Z) :=
  if ptr + len <? 4294967296
  then Ok (map (fun i => load_u8 s (ptr + Z.of_nat i)) (seq 0 (Z.to_nat len)))
  else Panic POverflow.

Section External.
  (** plonky2's Poseidon2 permutation on 12 field elements (external to the repository). *)
  Variable permute : list Z -> list Z.
  (** core::str::from_utf8(..).is_ok() (Rust standard library) *)
  Variable utf8_ok : list Z -> bool.

  (** runner/src/ecall.rs:98-114 ecall_panic: always panics, with one message or the other *)
  Definition ecall_panic (s : state) : res (aux * state) :=
    p <-- get_reg s REG_A1 ;;
    l <-- get_reg s REG_A2 ;;
    m <-- read_msg s p l ;;
    if utf8_ok m then Panic PGuest else Panic PUtf8.

  (** runner/src/ecall.rs:116-134 ecall_trace_log *)
  Definition ecall_trace_log (s : state) : res (aux * state) :=
    p <-- get_reg s REG_A1 ;;
    l <-- get_reg s REG_A2 ;;
    m <-- read_msg s p l ;;
    if utf8_ok m then Ok (aux_default, bump_pc s) else Panic PUtf8.

  (** runner/src/poseidon2.rs:37-80 hash_n_to_m_no_pad. RATE = 8, WIDTH = 12, NUM_HASH_OUT_ELTS = 4.
      [set_from_slice(chunk, 0)] overwrites the first 8 lanes; [squeeze] returns the first 8 lanes. *)
  Definition overwrite (st chunk : list Z) : list Z := chunk ++ drop (length chunk) st.
  Fixpoint absorb (fuel : nat) (st : list Z) (inputs : list Z) : list Z * list sponge_data :=
    match fuel with
    | O => (st, [])
    | S fuel' =>
      match inputs with
      | [] => (st, [])
      | _ =>
        let pre := overwrite st (take 8 inputs) in
        let out := permute pre in
        let '(fin, rest) := absorb fuel' out (drop 8 inputs) in
        (fin, mkSponge pre out 0 :: rest)
      end
    end.
  Fixpoint mark_last (l : list sponge_data) : option (list sponge_data) :=
    match l with
    | [] => None
    | [d] => Some [mkSponge (preimage d) (output d) 1]
    | d :: r => match mark_last r with Some r' => Some (d :: r') | None => None end
    end.
  Definition hash_n_to_m_no_pad (inputs : list Z) : res (list Z * list sponge_data) :=
    if negb (Z.of_nat (length inputs) mod 8 =? 0) then Panic PAssert
    else
      let '(st, sp) := absorb (length inputs) (repeat 0 12) inputs in
      match mark_last sp with
      | None => Panic PAssert
      | Some sp' => Ok (take 4 st, sp')
      end.

  (** HashOut::to_bytes: each of the 4 elements (canonical u64) as 8 little-endian bytes *)
  Definition hash_to_bytes (h : list Z) : list Z := flat_map (le_bytes 8) h.

  (** runner/src/poseidon2.rs:83-128 ecall_poseidon2. [input_ptr + i] panics on overflow.
      [assert_eq!(DIGEST_BYTES, hash.len())] is kept. *)
  Definition ecall_poseidon2 (s : state) : res (aux * state) :=
    input_ptr <-- get_reg s REG_A1 ;;
    input_len <-- get_reg s REG_A2 ;;
    output_ptr <-- get_reg s REG_A3 ;;
    if (0 <? input_len) && (4294967296 <? input_ptr + input_len) then Panic POverflow
    else
      let input := map (fun i => load_u8 s (input_ptr + Z.of_nat i)) (seq 0 (Z.to_nat input_len)) in
      r <-- hash_n_to_m_no_pad input ;;
      let hash := hash_to_bytes (fst r) in
      if negb (length hash =? 32)%nat then Panic PAssert
      else
        let used := addr_range input_ptr (Z.to_nat input_len) ++ addr_range output_ptr 32 in
        s' <-- store_bytes s (combine (addr_range output_ptr 32) hash) ;;
        Ok (mkAux 0 0 None used false 0 0 0
              (Some (mkP2 input_ptr output_ptr ((input_len + 7) / 8 * 8) (snd r))) None,
            bump_pc s').

  (** runner/src/ecall.rs:136-156 ecall; numbers from sdk/src/core/ecall.rs:7-18 *)
  Definition ecall (s : state) : res (aux * state) :=
    a0 <-- get_reg s REG_A0 ;;
    if a0 =? 0 then ecall_halt s
    else if a0 =? 2 then ecall_read s StorePrivate
    else if a0 =? 4 then ecall_read s StorePublic
    else if a0 =? 5 then ecall_read s StoreCallTape
    else if a0 =? 6 then ecall_read s StoreEventTape
    else if a0 =? 7 then ecall_read s StoreEventsCommitmentTape
    else if a0 =? 8 then ecall_read s StoreCastListCommitmentTape
    else if a0 =? 9 then ecall_read s StoreSelfProgIdTape
    else if a0 =? 1 then ecall_panic s
    else if a0 =? 3 then ecall_poseidon2 s
    else if a0 =? 10 then ecall_trace_log s
    else Ok (aux_default, bump_pc s).

  (** runner/src/vm.rs:178-221 the [match inst.op] of execute_instruction *)
  Definition dispatch (s : state) (i : instruction) : res (aux * state) :=
    let a := iargs i in
    match iop i with
    | ADD => register_op s a wadd
    | SLL => register_op s a (fun x y => wrap32 (Z.shiftl x (Z.land y 31)))
    | SRL => register_op s a (fun x y => Z.shiftr x (Z.land y 31))
    | SRA => register_op s a (fun x y => wrap32 (Z.shiftr (as_i32 x) (Z.land y 31)))
    | SLT => register_op s a (fun x y => b2z (as_i32 x <? as_i32 y))
    | SLTU => register_op s a (fun x y => b2z (x <? y))
    | AND => register_op s a Z.land
    | OR => register_op s a Z.lor
    | XOR => register_op s a Z.lxor
    | SUB => register_op s a wsub
    | LB => memory_load s a 1 lb
    | LBU => memory_load s a 1 lbu
    | LH => memory_load s a 2 lh
    | LHU => memory_load s a 2 lhu
    | LW => memory_load s a 4 lw
    | ECALL => ecall s
    | JALR => jalr s a
    | BEQ => branch_op s a (fun x y => x =? y)
    | BNE => branch_op s a (fun x y => negb (x =? y))
    | BLT => branch_op s a (fun x y => as_i32 x <? as_i32 y)
    | BLTU => branch_op s a (fun x y => x <? y)
    | BGE => branch_op s a (fun x y => as_i32 y <=? as_i32 x)
    | BGEU => branch_op s a (fun x y => y <=? x)
    | SW => store s a 4
    | SH => store s a 2
    | SB => store s a 1
    | MUL => register_op s a wmul
    | MULH => register_op s a mulh
    | MULHU => register_op s a mulhu
    | MULHSU => register_op s a mulhsu
    | DIV => register_op s a div
    | DIVU => register_op s a divu
    | REM => register_op s a rem
    | REMU => register_op s a remu
    end.

  (** runner/src/vm.rs:164-176 the [op2] auxiliary value *)
  Definition op2_of (i : instruction) (rs2_raw : Z) : Z :=
    match iop i with
    | BEQ | BNE | BLT | BLTU | BGE | BGEU => rs2_raw
    | SRL | SLL | SRA => Z.shiftl 1 (Z.land (wadd rs2_raw (imm (iargs i))) 31)
    | _ => wadd rs2_raw (imm (iargs i))
    end.

  (** runner/src/vm.rs:134-235 execute_instruction *)
  Definition execute_instruction (s : state) (p : program) : res (aux * instruction * state) :=
    match current_instruction s p with
    | None => Err ENoInstruction
    | Some (inr (epc, ew)) => Err (EUnknownInstruction epc ew)
    | Some (inl i) =>
      o1 <-- get_reg s (rs1 (iargs i)) ;;
      r2 <-- get_reg s (rs2 (iargs i)) ;;
      let o2 := op2_of i r2 in
      r <-- dispatch s i ;;
      let '(a, s') := r in
      Ok (mkAux (dst_val a) (pc s') (amem a) (mem_addresses_used a) (will_halt a)
            o1 o2 r2 (poseidon2 a) (storage_device_entry a),
          i, bump_clock s')
    end.

  (** runner/src/vm.rs:238-245 Row, 260-267 ExecutionRecord *)
  Record row := mkRow { rstate : state; raux : aux; rinst : instruction }.
  Record record := mkRecord { executed : list row; last_state : state }.

  (** runner/src/vm.rs:288-335 step. [limit] is the debug-only MOZAK_MAX_LOOPS check ([None] in release);
      the [while] loop gets fuel and answers [Panic PFuel] when it does not end in time.
      The MOZAK_COUNT_OPS statistics printing is not modelled. *)
  Fixpoint step (limit : option Z) (p : program) (fuel : nat) (s : state) : res record :=
    match fuel with
    | O => Panic PFuel
    | S fuel' =>
      if halted s then Ok (mkRecord [] s)
      else
        r <-- execute_instruction s p ;;
        let '(a, i, s') := r in
        if (match limit with Some l => clk s' =? l | None => false end) then Panic PMaxLoops
        else
          rec <-- step limit p fuel' s' ;;
          Ok (mkRecord (mkRow s a i :: executed rec) (last_state rec))
    end.
End External.
