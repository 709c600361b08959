(** Independent specification of RV32IM: syntax, binary encoding and meaning of instructions, written from the
    RISC-V unprivileged manual (not from the repository), over plain integers. *)
From Coq Require Import ZArith List Lia Bool.
Import ListNotations.
Open Scope Z_scope.

Inductive alu := rADD | rSUB | rSLL | rSLT | rSLTU | rXOR | rSRL | rSRA | rOR | rAND
  | rMUL | rMULH | rMULHSU | rMULHU | rDIV | rDIVU | rREM | rREMU.
Inductive alui := iADDI | iSLTI | iSLTIU | iXORI | iORI | iANDI.
Inductive shifti := sSLLI | sSRLI | sSRAI.
Inductive width := wB | wH | wW.
Inductive cond := cEQ | cNE | cLT | cGE | cLTU | cGEU.

(** Instructions. Immediates are the signed values of the manual; offsets are in bytes.
    The last group is what the VM treats as a no-op: FENCE (opcode MISC-MEM, all other bits free), EBREAK, MRET
    and CSRRW / CSRRS / CSRRWI. For the SYSTEM instructions the rd / rs1 fields are kept as parameters, because the
    VM accepts any value in them. *)
Inductive rv32 :=
| Alu (o : alu) (rd rs1 rs2 : Z)
| AluI (o : alui) (rd rs1 imm : Z)
| ShiftI (o : shifti) (rd rs1 shamt : Z)
| Load (w : width) (unsigned : bool) (rd rs1 imm : Z)
| Store (w : width) (rs1 rs2 imm : Z)         (* mem[x[rs1] + imm] := x[rs2] *)
| Branch (c : cond) (rs1 rs2 offset : Z)
| Lui (rd imm : Z)
| Auipc (rd imm : Z)
| Jal (rd offset : Z)
| Jalr (rd rs1 imm : Z)
| Ecall (rd rs1 : Z)
| Ebreak (rd rs1 : Z)
| Mret (rd rs1 : Z)
| Csr (f3 rd rs1 csr : Z)
| Fence (rest : Z).

Definition is_reg (r : Z) := 0 <= r < 32.
Definition is_imm12 (i : Z) := -2048 <= i < 2048.

(** Well-formed instructions *)
Definition rv_ok (r : rv32) : Prop :=
  match r with
  | Alu _ rd rs1 rs2 => is_reg rd /\ is_reg rs1 /\ is_reg rs2
  | AluI _ rd rs1 i => is_reg rd /\ is_reg rs1 /\ is_imm12 i
  | ShiftI _ rd rs1 sh => is_reg rd /\ is_reg rs1 /\ 0 <= sh < 32
  | Load w u rd rs1 i => is_reg rd /\ is_reg rs1 /\ is_imm12 i /\ (w = wW -> u = false)
  | Store _ rs1 rs2 i => is_reg rs1 /\ is_reg rs2 /\ is_imm12 i
  | Branch _ rs1 rs2 off => is_reg rs1 /\ is_reg rs2 /\ -4096 <= off < 4096 /\ off mod 2 = 0
  | Lui rd i | Auipc rd i => is_reg rd /\ 0 <= i < 1048576
  | Jal rd off => is_reg rd /\ -1048576 <= off < 1048576 /\ off mod 2 = 0
  | Jalr rd rs1 i => is_reg rd /\ is_reg rs1 /\ is_imm12 i
  | Ecall rd rs1 | Ebreak rd rs1 | Mret rd rs1 => is_reg rd /\ is_reg rs1
  | Csr f3 rd rs1 csr => (f3 = 1 \/ f3 = 2 \/ f3 = 5) /\ is_reg rd /\ is_reg rs1 /\ 0 <= csr < 4096
  | Fence rest => 0 <= rest < 33554432
  end.

(** Bits hi..lo of a (possibly negative, two's complement) integer *)
Definition bits (v hi lo : Z) : Z := (v / 2 ^ lo) mod 2 ^ (hi - lo + 1).

(** The six instruction formats (unprivileged manual, section "Base Instruction Formats") *)
Definition enc_R (opc f3 f7 rd rs1 rs2 : Z) :=
  f7 * 2^25 + rs2 * 2^20 + rs1 * 2^15 + f3 * 2^12 + rd * 2^7 + opc.
Definition enc_I (opc f3 rd rs1 i : Z) :=
  bits i 11 0 * 2^20 + rs1 * 2^15 + f3 * 2^12 + rd * 2^7 + opc.
Definition enc_S (opc f3 rs1 rs2 i : Z) :=
  bits i 11 5 * 2^25 + rs2 * 2^20 + rs1 * 2^15 + f3 * 2^12 + bits i 4 0 * 2^7 + opc.
Definition enc_B (opc f3 rs1 rs2 i : Z) :=
  bits i 12 12 * 2^31 + bits i 10 5 * 2^25 + rs2 * 2^20 + rs1 * 2^15 + f3 * 2^12
  + bits i 4 1 * 2^8 + bits i 11 11 * 2^7 + opc.
Definition enc_U (opc rd i : Z) := i * 2^12 + rd * 2^7 + opc.
Definition enc_J (opc rd i : Z) :=
  bits i 20 20 * 2^31 + bits i 10 1 * 2^21 + bits i 11 11 * 2^20 + bits i 19 12 * 2^12 + rd * 2^7 + opc.

Definition alu_codes (o : alu) : Z * Z := (* funct3, funct7 *)
  match o with
  | rADD => (0, 0) | rSUB => (0, 32) | rSLL => (1, 0) | rSLT => (2, 0) | rSLTU => (3, 0) | rXOR => (4, 0)
  | rSRL => (5, 0) | rSRA => (5, 32) | rOR => (6, 0) | rAND => (7, 0)
  | rMUL => (0, 1) | rMULH => (1, 1) | rMULHSU => (2, 1) | rMULHU => (3, 1)
  | rDIV => (4, 1) | rDIVU => (5, 1) | rREM => (6, 1) | rREMU => (7, 1)
  end.
Definition alui_code (o : alui) : Z :=
  match o with iADDI => 0 | iSLTI => 2 | iSLTIU => 3 | iXORI => 4 | iORI => 6 | iANDI => 7 end.
Definition load_code (w : width) (u : bool) : Z :=
  match w with wB => 0 | wH => 1 | wW => 2 end + (if u then 4 else 0).
Definition store_code (w : width) : Z := match w with wB => 0 | wH => 1 | wW => 2 end.
Definition cond_code (c : cond) : Z :=
  match c with cEQ => 0 | cNE => 1 | cLT => 4 | cGE => 5 | cLTU => 6 | cGEU => 7 end.

Definition encode (r : rv32) : Z :=
  match r with
  | Alu o rd rs1 rs2 => enc_R 51 (fst (alu_codes o)) (snd (alu_codes o)) rd rs1 rs2
  | AluI o rd rs1 i => enc_I 19 (alui_code o) rd rs1 i
  | ShiftI sSLLI rd rs1 sh => enc_R 19 1 0 rd rs1 sh
  | ShiftI sSRLI rd rs1 sh => enc_R 19 5 0 rd rs1 sh
  | ShiftI sSRAI rd rs1 sh => enc_R 19 5 32 rd rs1 sh
  | Load w u rd rs1 i => enc_I 3 (load_code w u) rd rs1 i
  | Store w rs1 rs2 i => enc_S 35 (store_code w) rs1 rs2 i
  | Branch c rs1 rs2 off => enc_B 99 (cond_code c) rs1 rs2 off
  | Lui rd i => enc_U 55 rd i
  | Auipc rd i => enc_U 23 rd i
  | Jal rd off => enc_J 111 rd off
  | Jalr rd rs1 i => enc_I 103 0 rd rs1 i
  | Ecall rd rs1 => enc_I 115 0 rd rs1 0
  | Ebreak rd rs1 => enc_I 115 0 rd rs1 1
  | Mret rd rs1 => enc_I 115 0 rd rs1 770
  | Csr f3 rd rs1 csr => enc_I 115 f3 rd rs1 csr
  | Fence rest => rest * 2^7 + 15
  end.

(** ------------------------------------------------------------------------------------------------
    Meaning. A machine is a pc, registers and byte memory, all values being unsigned integers. *)
Record machine := mkMachine { m_pc : Z; m_reg : Z -> Z; m_mem : Z -> Z }.

Definition M32 : Z := 2 ^ 32.
Definition word (z : Z) : Z := z mod M32.                               (* the 32-bit word denoting z *)
Definition sg (w : Z) : Z := if w <? 2 ^ 31 then w else w - M32.      (* signed value of a word *)

Definition alu_sem (o : alu) (a b : Z) : Z :=
  match o with
  | rADD => word (a + b)
  | rSUB => word (a - b)
  | rSLL => word (a * 2 ^ (b mod 32))
  | rSLT => if sg a <? sg b then 1 else 0
  | rSLTU => if a <? b then 1 else 0
  | rXOR => Z.lxor a b
  | rSRL => a / 2 ^ (b mod 32)
  | rSRA => word (sg a / 2 ^ (b mod 32))
  | rOR => Z.lor a b
  | rAND => Z.land a b
  | rMUL => word (a * b)
  | rMULH => word (sg a * sg b / M32)
  | rMULHSU => word (sg a * b / M32)
  | rMULHU => word (a * b / M32)
  | rDIV => if b =? 0 then M32 - 1 else word (Z.quot (sg a) (sg b))
  | rDIVU => if b =? 0 then M32 - 1 else a / b
  | rREM => if b =? 0 then a else word (Z.rem (sg a) (sg b))
  | rREMU => if b =? 0 then a else a mod b
  end.

Definition alui_sem (o : alui) (a i : Z) : Z :=
  match o with
  | iADDI => word (a + i)
  | iSLTI => if sg a <? i then 1 else 0
  | iSLTIU => if a <? word i then 1 else 0
  | iXORI => Z.lxor a (word i)
  | iORI => Z.lor a (word i)
  | iANDI => Z.land a (word i)
  end.
Definition shifti_sem (o : shifti) (a sh : Z) : Z :=
  match o with
  | sSLLI => word (a * 2 ^ sh)
  | sSRLI => a / 2 ^ sh
  | sSRAI => word (sg a / 2 ^ sh)
  end.
Definition cond_sem (c : cond) (a b : Z) : bool :=
  match c with
  | cEQ => a =? b | cNE => negb (a =? b)
  | cLT => sg a <? sg b | cGE => negb (sg a <? sg b)
  | cLTU => a <? b | cGEU => negb (a <? b)
  end.

Definition nbytes (w : width) : nat := match w with wB => 1 | wH => 2 | wW => 4 end.
(** little-endian value of the n bytes at address a (addresses modulo 2^32) *)
Fixpoint mem_value (mem : Z -> Z) (a : Z) (n : nat) : Z :=
  match n with
  | O => 0
  | S n' => mem (word a) + 256 * mem_value mem (a + 1) n'
  end.
(** storing the n low bytes of v at address a *)
Fixpoint mem_store (mem : Z -> Z) (a : Z) (n : nat) (v : Z) : Z -> Z :=
  match n with
  | O => mem
  | S n' => mem_store (fun x => if x =? word a then v mod 256 else mem x) (a + 1) n' (v / 256)
  end.
(** sign extension of an n-byte value *)
Definition sext (n : nat) (v : Z) : Z :=
  if v <? 2 ^ (8 * Z.of_nat n - 1) then v else word (v - 2 ^ (8 * Z.of_nat n)).

Definition wr (regs : Z -> Z) (rd v : Z) : Z -> Z :=
  fun r => if (r =? rd) && negb (rd =? 0) then v else regs r.

(** Effect of every instruction except ECALL (whose effect is the environment's) *)
Definition exec (r : rv32) (m : machine) : machine :=
  let x := m_reg m in
  let next := word (m_pc m + 4) in
  match r with
  | Alu o rd rs1 rs2 => mkMachine next (wr x rd (alu_sem o (x rs1) (x rs2))) (m_mem m)
  | AluI o rd rs1 i => mkMachine next (wr x rd (alui_sem o (x rs1) i)) (m_mem m)
  | ShiftI o rd rs1 sh => mkMachine next (wr x rd (shifti_sem o (x rs1) sh)) (m_mem m)
  | Load w us rd rs1 i =>
      let v := mem_value (m_mem m) (x rs1 + i) (nbytes w) in
      mkMachine next (wr x rd (if us then v else sext (nbytes w) v)) (m_mem m)
  | Store w rs1 rs2 i => mkMachine next x (mem_store (m_mem m) (x rs1 + i) (nbytes w) (x rs2))
  | Branch c rs1 rs2 off =>
      mkMachine (if cond_sem c (x rs1) (x rs2) then word (m_pc m + off) else next) x (m_mem m)
  | Lui rd i => mkMachine next (wr x rd (i * 2 ^ 12)) (m_mem m)
  | Auipc rd i => mkMachine next (wr x rd (word (m_pc m + i * 2 ^ 12))) (m_mem m)
  | Jal rd off => mkMachine (word (m_pc m + off)) (wr x rd next) (m_mem m)
  | Jalr rd rs1 i => mkMachine (2 * (word (x rs1 + i) / 2)) (wr x rd next) (m_mem m)
  | _ => mkMachine next x (m_mem m)
  end.

(** Addresses written by an instruction *)
Definition writes (r : rv32) (m : machine) : list Z :=
  match r with
  | Store w rs1 _ i => map (fun k => word (m_reg m rs1 + i + Z.of_nat k)) (seq 0 (nbytes w))
  | _ => []
  end.

Definition is_ecall (r : rv32) : bool := match r with Ecall _ _ => true | _ => false end.
