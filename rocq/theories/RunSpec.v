(** Specification vocabulary for runs of the VM. *)
From Verif Require Export RunnerSpec LoadModel.
Open Scope Z_scope.

Section Run.
  Variable permute : list Z -> list Z.
  Variable utf8_ok : list Z -> bool.

  (** [s'] is reached from [s] by executing any number of instructions (a halted state executes nothing). *)
  Inductive reach (p : program) (s : state) : state -> Prop :=
  | reach_refl : reach p s s
  | reach_step s1 a i s2 : reach p s s1 -> halted s1 = false ->
      execute_instruction permute utf8_ok s1 p = Ok (a, i, s2) -> reach p s s2.
End Run.

(** Programs and tapes as the Rust types allow them: 32-bit addresses and immediates, register numbers below 32,
    bytes. Every ELF load yields such a program (theorem [C14_loaded_program_well_formed]). *)
Definition instruction_ok (i : instruction) : Prop :=
  is_reg (rd (iargs i)) /\ is_reg (rs1 (iargs i)) /\ is_reg (rs2 (iargs i)) /\ u32 (imm (iargs i)).
Definition bytes_ok (m : gmap Z Z) : Prop := map_Forall (fun a b => u32 a /\ u8 b) m.
Record good_program (p : program) : Prop := {
  gp_entry : u32 (entry_point p);
  gp_ro : bytes_ok (ro_memory p);
  gp_rw : bytes_ok (rw_memory p);
  gp_code : map_Forall (fun (_ : Z) (d : decode_result) => match d with inl i => instruction_ok i | inr _ => True end) (ro_code p) }.
Record good_tapes (t : raw_tapes) : Prop := {
  gt_private : Forall u8 (raw_private t); gt_public : Forall u8 (raw_public t);
  gt_call : Forall u8 (raw_call t); gt_event : Forall u8 (raw_event t);
  gt_ec : Forall u8 (raw_events_commitment t); gt_cl : Forall u8 (raw_cast_list_commitment t);
  gt_id : Forall u8 (raw_self_prog_id t) }.

(** The M extension as relations between operands a, b and result v (words); [sg] is the signed reading. *)
Definition overflow (a b : Z) : Prop := sg a = - 2 ^ 31 /\ sg b = -1.
Definition m_ext (o : op) (a b v : Z) : Prop :=
  u32 v /\
  match o with
  | MUL => exists h, a * b = h * 2 ^ 32 + v
  | MULHU => exists l, 0 <= l < 2 ^ 32 /\ a * b = v * 2 ^ 32 + l
  | MULH => exists l, 0 <= l < 2 ^ 32 /\ sg a * sg b = sg v * 2 ^ 32 + l
  | MULHSU => exists l, 0 <= l < 2 ^ 32 /\ sg a * b = sg v * 2 ^ 32 + l
  | DIVU => if b =? 0 then v = 2 ^ 32 - 1 else exists r, 0 <= r < b /\ a = b * v + r
  | REMU => if b =? 0 then v = a else exists q, 0 <= v < b /\ a = b * q + v
  | DIV => (b = 0 -> v = 2 ^ 32 - 1) /\ (overflow a b -> sg v = - 2 ^ 31) /\
           (b <> 0 -> ~ overflow a b -> exists r, sg a = sg b * sg v + r /\ Z.abs r < Z.abs (sg b) /\ 0 <= r * sg a)
  | REM => (b = 0 -> v = a) /\ (overflow a b -> v = 0) /\
           (b <> 0 -> ~ overflow a b -> exists q, sg a = sg b * q + sg v /\ Z.abs (sg v) < Z.abs (sg b) /\ 0 <= sg v * sg a)
  | _ => False
  end.
Definition is_m (o : op) : bool :=
  match o with MUL | MULH | MULHU | MULHSU | DIV | DIVU | REM | REMU => true | _ => false end.

(** Environment-call numbers (a0) and the tape each read call uses *)
Definition read_call (n : Z) : option sd_op :=
  if n =? 2 then Some StorePrivate else if n =? 4 then Some StorePublic else if n =? 5 then Some StoreCallTape
  else if n =? 6 then Some StoreEventTape else if n =? 7 then Some StoreEventsCommitmentTape
  else if n =? 8 then Some StoreCastListCommitmentTape else if n =? 9 then Some StoreSelfProgIdTape else None.

(** Bytes delivered from streaming tape [o] by the rows of a record, in order *)
Definition delivered (o : sd_op) (rows : list row) : list Z :=
  concat (map (fun r => match storage_device_entry (raux r) with
                        | Some e => if bool_decide (sd_opcode e = o) then sd_data e else []
                        | None => [] end) rows).
Definition stream_tape (o : sd_op) (s : state) : option tape :=
  match o with
  | StorePublic => Some (public_tape s) | StorePrivate => Some (private_tape s)
  | StoreCallTape => Some (call_tape s) | StoreEventTape => Some (event_tape s)
  | _ => None
  end.
Definition constant_tape (o : sd_op) (s : state) : option (list Z) :=
  match o with
  | StoreEventsCommitmentTape => Some (events_commitment_tape s)
  | StoreCastListCommitmentTape => Some (cast_list_commitment_tape s)
  | StoreSelfProgIdTape => Some (self_prog_id_tape s)
  | _ => None
  end.

(** What a read call finds on its tape: the unread rest of a streaming tape, the whole of a constant one *)
Definition available (o : sd_op) (s : state) : list Z :=
  match stream_tape o s with
  | Some t => drop (Z.to_nat (read_index t)) (tdata t)
  | None => match constant_tape o s with Some l => l | None => [] end
  end.
(** The message of a Poseidon2 call: a2 bytes from address a1 on *)
Definition message (s : state) : list Z :=
  map (fun i => load_u8 s (reg s REG_A1 + Z.of_nat i)) (seq 0 (Z.to_nat (reg s REG_A2))).

(** The state before row k of a record, or the last state after the last row *)
Definition state_at (rec : record) (k : nat) : option state :=
  match executed rec !! k with
  | Some r => Some (rstate r)
  | None => if (k =? length (executed rec))%nat then Some (last_state rec) else None
  end.

(** Sponge records for an input of [8 * n] elements: one permutation per block of 8, the first block over the
    all-zero state, each next block overwriting the first 8 lanes of the previous output; only the last is marked. *)
Definition sponge_chain (permute : list Z -> list Z) (input : list Z) (sp : list sponge_data) : Prop :=
  8 * Z.of_nat (length sp) = Z.of_nat (length input) /\
  forall k d, sp !! k = Some d ->
    preimage d = take 8 (drop (8 * k) input)
                 ++ drop 8 (match k with O => repeat 0 12 | S k' => match sp !! k' with Some d' => output d' | None => [] end end) /\
    output d = permute (preimage d) /\
    gen_output d = (if (S k =? length sp)%nat then 1 else 0).

(** ** Loading *)
(** little-endian word at [a] of a byte image, absent bytes being zero *)
Definition image_word (image : gmap Z Z) (a : Z) : Z :=
  let b k := default 0 (image !! (a + k)) in b 0 + 256 * b 1 + 65536 * b 2 + 16777216 * b 3.

Definition seg_ok (h : segment) : Prop :=
  u32 (p_vaddr h) /\ u32 (p_offset h) /\ u32 (p_filesz h) /\ u32 (p_memsz h).

(** The byte that segment [h] places at address [a]: file contents, then zeros up to the larger of the two sizes. *)
Definition seg_byte (input : list Z) (h : segment) (a : Z) : option Z :=
  let off := a - p_vaddr h in
  if (0 <=? off) && (off <? Z.max (p_filesz h) (p_memsz h)) then
    Some (if off <? Z.min (p_filesz h) (p_memsz h) then nth (Z.to_nat (p_offset h + off)) input 0 else 0)
  else None.

(** byte given by the last segment, among those accepted by [sel], that covers [a] *)
Fixpoint last_segment_byte (sel : Z -> bool) (input : list Z) (segs : list segment) (a : Z) : option Z :=
  match segs with
  | [] => None
  | h :: r => match last_segment_byte sel input r a with
              | Some b => Some b
              | None => if sel (p_flags h) then seg_byte input h a else None
              end
  end.


(** Segment permissions (ELF: bit 0 executable, bit 1 writable, bit 2 readable) *)
Definition ro_flags (f : Z) : bool := Z.testbit f 2 && negb (Z.testbit f 1).
Definition rw_flags (f : Z) : bool := f =? 6.    (* readable, writable and nothing else *)
Definition x_flags (f : Z) : bool := Z.testbit f 0.

(** little-endian word at [a] of a partial byte image, absent bytes being zero *)
Definition word_at (img : Z -> option Z) (a : Z) : Z :=
  let b k := match img (a + k) with Some x => x | None => 0 end in b 0 + 2 ^ 8 * b 1 + 2 ^ 16 * b 2 + 2 ^ 24 * b 3.
