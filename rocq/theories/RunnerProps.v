(** Properties C01 - C15 of the runner (crate mozak-runner). Every theorem is followed by an example showing that
    a concrete, non-trivial case meets its hypotheses. *)
From Verif Require Import RunSpec DecodeProofs ExecProofs IsaProofs StepProofs LoadProofs RunProofs EcallProofs.
Import RvSpec.
Open Scope Z_scope.

(** A small guest program used by the examples: read 3 bytes of the public tape to address 200, store a word,
    divide, halt. Byte 100 is read-only. *)
Definition demo_code : list instruction :=
  [ mkInst ADD (mkArgs 10 0 0 4); mkInst ADD (mkArgs 11 0 0 200); mkInst ADD (mkArgs 12 0 0 3); ECALL_INST;
    mkInst ADD (mkArgs 5 0 0 4294967289); mkInst SW (mkArgs 0 5 0 4294967294); mkInst LH (mkArgs 6 0 0 4294967295);
    mkInst DIV (mkArgs 7 5 0 2) ].
Definition demo : program := program_create [(100, 7)] [(300, 9)] (exec_code demo_code).
Definition demo_tapes : raw_tapes := mkRaw [] [1; 2; 3; 4; 5] [] [] (repeat 0 32) (repeat 0 32) (repeat 0 32).
Definition demo_run (fuel : nat) := step (fun l => l) (fun _ => true) None demo fuel (state_new demo demo_tapes).

Lemma demo_good : good_program demo.
Proof.
  assert (D : forall d : decode_result, Decision (match d with inl i => instruction_ok i | inr _ => True end)).
  { unfold instruction_ok, is_reg, u32. intros [i|?]; apply _. }
  assert (D2 : forall (a b : Z), Decision (u32 a /\ u8 b)) by (unfold u32, u8; apply _).
  constructor; unfold bytes_ok.
  - unfold u32; cbn; lia.
  - intros a b H. change (ro_memory demo) with ({[100 := 7]} : gmap Z Z) in H. apply lookup_singleton_Some in H as [<- <-]. unfold u32, u8; lia.
  - intros a b H. change (rw_memory demo) with ({[300 := 9]} : gmap Z Z) in H. apply lookup_singleton_Some in H as [<- <-]. unfold u32, u8; lia.
  - apply map_Forall_to_list. change (map_to_list (ro_code demo)) with
      (ltac:(let v := eval vm_compute in (map_to_list (ro_code demo)) in exact v)).
    repeat (apply List.Forall_cons; [unfold instruction_ok, is_reg, u32; cbn; lia|]); apply List.Forall_nil.
Qed.
Lemma demo_tapes_good : good_tapes demo_tapes.
Proof. constructor; cbn; repeat (apply List.Forall_cons; [unfold u8; lia|]); apply List.Forall_nil. Qed.
Lemma demo_state_ok : state_ok (state_new demo demo_tapes).
Proof. exact (state_new_ok _ _ demo_good demo_tapes_good). Qed.

Section Props.
Variable permute : list Z -> list Z.
Variable utf8_ok : list Z -> bool.
Notation reach := (reach permute utf8_ok).
Notation exec1 := (execute_instruction permute utf8_ok).
Notation run := (step permute utf8_ok).

(** * C01 Decoding is total and accepts exactly the supported encodings.
    For every 32-bit word: either it is the encoding of a well-formed RV32IM (or no-op) instruction and is accepted,
    or it is the encoding of none and the error carries the address and the word. (The model's decoder is a total
    function without panic outcome.) *)
Theorem C01_decode_total : forall a w, u32 w ->
  (exists r, rv_ok r /\ encode r = w /\ decode_instruction a w = inl (lower a r)) \/
  ((forall r, rv_ok r -> encode r <> w) /\ decode_instruction a w = inr (a, w)).
Proof.
  intros a w Hw. destruct (decode_total a w Hw) as [E|(r & Hr & <-)].
  - right. split; auto. intros r Hr <-. rewrite decode_encode_rv in E by auto. discriminate.
  - left. exists r. split; auto. split; auto. apply decode_encode_rv; auto.
Qed.
Example C01_ex_accept : decode_instruction 0x1000 0x00c58533 = inl (mkInst ADD (mkArgs 10 11 12 0)).
Proof. vm_compute. reflexivity. Qed.
Example C01_ex_reject : decode_instruction 0x1000 0xffffffff = inr (0x1000, 0xffffffff).
Proof. vm_compute. reflexivity. Qed.

(** * C02 The decoder inverts the RISC-V encoder *)
Theorem C02_decode_encode : forall a r, rv_ok r -> decode_instruction a (encode r) = inl (lower a r).
Proof. exact decode_encode_rv. Qed.
Example C02_ex : rv_ok (Branch cLT 5 6 (-8)) /\ encode (Branch cLT 5 6 (-8)) = 0xfe62cce3 /\
  decode_instruction 4 0xfe62cce3 = inl (mkInst BLT (mkArgs 0 5 6 4294967292)).
Proof. split; [cbn; unfold is_reg; lia|]. vm_compute. auto. Qed.

(** * C03 One VM step implements the RV32IM instruction.
    [represents s m] ties pc, all registers and all memory bytes to the ISA machine; [same_devices] says tapes,
    halted flag and the read-only set stay. The only other outcome is the abort of a store into read-only memory. *)
Theorem C03_step_implements_isa : forall s p m r,
  state_ok s -> represents s m -> rv_ok r -> is_ecall r = false -> pc s mod 4 = 0 ->
  ro_code p !! pc s = Some (decode_instruction (pc s) (encode r)) ->
  (exists a, a ∈ writes r m /\ a ∈ is_read_only (smem s) /\ exec1 s p = Panic (PReadOnly a)) \/
  (Forall (fun a => a ∉ is_read_only (smem s)) (writes r m) /\
   exists a i s', exec1 s p = Ok (a, i, s') /\ represents s' (exec r m) /\ same_devices s s' /\
                  clk s' = clk s + 1 /\ state_ok s' /\ new_pc a = pc s').
Proof.
  intros s p m r OK REP Hr He Hp E. rewrite decode_encode_rv in E by auto.
  exact (step_isa permute utf8_ok s p m OK REP r Hr He Hp E).
Qed.
Example C03_ex : let s := state_new demo demo_tapes in
  state_ok s /\ represents s (mkMachine (pc s) (reg s) (load_u8 s)) /\ rv_ok (AluI iADDI 10 0 4) /\ pc s mod 4 = 0 /\
  ro_code demo !! pc s = Some (decode_instruction (pc s) (encode (AluI iADDI 10 0 4))).
Proof.
  split; [exact demo_state_ok|]. split; [apply represents_self|]. split; [cbn; unfold is_reg, is_imm12; lia|].
  split; [reflexivity|]. vm_compute. reflexivity.
Qed.

(** * C04 x0 is always zero *)
Theorem C04_x0_zero : forall p t s, good_program p -> good_tapes t -> reach p (state_new p t) s -> get_reg s 0 = Ok 0.
Proof.
  intros p t s HP HT R.
  pose proof (reach_ok permute utf8_ok p _ s (state_new_ok _ _ HP HT) (good_program_ok _ HP) R) as OK.
  unfold get_reg. change (Z.to_nat 0) with 0%nat. rewrite (ok_x0 _ OK). reflexivity.
Qed.

(** * C05 Read-only memory never changes *)
Theorem C05_read_only_constant : forall p t s a b, good_program p -> good_tapes t -> reach p (state_new p t) s ->
  ro_memory p !! a = Some b -> load_u8 s a = b /\ a ∈ is_read_only (smem s).
Proof.
  intros p t s a b HP HT R H.
  destruct (reach_ro _ _ p _ s (state_new_ok _ _ HP HT) (good_program_ok _ HP) R) as [R1 R2].
  assert (Ha : a ∈ is_read_only (smem (state_new p t))) by (cbn; apply elem_of_dom; eauto).
  rewrite R1. split; auto. unfold load_u8. rewrite (R2 a Ha). cbn.
  rewrite (lookup_union_Some_l _ _ _ _ H). reflexivity.
Qed.
(** Every instruction or call that would write a read-only byte aborts: stores, tape reads, Poseidon2 output. *)
Theorem C05_store_aborts : forall s p m r, state_ok s -> represents s m -> rv_ok r -> is_ecall r = false -> pc s mod 4 = 0 ->
  ro_code p !! pc s = Some (decode_instruction (pc s) (encode r)) ->
  (exists a, a ∈ writes r m /\ a ∈ is_read_only (smem s)) -> exists a, exec1 s p = Panic (PReadOnly a).
Proof.
  intros s p m r OK REP Hr He Hp E (a & A1 & A2).
  destruct (C03_step_implements_isa s p m r OK REP Hr He Hp E) as [(x & _ & _ & X)|(F & _)]; [eauto|].
  rewrite Forall_forall in F. destruct (F a (proj1 (elem_of_list_In _ _) A1) A2).
Qed.
Theorem C05_tape_read_aborts : forall s p o k, state_ok s -> ro_code p !! pc s = Some (inl ECALL_INST) ->
  read_call (reg s REG_A0) = Some o -> (k < length (take (Z.to_nat (reg s REG_A2)) (available o s)))%nat ->
  word (reg s REG_A1 + Z.of_nat k) ∈ is_read_only (smem s) -> exists a, exec1 s p = Panic (PReadOnly a).
Proof.
  intros s p o k OK E RC Hk H. destruct (read_exec permute utf8_ok s p o OK E RC) as [(x & _ & X & _)|(F & _)]; [eauto|].
  rewrite Forall_forall in F. destruct (F (word (reg s REG_A1 + Z.of_nat k))); auto.
  apply in_map_iff. exists k. split; auto. apply in_seq. lia.
Qed.
Theorem C05_poseidon_aborts : forall s p k, state_ok s -> ro_code p !! pc s = Some (inl ECALL_INST) ->
  (forall l, length l = 12%nat -> length (permute l) = 12%nat) -> reg s REG_A0 = 3 -> (k < 32)%nat ->
  word (reg s REG_A3 + Z.of_nat k) ∈ is_read_only (smem s) -> exists q, exec1 s p = Panic q.
Proof.
  intros s p k OK E HP A0 Hk H.
  destruct (Z.eq_dec (reg s REG_A2) 0); [eapply poseidon_aborts; eauto|].
  destruct (Z.eq_dec (reg s REG_A2 mod 8) 0); [|eapply poseidon_aborts; eauto].
  destruct (Z_le_gt_dec (reg s REG_A1 + reg s REG_A2) 4294967296); [|eapply poseidon_aborts; eauto].
  assert (0 <= reg s REG_A2) by (apply reg_u32; auto; unfold is_reg, REG_A2; lia).
  destruct (poseidon_exec permute utf8_ok s p OK E A0 HP) as [(x & _ & _ & X)|(F & _)]; eauto; try lia.
  rewrite Forall_forall in F. destruct (F (word (reg s REG_A3 + Z.of_nat k))); auto.
  apply in_map_iff. exists k. split; auto. apply in_seq. lia.
Qed.

(** * C06 Stores are little-endian, exact and local *)
Theorem C06_store_bytes : forall s p w r1 r2 i x,
  state_ok s -> pc s mod 4 = 0 -> rv_ok (Store w r1 r2 i) ->
  ro_code p !! pc s = Some (decode_instruction (pc s) (encode (Store w r1 r2 i))) -> exec1 s p = Ok x ->
  let s' := snd x in let a := reg s r1 + i in
  (forall k, (k < nbytes w)%nat -> load_u8 s' (word (a + Z.of_nat k)) = (reg s r2 / 256 ^ Z.of_nat k) mod 256) /\
  (forall y, u32 y -> (forall k, (k < nbytes w)%nat -> y <> word (a + Z.of_nat k)) -> load_u8 s' y = load_u8 s y).
Proof.
  intros s p w r1 r2 i x OK Hp Hr E X. rewrite decode_encode_rv in E by auto.
  destruct (store_effect permute utf8_ok s p w r1 r2 i x OK Hp Hr E X) as (A & B & _). auto.
Qed.
(** a (zero-extending) load of the same width at the same address, in any later state with that memory *)
Theorem C06_store_then_load : forall s p w r1 r2 i x s2 p2 d b j y,
  state_ok s -> pc s mod 4 = 0 -> rv_ok (Store w r1 r2 i) ->
  ro_code p !! pc s = Some (decode_instruction (pc s) (encode (Store w r1 r2 i))) -> exec1 s p = Ok x ->
  smem s2 = smem (snd x) -> state_ok s2 -> pc s2 mod 4 = 0 -> rv_ok (Load w true d b j) -> d <> 0 ->
  ro_code p2 !! pc s2 = Some (decode_instruction (pc s2) (encode (Load w true d b j))) ->
  word (reg s2 b + j) = word (reg s r1 + i) -> exec1 s2 p2 = Ok y ->
  reg (snd y) d = reg s r2 mod 2 ^ (8 * Z.of_nat (nbytes w)).
Proof.
  intros s p w r1 r2 i x s2 p2 d b j y OK Hp Hr E X M OK2 Hp2 Hr2 Hd E2 A Y. rewrite decode_encode_rv in E, E2 by auto.
  exact (store_load permute utf8_ok s p w r1 r2 i x s2 p2 d b j y OK Hp Hr E X M OK2 Hp2 Hr2 Hd E2 A Y).
Qed.

(** * C07 Multiply and divide meet the M extension for all operands.
    The second operand of an internal instruction is register + immediate. Executing never fails. *)
Theorem C07_m_extension : forall s p i, state_ok s -> instruction_ok i -> is_m (iop i) = true ->
  ro_code p !! pc s = Some (inl i) ->
  exists a s', exec1 s p = Ok (a, i, s') /\
    m_ext (iop i) (reg s (rs1 (iargs i))) (word (reg s (rs2 (iargs i)) + imm (iargs i))) (dst_val a) /\
    reg s' (rd (iargs i)) = (if rd (iargs i) =? 0 then 0 else dst_val a).
Proof.
  intros s p i OK (Hd & H1 & H2 & Hi) Hm E. rewrite (exec_unfold permute utf8_ok s p OK i E H1 H2).
  assert (exists o, op_of_alu o = iop i) as [o Ho].
  { destruct (iop i); try discriminate;
    [exists rMUL|exists rMULH|exists rMULHU|exists rMULHSU|exists rDIV|exists rDIVU|exists rREM|exists rREMU]; reflexivity. }
  assert (exists f, alu_fun (iop i) = Some f) as [f Ef] by (destruct (iop i); try discriminate; eexists; reflexivity).
  assert (Ed : dispatch permute utf8_ok s i = register_op s (iargs i) f).
  { unfold dispatch. destruct (iop i); try discriminate; injection Ef as <-; reflexivity. }
  rewrite Ed, register_op_ok by auto. cbn [rbind fst snd]. eexists _, _. split; [reflexivity|].
  set (x := reg s (rs1 (iargs i))). set (y := wadd (reg s (rs2 (iargs i))) (imm (iargs i))).
  assert (Ux : u32 x) by (apply reg_u32; auto). assert (Uy : u32 y) by apply wrap32_u32.
  assert (Hv : dst_val (aux_dst (f x y)) = f x y) by reflexivity. cbn [dst_val].
  split.
  - rewrite <- Ho in Ef |- *. rewrite (alu_sem_ok o f x y Ef Ux Uy). apply m_ext_alu; auto. rewrite Ho; auto.
  - change (reg (bump_clock (bump_pc (wreg s (rd (iargs i)) (f x y)))) (rd (iargs i))) with (reg (wreg s (rd (iargs i)) (f x y)) (rd (iargs i))).
    rewrite reg_wreg by (auto; apply OK). unfold wr. rewrite Z.eqb_refl.
    destruct (Z.eqb_spec (rd (iargs i)) 0) as [Q|]; cbn [andb negb]; [|reflexivity].
    rewrite Q. unfold reg. apply nth_lookup_Some. exact (ok_x0 _ OK).
Qed.

(** * C08 Execution records are faithful and contiguous *)
Theorem C08_record_faithful : forall limit p fuel s rec, state_ok s -> good_program p -> run limit p fuel s = Ok rec ->
  state_at rec 0 = Some s /\
  (forall k r, executed rec !! k = Some r ->
     halted (rstate r) = false /\ clk (rstate r) = clk s + Z.of_nat k /\
     exists s', state_at rec (S k) = Some s' /\ exec1 (rstate r) p = Ok (raux r, rinst r, s')) /\
  halted (last_state rec) = true /\ clk (last_state rec) = clk s + Z.of_nat (length (executed rec)).
Proof.
  intros limit p fuel s rec OK HP R. split; [eapply run_first; exact R|].
  destruct (run_record permute utf8_ok limit p fuel s rec OK (good_program_ok _ HP) R) as (A & B & C). auto.
Qed.
(** Same start, same record: no dependence on the loop bound or the debug limit, and a run that can halt does. *)
Theorem C08_deterministic : forall l1 l2 p f1 f2 s r1 r2, run l1 p f1 s = Ok r1 -> run l2 p f2 s = Ok r2 -> r1 = r2.
Proof. exact (run_det permute utf8_ok). Qed.
Theorem C08_halting_run_exists : forall p s s', reach p s s' -> halted s' = true ->
  exists fuel rec, run None p fuel s = Ok rec /\ last_state rec = s'.
Proof. exact (run_exists permute utf8_ok). Qed.

(** * C09 HALT stops in place *)
Theorem C09_halt_in_place : forall s p, state_ok s -> ro_code p !! pc s = Some (inl ECALL_INST) -> reg s REG_A0 = 0 ->
  exists a s', exec1 s p = Ok (a, ECALL_INST, s') /\ will_halt a = true /\ halted s' = true /\
    pc s' = pc s /\ registers s' = registers s /\ smem s' = smem s /\
    (forall o, stream_tape o s' = stream_tape o s) /\ (forall o, constant_tape o s' = constant_tape o s).
Proof.
  intros s p OK E A. destruct (halt_exec permute utf8_ok s p OK E A) as (a & X & W). exists a, (bump_clock (halt s)).
  repeat split; auto; intros []; reflexivity.
Qed.
Theorem C09_only_halt_halts : forall s p a i s', state_ok s -> good_program p -> halted s = false ->
  exec1 s p = Ok (a, i, s') -> will_halt a = halted s' /\ (halted s' = true <-> iop i = ECALL /\ reg s REG_A0 = 0).
Proof. intros s p a i s' OK HP. apply step_halt_iff; auto. apply good_program_ok; auto. Qed.
(** in a record, exactly the last row (if any) reports will_halt *)
Theorem C09_run_stops_at_first_halt : forall limit p fuel s rec k r, state_ok s -> good_program p ->
  run limit p fuel s = Ok rec -> executed rec !! k = Some r ->
  (will_halt (raux r) = true <-> S k = length (executed rec)).
Proof.
  intros limit p fuel s rec k r OK HP R Hk. pose proof (good_program_ok _ HP) as P.
  destruct (run_record permute utf8_ok limit p fuel s rec OK P R) as (A & B & _).
  destruct (B k r Hk) as (H1 & _ & s' & H2 & H3).
  assert (OKr : state_ok (rstate r)).
  { destruct (run_reach permute utf8_ok limit p fuel s s rec) as [F _]; [constructor|exact R|].
    rewrite Forall_forall in F. eapply reach_ok; [exact OK|exact P|]. apply F. apply elem_of_list_In, elem_of_list_lookup; eauto. }
  destruct (step_halt_iff permute utf8_ok _ _ _ _ _ OKr P H1 H3) as [-> _].
  unfold state_at in H2. destruct (executed rec !! S k) as [r2|] eqn:Hk2.
  - injection H2 as <-. destruct (B _ _ Hk2) as (-> & _). apply lookup_lt_Some in Hk2. split; [discriminate|lia].
  - destruct (Nat.eqb_spec (S k) (length (executed rec))); [|discriminate]. injection H2 as <-. tauto.
Qed.

(** * C10 Tape reads stream each tape in order *)
Theorem C10_stream_prefix : forall limit p fuel s rec o t, state_ok s -> good_program p -> run limit p fuel s = Ok rec ->
  stream_tape o s = Some t ->
  delivered o (executed rec) = take (length (delivered o (executed rec))) (drop (Z.to_nat (read_index t)) (tdata t)) /\
  stream_tape o (last_state rec) = Some (mkTape (tdata t) (read_index t + Z.of_nat (length (delivered o (executed rec))))).
Proof. intros limit p fuel s rec o t OK HP. apply run_tapes; auto. apply good_program_ok; auto. Qed.
Theorem C10_constant_tapes_stay : forall p s s' o, state_ok s -> good_program p -> reach p s s' ->
  constant_tape o s' = constant_tape o s.
Proof. intros p s s' o OK HP. apply reach_constant; auto. apply good_program_ok; auto. Qed.
(** one read gives min(requested, remaining) bytes, from the read position (streaming) or the start (constant),
    and moves no other tape *)
Theorem C10_read_amount : forall s p o a i s', state_ok s -> ro_code p !! pc s = Some (inl ECALL_INST) ->
  read_call (reg s REG_A0) = Some o -> exec1 s p = Ok (a, i, s') ->
  exists e, storage_device_entry a = Some e /\ sd_opcode e = o /\
    sd_data e = take (Z.to_nat (reg s REG_A2)) (available o s) /\
    Z.of_nat (length (sd_data e)) = Z.min (reg s REG_A2) (Z.of_nat (length (available o s))) /\
    (forall o', o' <> o -> stream_tape o' s' = stream_tape o' s) /\
    (forall t, stream_tape o s = Some t -> stream_tape o s' = Some (mkTape (tdata t) (read_index t + Z.of_nat (length (sd_data e))))).
Proof.
  intros s p o a i s' OK E RC X. destruct (read_exec permute utf8_ok s p o OK E RC) as [(x & _ & X' & _)|(_ & a' & s2 & X' & S1 & _ & _ & _ & _ & _ & _ & _ & _ & T1 & _ & T2)].
  - rewrite X in X'. discriminate.
  - rewrite X in X'. injection X' as -> -> ->. eexists. split; [exact S1|]. cbn. split; auto. split; auto.
    split. { rewrite take_length. assert (0 <= reg s REG_A2) by (apply reg_u32; auto; unfold is_reg, REG_A2; lia). lia. }
    split; auto.
Qed.

(** * C11 Tape reads write exactly the delivered bytes *)
Theorem C11_read_writes : forall s p o, state_ok s -> ro_code p !! pc s = Some (inl ECALL_INST) ->
  read_call (reg s REG_A0) = Some o ->
  let data := take (Z.to_nat (reg s REG_A2)) (available o s) in
  let used := map (fun k => word (reg s REG_A1 + Z.of_nat k)) (seq 0 (length data)) in
  (exists x, x ∈ is_read_only (smem s) /\ exec1 s p = Panic (PReadOnly x) /\ x ∈ used) \/
  (exists a s', exec1 s p = Ok (a, ECALL_INST, s') /\
     storage_device_entry a = Some (mkSd (reg s REG_A1) o data) /\
     (forall k b, data !! k = Some b -> load_u8 s' (word (reg s REG_A1 + Z.of_nat k)) = b) /\
     (forall x, x ∉ used -> load_u8 s' x = load_u8 s x) /\
     registers s' = registers s /\ pc s' = word (pc s + 4) /\ clk s' = clk s + 1 /\ halted s' = halted s).
Proof.
  intros s p o OK E RC data used. destruct (read_exec permute utf8_ok s p o OK E RC) as [H|(_ & a & s' & H)]; [left; exact H|].
  right. exists a, s'. tauto.
Qed.

(** * C12 Unknown environment calls are no-ops: only pc and clock change *)
Theorem C12_unknown_call : forall s p, state_ok s -> ro_code p !! pc s = Some (inl ECALL_INST) -> ~ 0 <= reg s REG_A0 <= 10 ->
  exists a s', exec1 s p = Ok (a, ECALL_INST, s') /\ pc s' = word (pc s + 4) /\ clk s' = clk s + 1 /\
    registers s' = registers s /\ smem s' = smem s /\ same_devices s s' /\ will_halt a = false.
Proof.
  intros s p OK E A. destruct (unknown_exec permute utf8_ok s p OK E A) as (a & X & W & _).
  exists a, (bump_clock (bump_pc s)). repeat split; auto.
Qed.

(** * C13 The Poseidon2 call hashes memory and writes 32 bytes *)
Theorem C13_poseidon2 : forall s p, state_ok s -> ro_code p !! pc s = Some (inl ECALL_INST) -> reg s REG_A0 = 3 ->
  (forall l, length l = 12%nat -> length (permute l) = 12%nat) ->
  0 < reg s REG_A2 -> reg s REG_A2 mod 8 = 0 -> reg s REG_A1 + reg s REG_A2 <= 4294967296 ->
  let out := map (fun k => word (reg s REG_A3 + Z.of_nat k)) (seq 0 32) in
  (exists x, x ∈ is_read_only (smem s) /\ x ∈ out /\ exec1 s p = Panic (PReadOnly x)) \/
  (Forall (fun x => x ∉ is_read_only (smem s)) out /\
   exists a s' sp d, exec1 s p = Ok (a, ECALL_INST, s') /\
     poseidon2 a = Some (mkP2 (reg s REG_A1) (reg s REG_A3) (reg s REG_A2) sp) /\
     sponge_chain permute (message s) sp /\ stdpp.list.last sp = Some d /\
     let digest := hash_to_bytes (take 4 (output d)) in
     length digest = 32%nat /\
     (forall k b, digest !! k = Some b -> load_u8 s' (word (reg s REG_A3 + Z.of_nat k)) = b) /\
     (forall x, x ∉ out -> load_u8 s' x = load_u8 s x) /\
     registers s' = registers s /\ pc s' = word (pc s + 4) /\ clk s' = clk s + 1 /\ same_devices s s').
Proof. exact (poseidon_exec permute utf8_ok). Qed.
(** the sponge record, hence the digest, is determined by the message bytes *)
Theorem C13_digest_determined : forall input sp1 sp2,
  sponge_chain permute input sp1 -> sponge_chain permute input sp2 -> sp1 = sp2.
Proof.
  intros input sp1 sp2 [L1 C1] [L2 C2]. apply list_eq_same_length with (length sp1); auto; [lia|].
  assert (G : forall k x y, sp1 !! k = Some x -> sp2 !! k = Some y -> x = y).
  { induction k as [|k IH]; intros x y Hx Hy; destruct (C1 _ _ Hx) as (P1 & O1 & G1), (C2 _ _ Hy) as (P2 & O2 & G2).
    - destruct x, y; cbn in *. subst. f_equal. replace (length sp2) with (length sp1) by lia. reflexivity.
    - assert (Hk : (match sp1 !! k with Some d' => output d' | None => [] end) = (match sp2 !! k with Some d' => output d' | None => [] end)).
      { pose proof (lookup_lt_Some _ _ _ Hx). pose proof (lookup_lt_Some _ _ _ Hy).
        destruct (sp1 !! k) as [x'|] eqn:E1; [|apply lookup_ge_None in E1; lia].
        destruct (sp2 !! k) as [y'|] eqn:E2; [|apply lookup_ge_None in E2; lia]. rewrite (IH _ _ eq_refl eq_refl). reflexivity. }
      rewrite Hk in P1. rewrite <- P2 in P1. destruct x, y; cbn in *. subst. f_equal. replace (length sp2) with (length sp1) by lia. reflexivity. }
  intros k x y _. apply G.
Qed.
Theorem C13_poseidon2_aborts : forall s p, state_ok s -> ro_code p !! pc s = Some (inl ECALL_INST) -> reg s REG_A0 = 3 ->
  reg s REG_A2 = 0 \/ reg s REG_A2 mod 8 <> 0 \/ reg s REG_A1 + reg s REG_A2 > 4294967296 ->
  exists q, exec1 s p = Panic q.
Proof. exact (poseidon_aborts permute utf8_ok). Qed.

(** * C15 Writing over code does not change execution *)
Theorem C15_fetch_from_image : forall e input segs p t s a i s',
  e_segments e = Some segs -> Forall seg_ok segs -> Forall u8 input -> 0 <= e_entry e -> load_program e input = Ok p ->
  good_tapes t -> reach p (state_new p t) s -> exec1 s p = Ok (a, i, s') ->
  decode_instruction (pc s) (word_at (last_segment_byte x_flags input segs) (pc s)) = inl i.
Proof.
  intros e input segs p t s a i s' ES HS HI HE L HT R X.
  pose proof (load_program_good _ _ _ _ ES HS HI HE L) as HP.
  pose proof (reach_ok permute utf8_ok p _ s (state_new_ok _ _ HP HT) (good_program_ok _ HP) R) as OK.
  destruct (execute_inv _ _ _ _ _ _ _ OK (good_program_ok _ HP) X) as (C & _).
  apply (load_program_image _ _ _ _ ES HS HI L) in C as (_ & _ & <-). reflexivity.
Qed.
Theorem C15_same_pc_same_instruction : forall p s1 s2 a1 i1 s1' a2 i2 s2', pc s1 = pc s2 ->
  exec1 s1 p = Ok (a1, i1, s1') -> exec1 s2 p = Ok (a2, i2, s2') -> i1 = i2.
Proof.
  intros p s1 s2 a1 i1 s1' a2 i2 s2' E. unfold execute_instruction, current_instruction. rewrite E.
  destruct (ro_code p !! pc s2) as [[i|[]]|]; try discriminate.
  set (g1 := get_reg s1 _). set (g2 := get_reg s2 _). set (h1 := get_reg s1 _). set (h2 := get_reg s2 _).
  destruct g1; cbn [rbind]; try discriminate. destruct h1; cbn [rbind]; try discriminate.
  destruct (dispatch permute utf8_ok s1 i) as [[? ?]| |]; cbn [rbind]; try discriminate.
  destruct g2; cbn [rbind]; try discriminate. destruct h2; cbn [rbind]; try discriminate.
  destruct (dispatch permute utf8_ok s2 i) as [[? ?]| |]; cbn [rbind]; try discriminate.
  congruence.
Qed.
End Props.

(** * C14 Loaded program image matches the ELF segments *)
Theorem C14_loaded_image : forall e input segs p t, e_segments e = Some segs -> Forall seg_ok segs -> Forall u8 input ->
  load_program e input = Ok p ->
  let s := state_new p t in
  pc s = e_entry e /\
  (forall a, load_u8 s a = match last_segment_byte ro_flags input segs a with
                           | Some b => b
                           | None => match last_segment_byte rw_flags input segs a with Some b => b | None => 0 end
                           end) /\
  (forall a, a ∈ is_read_only (smem s) <-> last_segment_byte ro_flags input segs a <> None) /\
  (forall a d, ro_code p !! a = Some d <->
     a mod 4 = 0 /\ (exists k, 0 <= k < 4 /\ last_segment_byte x_flags input segs (a + k) <> None) /\
     d = decode_instruction a (word_at (last_segment_byte x_flags input segs) a)).
Proof.
  intros e input segs p t ES HS HI L s. destruct (load_program_image _ _ _ _ ES HS HI L) as (A & B & C & D).
  split; [exact C|]. split; [|split; [|exact D]].
  - intros a. unfold load_u8, s. cbn. rewrite lookup_union, A, B.
    destruct (last_segment_byte ro_flags input segs a), (last_segment_byte rw_flags input segs a); reflexivity.
  - intros a. unfold s. cbn. rewrite elem_of_dom, A. destruct (last_segment_byte ro_flags input segs a).
    + split; [discriminate|eauto].
    + split; [intros [? ?]; discriminate|congruence].
Qed.
Theorem C14_loaded_program_well_formed : forall e input segs p, e_segments e = Some segs -> Forall seg_ok segs ->
  Forall u8 input -> 0 <= e_entry e -> load_program e input = Ok p -> good_program p.
Proof. intros e input segs p ES HS HI HE. exact (load_program_good e input p segs ES HS HI HE). Qed.
(** what loading rejects *)
Theorem C14_load_rejects : forall e input segs p, e_segments e = Some segs -> Forall seg_ok segs ->
  load_program e input = Ok p ->
  e_class32 e = true /\ e_machine e = 243 /\ e_type e = 2 /\ e_entry e < 2 ^ 32 /\ e_entry e mod 4 = 0 /\
  (length segs <= 256)%nat /\
  Forall (fun h => ro_flags (p_flags h) || rw_flags (p_flags h) || x_flags (p_flags h) = true ->
    p_vaddr h + Z.max (p_filesz h) (p_memsz h) < 2 ^ 32 - 1 /\
    p_offset h + Z.min (p_filesz h) (p_memsz h) <= Z.of_nat (length input)) segs.
Proof.
  intros e input segs p ES HS L. pose proof (load_program_fits _ _ _ _ ES HS L) as F.
  destruct (load_program_inv _ _ _ L) as (segs' & ro & rw & x & c & ES' & H). rewrite ES in ES'. injection ES' as <-.
  change (2 ^ 32) with 4294967296. tauto.
Qed.
(** A read-only segment, an executable one and a read-write one with zero fill. *)
Definition demo_elf : elf_file := mkElf true 243 2 0x2000
  (Some [mkSegment 4 0x1000 0 4 4; mkSegment 5 0x2000 0 8 8; mkSegment 6 0x1002 2 2 6]).
Definition demo_input : list Z := [0x33; 0x85; 0xc5; 0x00; 0x73; 0; 0; 0].
Example C14_ex : exists p, load_program demo_elf demo_input = Ok p /\
  map (load_u8 (state_new p demo_tapes)) [0x1000; 0x1003; 0x1004; 0x1005; 0x2004] = [0x33; 0; 0; 0; 0x73] /\
  ro_code p !! 0x2000 = Some (inl (mkInst ADD (mkArgs 10 11 12 0))) /\
  Forall u8 demo_input.
Proof.
  eexists. split; [vm_compute; reflexivity|]. split; [vm_compute; reflexivity|]. split; [vm_compute; reflexivity|].
  repeat (apply List.Forall_cons; [unfold u8; lia|]); apply List.Forall_nil.
Qed.

(** ** Examples over the demo run: its 10 rows exercise C04, C05, C08 - C11 *)
Example demo_runs : exists rec, demo_run 11 = Ok rec /\ length (executed rec) = 10%nat /\
  map (load_u8 (last_state rec)) [200; 201; 202; 203; 4294967294; 4294967295; 0; 1; 100] = [1; 2; 3; 0; 249; 255; 255; 255; 7] /\
  map (reg (last_state rec)) [6; 7] = [4294967295; 4294967293] /\
  delivered StorePublic (executed rec) = [1; 2; 3] /\ halted (last_state rec) = true.
Proof. eexists. split; [vm_compute; reflexivity|]. vm_compute. auto 10. Qed.
Example C13_ex : sponge_chain (fun l => l) (repeat 5 16)
  [ mkSponge (repeat 5 8 ++ repeat 0 4) (repeat 5 8 ++ repeat 0 4) 0;
    mkSponge (repeat 5 8 ++ repeat 0 4) (repeat 5 8 ++ repeat 0 4) 1 ].
Proof.
  split; [reflexivity|]. intros [|[|k]] d H; cbn in H; [injection H as <-; repeat split|injection H as <-; repeat split|].
  destruct k; discriminate.
Qed.

Print Assumptions C01_decode_total.
Print Assumptions C02_decode_encode.
Print Assumptions C03_step_implements_isa.
Print Assumptions C04_x0_zero.
Print Assumptions C05_read_only_constant.
Print Assumptions C05_store_aborts.
Print Assumptions C05_tape_read_aborts.
Print Assumptions C05_poseidon_aborts.
Print Assumptions C06_store_bytes.
Print Assumptions C06_store_then_load.
Print Assumptions C07_m_extension.
Print Assumptions C08_record_faithful.
Print Assumptions C08_deterministic.
Print Assumptions C08_halting_run_exists.
Print Assumptions C09_halt_in_place.
Print Assumptions C09_only_halt_halts.
Print Assumptions C09_run_stops_at_first_halt.
Print Assumptions C10_stream_prefix.
Print Assumptions C10_constant_tapes_stay.
Print Assumptions C10_read_amount.
Print Assumptions C11_read_writes.
Print Assumptions C12_unknown_call.
Print Assumptions C13_poseidon2.
Print Assumptions C13_digest_determined.
Print Assumptions C13_poseidon2_aborts.
Print Assumptions C14_loaded_image.
Print Assumptions C14_loaded_program_well_formed.
Print Assumptions C14_load_rejects.
Print Assumptions C15_fetch_from_image.
Print Assumptions C15_same_pc_same_instruction.
