(** Properties C20 - C28, C34 and C35 of the circuits crate: CPU, ADD, XOR, bit-shift and range-check tables.
    Theorems with suffix [_partial] need a hypothesis the circuit does not enforce; the theorem with suffix [_refuted]
    beside it exhibits an accepted table in which the full statement fails. *)
From Verif Require Import RunSpec CircuitSpec TableProofs CpuArith CpuProofs CpuSound CpuWitness CpuComplete CpuGen CpuTrace CpuMem ExecProofs StepProofs RunnerProps.
Import RvSpec.
Open Scope Z_scope.
Ltac Zify.zify_post_hook ::= Z.div_mod_to_equations.

(** * C20 The ADD table *)
Theorem C20_add_sound : forall t r a i x1 x2, trace_sat add_air t -> In r t -> canon (ad_dst r) -> add_carries r a i x1 x2 ->
  (~ fzero (ad_running r) -> u32 (ad_dst r)) -> ad_running r = 1 -> ad_dst r = add_value a i x1 x2.
Proof.
  intros t r a i x1 x2 S I C A RC RU.
  assert (U : u32 (ad_dst r)) by (apply RC; rewrite RU; discriminate).
  destruct (In_lookup _ _ I) as [k E]. destruct (lookup_lt_is_Some_2 t (Datatypes.S k mod length t)) as [r' E'].
  { apply Nat.mod_upper_bound. apply lookup_lt_Some in E. lia. }
  pose proof (ts_always _ _ S k r r' E E') as Z0. cbn [add_air a_always] in Z0.
  destruct A as [EI EO OK UA <- <- U1 U2 Z1 Z2].
  assert (X : u32 (ad_op2 r + ad_imm r) /\ word (ad_op1 r + ad_op2 r + ad_imm r) = add_value a i (ad_op1 r) (ad_op2 r)).
  { destruct i as [o d r1 r2|o d r1 k0|o d r1 sh|w u d r1 k0|w r1 r2 k0|c r1 r2 off|d k0|d k0|d off|d r1 k0|d r1|d r1|d r1|f3 d r1 csr|rest];
      cbn [lower iop] in EO; try discriminate EO; try (destruct o; discriminate EO); try (destruct w, u; discriminate EO); try (destruct w; discriminate EO); try (destruct c; discriminate EO);
      cbn [lower iargs NOP] in EI; injection EI as Ed E1 E2 E3; rewrite ?E3; unfold add_value; try (rewrite (Z1 E1)); try (rewrite (Z2 E2)).
    - rewrite !Z.add_0_r. split; auto.
    - rewrite Z.add_0_l, Z.add_0_r. split; [apply ExecProofs.word_u32|]. unfold alui_sem. apply word_add_r.
    - cbn in OK. split; [unfold u32; lia|]. rewrite !Z.add_0_l. apply ExecProofs.word_id. unfold u32. lia.
    - rewrite !Z.add_0_l. split; [apply ExecProofs.word_u32|]. apply ExecProofs.word_id, ExecProofs.word_u32.
    - split; [unfold u32; lia|reflexivity].
    - split; [unfold u32; lia|reflexivity].
    - split; [unfold u32; lia|reflexivity].
    - split; [unfold u32; lia|reflexivity]. }
  destruct X as [UX <-]. rewrite (add_sound r C U1 UX U Z0). reflexivity.
Qed.
Example C20_ex_sound : let r := mkAdd 16 1 0 3 4294967295 7 5 0 4 1 in
  trace_sat add_air [r] /\ add_carries r 16 (AluI iADDI 3 1 (-1)) 5 0 /\ add_value 16 (AluI iADDI 3 1 (-1)) 5 0 = 4.
Proof.
  intros r. split; [|split; [|reflexivity]].
  - constructor; [discriminate|intros; constructor| |intros; constructor|intros; constructor].
    intros k q q' E _. destruct k; [|discriminate]. injection E as <-. repeat constructor.
  - constructor; try reflexivity; try (unfold u32; cbn; lia); try (cbn; unfold is_reg, is_imm12; lia); discriminate.
Qed.

Section WithHash.
Variable permute : list Z -> list Z.
Variable utf8_ok : list Z -> bool.
Notation exec1 := (execute_instruction permute utf8_ok).

(** Completeness: as long as the clock fits 32 bits the row of every executed ADD satisfies the constraint, and the
    value it sends to the range check is a 32-bit number; from clock 2^32 on generation panics. *)
Theorem C20_add_complete : forall s p a i s' rv, state_ok s -> good_program p -> exec1 s p = Ok (a, i, s') ->
  i = lower (pc s) rv -> rv_ok rv -> iop i = ADD ->
  (clk s < 2 ^ 32 -> exists r, gen_add_row s i a = Some r /\ all_zero (add_constraints r) /\ u32 (ad_dst r) /\ ad_running r = 1 /\
     add_carries r (pc s) rv (reg s (rs1 (iargs i))) (reg s (rs2 (iargs i)))) /\
  (2 ^ 32 <= clk s -> gen_add_row s i a = None).
Proof.
  intros s p a i s' rv OK GP E L RV O. pose proof (gp_code _ GP : program_ok p) as PO. destruct (exec_facts _ _ _ _ _ _ _ OK PO E) as (IO & O1 & RAW & O2 & a0 & s0 & D & DV & _).
  unfold gen_add_row. pose proof IO as (R0 & R1 & R2 & RI).
  split; intros H; [|destruct (Z.ltb_spec (clk s) (2 ^ 32)); [lia|reflexivity]].
  destruct (Z.ltb_spec (clk s) (2 ^ 32)); [|lia]. eexists. split; [reflexivity|].
  unfold dispatch in D. rewrite O in D. apply disp_reg in D as (DD & _); auto.
  pose proof (reg_u32 s _ OK R1) as U1. pose proof (reg_u32 s _ OK R2) as U2.
  assert (NOV : reg s (rs2 (iargs i)) + imm (iargs i) < 2 ^ 32).
  { assert (Z : rs2 (iargs i) = 0 \/ imm (iargs i) = 0).
    { rewrite L in *. destruct rv as [o ? ? ?|o ? ? ?|o ? ? ?|w us ? ? ?|w ? ? ?|c ? ? ?|? ?|? ?|? ?|? ? ?|? ?|? ?|? ?|? ? ? ?|?]; cbn in *; auto; try (destruct o; auto; discriminate).
      - destruct w, us; discriminate.
      - destruct w; discriminate.
      - destruct c; discriminate. }
    destruct Z as [Z|Z]; rewrite Z; [rewrite reg_0 by auto|]; unfold u32 in *; lia. }
  assert (UD : u32 (dst_val a)) by (rewrite DV, DD; apply wrap32_u32).
  split; [|split; [exact UD|split; [reflexivity|]]].
  - unfold add_constraints. cbn [ad_dst ad_op1 ad_op2 ad_imm]. cbv zeta. apply List.Forall_cons; [|apply Forall_nil]. apply fz0.
    change (freg s) with (reg s). rewrite DV, DD. unfold wadd, wrap32, u32 in *.
    set (x := reg s (rs1 (iargs i))) in *. set (y := reg s (rs2 (iargs i))) in *. rewrite (Z.mod_small (y + _)) by lia.
    set (z := x + (y + imm (iargs i))). replace (x + y + imm (iargs i)) with z by (unfold z; lia).
    assert (z mod 4294967296 = z \/ z mod 4294967296 = z - 4294967296) as [->| ->] by (unfold z; lia); change (2 ^ 32) with 4294967296; ring.
  - constructor; cbn [ad_rd ad_rs1 ad_rs2 ad_imm ad_op1 ad_op2]; auto.
    + rewrite <- L. destruct (iargs i); reflexivity.
    + rewrite <- L. exact O.
    + apply OK.
    + intros ->. apply reg_0; auto.
    + intros ->. apply reg_0; auto.
Qed.

(** * C25 Honest CPU rows are accepted *)
(** For every VM step of a decoded instruction that is sent to the CPU table, except the steps listed in
    [provable_step], the generated row is acceptable: constraints, range-checked values, XOR and shift lookups,
    transition constraints. *)
Theorem C25_honest_row_partial : forall s p a i s' rv, state_ok s -> good_program p -> exec1 s p = Ok (a, i, s') ->
  i = lower (pc s) rv -> rv_ok rv -> handled_elsewhere s i = false -> provable_step s i ->
  cpu_row_ok (gen_row s i a) /\ all_zero (cpu_transition (gen_row s i a)).
Proof. intros s p a i s' rv OK GP. apply honest_row_ok; [exact OK|exact (gp_code _ GP)]. Qed.
End WithHash.
Theorem C25_padding_row : cpu_row_ok pad_row /\ all_zero (cpu_transition pad_row).
Proof. split; [apply check_row_ok; vm_compute; reflexivity|repeat constructor]. Qed.

Definition one_inst (a : Z) (i : instruction) : program := program_create [] [] {[a := inl i]}.
(** the row generated for one step, if the step succeeds *)
Definition one_row (s : state) (p : program) : option cpu :=
  match execute_instruction (fun l => l) (fun _ => true) s p with Ok (a, i, _) => Some (gen_row s i a) | _ => None end.
Lemma demo_state_good a x1 x2 : u32 a -> u32 x1 -> u32 x2 -> state_ok (demo_state a x1 x2).
Proof.
  intros A X1 X2. constructor; try (cbn; auto; fail); try (split; [constructor|cbn; lia]); try (constructor; fail).
  - cbn. repeat apply List.Forall_cons; auto; try apply Forall_nil; unfold u32; lia.
  - intros x y H. cbn in H. try (rewrite lookup_empty in H); discriminate.
Qed.
(** The full statement fails: signed division of -31 by -1. Row generation treats -31 (the value of the source text
    [-2 ^ 31], an exclusive or) as the overflowing dividend and stores a quotient sign that the constraints reject. *)
Theorem C25_minus31_refuted : let s := demo_state 0 4294967265 4294967295 in let i := lower 0 (Alu rDIV 3 1 2) in
  exists r, state_ok s /\ handled_elsewhere s i = false /\ one_row s (one_inst 0 i) = Some r /\ ~ all_zero (cpu_always r).
Proof.
  cbv zeta. eexists. split; [apply demo_state_good; unfold u32; lia|]. split; [reflexivity|]. split; [vm_compute; reflexivity|].
  intros Z. assert (K : forallb fzb (cpu_always (match one_row (demo_state 0 4294967265 4294967295) (one_inst 0 (lower 0 (Alu rDIV 3 1 2))) with Some r => r | None => pad_row end)) = true).
  { apply forallb_forall. intros x I. unfold all_zero in Z. rewrite Forall_forall in Z. apply fzb_ok, Z. exact I. }
  revert K. vm_compute. discriminate.
Qed.
(** ... a JALR to an odd address (the VM clears bit 0, the circuit does not), and the instruction at the top of the
    address space (the VM wraps the pc, the circuit does not). *)
Theorem C25_odd_jalr_refuted : let s := demo_state 0 8 0 in let i := lower 0 (Jalr 3 1 1) in
  exists r, state_ok s /\ handled_elsewhere s i = false /\ one_row s (one_inst 0 i) = Some r /\ ~ all_zero (cpu_transition r).
Proof.
  cbv zeta. eexists. split; [apply demo_state_good; unfold u32; lia|]. split; [reflexivity|]. split; [vm_compute; reflexivity|].
  intros Z. unfold all_zero in Z. rewrite Forall_forall in Z.
  assert (K : fzero (1 * (8 - 9) * (8 - (9 - 2 ^ 32)))) by (apply Z; vm_compute; auto). discriminate K.
Qed.
Theorem C25_pc_wrap_refuted : let s := demo_state 4294967292 8 3 in let i := lower 4294967292 (Alu rXOR 3 1 2) in
  exists r, state_ok s /\ handled_elsewhere s i = false /\ one_row s (one_inst 4294967292 i) = Some r /\ ~ all_zero (cpu_transition r).
Proof.
  cbv zeta. eexists. split; [apply demo_state_good; unfold u32; lia|]. split; [reflexivity|]. split; [vm_compute; reflexivity|].
  intros Z. unfold all_zero in Z. rewrite Forall_forall in Z.
  assert (K : fzero (1 * (0 - (4294967292 + 4)))) by (apply Z; vm_compute; auto). discriminate K.
Qed.
(** A non-trivial instance of the hypotheses: the overflowing division -2^31 / -1 is provable. *)
Example C25_ex : let s := demo_state 0 2147483648 4294967295 in let i := lower 0 (Alu rDIV 3 1 2) in
  state_ok s /\ good_program (one_inst 0 i) /\ handled_elsewhere s i = false /\ provable_step s i /\
  exists a s', execute_instruction (fun l => l) (fun _ => true) s (one_inst 0 i) = Ok (a, i, s') /\ dst_val a = 2147483648.
Proof.
  cbv zeta. split; [apply demo_state_good; unfold u32; lia|]. split.
  { constructor.
    - cbn. unfold u32. lia.
    - intros x d H. cbn in H. try (rewrite lookup_empty in H); discriminate.
    - intros x d H. cbn in H. try (rewrite lookup_empty in H); discriminate.
    - intros x d H. unfold one_inst, program_create in H. cbn [ro_code] in H. apply lookup_singleton_Some in H as [_ <-].
      unfold instruction_ok, is_reg, u32. cbn. lia. }
  split; [reflexivity|]. split.
  - unfold provable_step. cbn [lower iop iargs rs1 rs2 imm op_of_alu]. split; [|split; [discriminate|split; [discriminate|cbn; lia]]].
    intros _ [K _]. vm_compute in K. discriminate.
  - eexists _, _. split; [vm_compute; reflexivity|reflexivity].
Qed.

(** * C21 SUB, AND, OR, XOR *)
Theorem C21_bitwise : forall t r a i x1 x2 v, cpu_accepted t -> In r t -> carries r a i x1 x2 ->
  bitwise_class i = true -> rv_value a i x1 x2 = Some v -> c_dst_value r = v.
Proof. intros t r a i x1 x2 v A I C B. exact (bitwise_sound r a i x1 x2 (accepted_row t r A I) C v B). Qed.
(** SLT, SLTU and immediates: only if the absolute difference column is a 32-bit number, which nothing checks ... *)
Theorem C21_slt_partial : forall t r a i x1 x2 v, cpu_accepted t -> In r t -> carries r a i x1 x2 ->
  u32 (c_abs_diff r) -> slt_class i = true -> rv_value a i x1 x2 = Some v -> c_dst_value r = v.
Proof. intros t r a i x1 x2 v A I C U B. exact (slt_sound r a i x1 x2 (accepted_row t r A I) C v U B). Qed.
(** ... so that an accepted table may claim 5 < 3. *)
Theorem C21_slt_refuted : exists t r, cpu_accepted t /\ In r t /\ carries r 0 (Alu rSLT 3 1 2) 5 3 /\
  rv_value 0 (Alu rSLT 3 1 2) 5 3 = Some 0 /\ c_dst_value r = 1.
Proof. exists (table_of forged_slt), forged_slt. split; [apply forged_tables|]. split; [apply in_table|]. split; [apply forged_carries|]. auto. Qed.
Example C21_ex : let r := honest 8 (Alu rSUB 3 1 2) 5 9 4294967292 12 in
  cpu_accepted (table_of r) /\ carries r 8 (Alu rSUB 3 1 2) 5 9 /\ rv_value 8 (Alu rSUB 3 1 2) 5 9 = Some (c_dst_value r).
Proof. cbv zeta. split; [apply check_table_ok; vm_compute; reflexivity|]. split; [carry|reflexivity]. Qed.
Example C21_ex_slt : let r := honest 8 (AluI iSLTI 3 1 (-2)) 4294967290 0 1 12 in
  cpu_accepted (table_of r) /\ carries r 8 (AluI iSLTI 3 1 (-2)) 4294967290 0 /\ u32 (c_abs_diff r) /\ c_dst_value r = 1.
Proof. cbv zeta. split; [apply check_table_ok; vm_compute; reflexivity|]. split; [carry|]. split; [vm_compute; split; congruence|reflexivity]. Qed.

(** * C22 Multiplication and left shift *)
Theorem C22_mul : forall t r a i x1 x2 v, cpu_accepted t -> In r t -> carries r a i x1 x2 ->
  mul_class i = true -> rv_value a i x1 x2 = Some v -> c_dst_value r = v.
Proof. intros t r a i x1 x2 v A I C B. exact (mul_sound r a i x1 x2 (accepted_row t r A I) C v B). Qed.
Example C22_ex : let r := honest 8 (Alu rMULHSU 3 1 2) 4294967295 4294967295 4294967295 12 in
  cpu_accepted (table_of r) /\ carries r 8 (Alu rMULHSU 3 1 2) 4294967295 4294967295 /\ rv_value 8 (Alu rMULHSU 3 1 2) 4294967295 4294967295 = Some (c_dst_value r).
Proof. cbv zeta. split; [apply check_table_ok; vm_compute; reflexivity|]. split; [carry|reflexivity]. Qed.
Example C22_ex_sll : let r := honest 8 (Alu rSLL 3 1 2) 4294967295 36 4294967280 12 in
  cpu_accepted (table_of r) /\ carries r 8 (Alu rSLL 3 1 2) 4294967295 36 /\ rv_value 8 (Alu rSLL 3 1 2) 4294967295 36 = Some (c_dst_value r).
Proof. cbv zeta. split; [apply check_table_ok; vm_compute; reflexivity|]. split; [carry|reflexivity]. Qed.

(** * C23 Division, remainder and right shifts: only if the quotient sign column is a bit, which is not checked on rows
    that skip the sign rule *)
Theorem C23_div_partial : forall t r a i x1 x2 v, cpu_accepted t -> In r t -> carries r a i x1 x2 ->
  (fzero (1 - c_skip_quotient_sign r) -> bit (c_quotient_sign r)) -> div_class i = true -> rv_value a i x1 x2 = Some v -> c_dst_value r = v.
Proof. intros t r a i x1 x2 v A I C Q B. exact (div_sound r a i x1 x2 (accepted_row t r A I) C v Q B). Qed.
Theorem C23_divu_refuted : exists t r, cpu_accepted t /\ In r t /\ carries r 0 (Alu rDIVU 3 1 2) 3 5 /\
  rv_value 0 (Alu rDIVU 3 1 2) 3 5 = Some 0 /\ c_dst_value r = 2 ^ 30.
Proof. exists (table_of forged_divu), forged_divu. split; [apply forged_tables|]. split; [apply in_table|]. split; [apply forged_carries|]. auto. Qed.
Theorem C23_remu_refuted : exists t r, cpu_accepted t /\ In r t /\ carries r 0 (Alu rREMU 3 1 2) 3 2863311530 /\
  rv_value 0 (Alu rREMU 3 1 2) 3 2863311530 = Some 3 /\ c_dst_value r = 4.
Proof. exists (table_of forged_remu), forged_remu. split; [apply forged_tables|]. split; [apply in_table|]. split; [apply forged_carries|]. auto. Qed.
Theorem C23_srl_refuted : exists t r, cpu_accepted t /\ In r t /\ carries r 0 (Alu rSRL 3 1 2) 3 5 /\
  rv_value 0 (Alu rSRL 3 1 2) 3 5 = Some 0 /\ c_dst_value r = 2 ^ 30.
Proof. exists (table_of forged_srl), forged_srl. split; [apply forged_tables|]. split; [apply in_table|]. split; [apply forged_carries|]. auto. Qed.
Example C23_ex : let r := honest 8 (Alu rDIV 3 1 2) 2147483648 4294967295 2147483648 12 in
  cpu_accepted (table_of r) /\ carries r 8 (Alu rDIV 3 1 2) 2147483648 4294967295 /\ (fzero (1 - c_skip_quotient_sign r) -> bit (c_quotient_sign r)) /\
  rv_value 8 (Alu rDIV 3 1 2) 2147483648 4294967295 = Some (c_dst_value r).
Proof. cbv zeta. split; [apply check_table_ok; vm_compute; reflexivity|]. split; [carry|]. split; [left; reflexivity|reflexivity]. Qed.
Example C23_ex_zero : let r := honest 8 (Alu rREM 3 1 2) 4294967291 0 4294967291 12 in
  cpu_accepted (table_of r) /\ carries r 8 (Alu rREM 3 1 2) 4294967291 0 /\ (fzero (1 - c_skip_quotient_sign r) -> bit (c_quotient_sign r)) /\
  rv_value 8 (Alu rREM 3 1 2) 4294967291 0 = Some (c_dst_value r).
Proof. cbv zeta. split; [apply check_table_ok; vm_compute; reflexivity|]. split; [carry|]. split; [right; reflexivity|reflexivity]. Qed.
Example C23_ex_sra : let r := honest 8 (ShiftI sSRAI 3 1 3) 4294967295 0 4294967295 12 in
  cpu_accepted (table_of r) /\ carries r 8 (ShiftI sSRAI 3 1 3) 4294967295 0 /\ rv_value 8 (ShiftI sSRAI 3 1 3) 4294967295 0 = Some (c_dst_value r).
Proof. cbv zeta. split; [apply check_table_ok; vm_compute; reflexivity|]. split; [carry|reflexivity]. Qed.

(** * C24 Next pc *)
(** Branches: on every row; the pc must not be the last word of the address space (pc + 4 does not wrap). *)
Theorem C24_branch : forall t r a i x1 x2, cpu_accepted t -> In r t -> carries r a i x1 x2 -> branch_class i = true ->
  a + 4 < 2 ^ 32 -> c_new_pc r = rv_next a i x1 x2.
Proof.
  intros t r a i x1 x2 A I C B H. destruct i as [| | | | |c s1 s2 off| | | | | | | | |]; try discriminate B.
  exact (branch_sound r a _ x1 x2 (accepted_row t r A I) C c s1 s2 off eq_refl H).
Qed.
(** Straight-line instructions of the CPU table: on every row except the last one of the table. *)
Theorem C24_straight_partial : forall t r a i x1 x2, cpu_accepted t -> inner t r -> carries r a i x1 x2 ->
  (bitwise_class i || slt_class i || mul_class i || div_class i || memory_class i)%bool = true -> a + 4 < 2 ^ 32 ->
  c_new_pc r = rv_next a i x1 x2.
Proof.
  intros t r a i x1 x2 A I C B H. assert (J : In r t) by (destruct I as (k & r' & E & _); eapply lookup_In; eauto).
  apply (straight_sound r a i x1 x2 (accepted_row t r A J) C); auto; [eapply accepted_inner; eauto|].
  destruct i as [o| o|o| | | | | | | | | | | |]; try discriminate B; try reflexivity; destruct o; try discriminate B; reflexivity.
Qed.
(** JAL and JALR: on every row except the last one, for claimed targets that are even 32-bit numbers (neither is checked
    by the CPU table); the return address is written. *)
Theorem C24_jump_partial : forall t r a i x1 x2, cpu_accepted t -> inner t r -> carries r a i x1 x2 -> jump_class i = true ->
  u32 (c_new_pc r) -> c_new_pc r mod 2 = 0 -> c_new_pc r = rv_next a i x1 x2 /\ rv_value a i x1 x2 = Some (c_dst_value r).
Proof.
  intros t r a i x1 x2 A I C B U E. assert (J : In r t) by (destruct I as (k & r' & E' & _); eapply lookup_In; eauto).
  apply (jump_sound r a i x1 x2 (accepted_row t r A J) C); auto. eapply accepted_inner; eauto.
Qed.
(** The last row of the table may continue anywhere, be it a straight-line instruction or a jump: the constraint on the
    next pc is a transition constraint, which is not enforced on the last row, although it does not concern two rows. *)
Theorem C24_last_row_refuted : exists t r, cpu_accepted t /\ In r t /\ carries r 0 (Alu rXOR 3 1 2) 5 3 /\
  rv_next 0 (Alu rXOR 3 1 2) 5 3 = 4 /\ c_new_pc r = 4242.
Proof. exists (table_end forged_last), forged_last. split; [apply forged_tables3|]. split; [apply in_table_end|]. split; [carry|]. auto. Qed.
Theorem C24_last_jalr_refuted : exists t r, cpu_accepted t /\ In r t /\ carries r 0 (Jalr 3 1 8) 16 0 /\
  rv_next 0 (Jalr 3 1 8) 16 0 = 24 /\ c_new_pc r = 4242.
Proof. exists (table_end forged_last_jalr), forged_last_jalr. split; [apply forged_tables3|]. split; [apply in_table_end|]. split; [carry|]. auto. Qed.
(** A JALR row may claim a next pc outside 32 bits, and an environment call may continue anywhere. *)
Theorem C24_jalr_range_refuted : exists t r, cpu_accepted t /\ inner t r /\ carries r 0 (Jalr 3 1 8) 4294967280 0 /\
  rv_next 0 (Jalr 3 1 8) 4294967280 0 = 4294967288 /\ c_new_pc r = P - 8.
Proof. exists (table_of forged_jalr), forged_jalr. split; [apply forged_tables3|]. split; [apply inner_table|]. split; [carry|]. auto. Qed.
Theorem C24_ecall_refuted : exists t r, cpu_accepted t /\ inner t r /\ carries r 0 (Ecall 0 0) 4 100 /\ c_new_pc r = 4242.
Proof. exists (table_of forged_ecall), forged_ecall. split; [apply forged_tables3|]. split; [apply inner_table|]. split; [carry|]. auto. Qed.
Example C24_ex_branch : let r := honest 8 (Branch cLT 1 2 (-8)) 4294967295 3 0 0 in
  cpu_accepted (table_of r) /\ carries r 8 (Branch cLT 1 2 (-8)) 4294967295 3 /\ rv_next 8 (Branch cLT 1 2 (-8)) 4294967295 3 = c_new_pc r.
Proof. cbv zeta. split; [apply check_table_ok; vm_compute; reflexivity|]. split; [carry|reflexivity]. Qed.
Example C24_ex_jump : let r := honest 8 (Jalr 3 1 (-16)) 8 0 12 4294967288 in
  cpu_accepted (table_of r) /\ inner (table_of r) r /\ carries r 8 (Jalr 3 1 (-16)) 8 0 /\ rv_next 8 (Jalr 3 1 (-16)) 8 0 = c_new_pc r /\ u32 (c_new_pc r).
Proof. cbv zeta. split; [apply check_table_ok; vm_compute; reflexivity|]. split; [apply inner_table|]. split; [carry|]. split; [reflexivity|vm_compute; split; congruence]. Qed.

(** * C26 One operation per row *)
Theorem C26_one_operation : forall t r, cpu_accepted t -> In r t ->
  ((forall o, c_op r o = 0) \/ exists o, c_op r o = 1 /\ forall o', o' <> o -> c_op r o' = 0) /\
  (c_op r o_ecall = 1 -> exists e, c_ecall r e = 1 /\ c_op1_value r = ecall_number e /\ forall e', e' <> e -> c_ecall r e' = 0) /\
  (c_op r o_ecall = 0 -> forall e, c_ecall r e = 0).
Proof.
  intros t r A I. destruct (accepted_always _ _ A I) as [C Z0]. destruct (one_hot r C Z0) as [B O]. split; [|apply ecall_sound; auto].
  destruct (decide (Exists (fun o => c_op r o = 1) all_osel)) as [E|E].
  - apply List.Exists_exists in E as (o & _ & E). right. exists o. split; auto. intros o' N. destruct (B o') as [|H]; auto. exfalso. apply N. auto.
  - left. intros o. destruct (B o) as [|H]; auto. exfalso. apply E. apply List.Exists_exists. exists o. split; auto. apply all_osel_in.
Qed.
Example C26_ex : cpu_accepted (table_of forged_ecall) /\ c_op forged_ecall o_ecall = 1 /\ c_ecall forged_ecall e_public = 1.
Proof. split; [apply forged_tables3|]. auto. Qed.

(** * C27 XOR table *)
Theorem C27_xor_sound : forall t r, trace_sat xor_air t -> Forall xor_row_typed t -> In r t ->
  u32 (x_a r) /\ u32 (x_b r) /\ u32 (x_out r) /\ x_out r = Z.lxor (x_a r) (x_b r).
Proof.
  intros t r S T I. rewrite Forall_forall in T. apply xor_sound; auto.
  destruct (In_lookup _ _ I) as [k E]. destruct (lookup_lt_is_Some_2 t (Datatypes.S k mod length t)) as [r' E'].
  { apply Nat.mod_upper_bound. apply lookup_lt_Some in E. lia. }
  exact (ts_always _ _ S k r r' E E').
Qed.
Theorem C27_xor_complete : forall a b, u32 a -> u32 b ->
  xor_row_typed (gen_xor_row a b (Z.lxor a b)) /\ all_zero (xor_constraints (gen_xor_row a b (Z.lxor a b))).
Proof. exact xor_complete. Qed.
Theorem C27_xor_padding : xor_row_typed xor_default /\ all_zero (xor_constraints xor_default).
Proof. exact xor_default_ok. Qed.
Example C27_ex : trace_sat xor_air [gen_xor_row 12 10 6] /\ Forall xor_row_typed [gen_xor_row 12 10 6].
Proof.
  destruct (xor_complete 12 10 ltac:(unfold u32; lia) ltac:(unfold u32; lia)) as [T Z].
  split; [|apply List.Forall_cons; [exact T|apply Forall_nil]].
  constructor; [discriminate|intros; constructor| |intros; constructor|intros; constructor].
  intros k q q' E _. destruct k; [|discriminate]. injection E as <-. exact Z.
Qed.

(** * C28 Bit-shift table *)
Theorem C28_shift_sound : forall t, trace_sat shift_air t -> Forall shift_canon t -> max_rows t ->
  (forall r, In r t -> 0 <= s_amount r <= 31 /\ s_multiplier r = 2 ^ s_amount r) /\
  (forall k, 0 <= k <= 31 -> exists r, In r t /\ s_amount r = k /\ s_multiplier r = 2 ^ k).
Proof. exact shift_sound. Qed.
Theorem C28_shift_complete : forall t, trace_sat shift_air (generate_shift_trace t).
Proof. exact shift_complete. Qed.
Example C28_ex : trace_sat shift_air (generate_shift_trace []) /\ Forall shift_canon (generate_shift_trace []) /\ max_rows (generate_shift_trace []).
Proof.
  split; [apply shift_complete|]. split; [|vm_compute; discriminate].
  unfold generate_shift_trace. cbn [map seq]. repeat apply List.Forall_cons; try apply Forall_nil; split; vm_compute; split; congruence.
Qed.

(** * C34 Range check *)
(** Every value sent to the range check is a 32-bit number, provided the multiplicities on both lookups are
    non-negative integers whose sums stay below the field's prime. *)
Theorem C34_rangecheck_partial : forall u8t rct others looking,
  trace_sat u8_air u8t -> Forall (fun r => canon (u8_value r)) u8t -> max_rows u8t -> Forall rc_row_typed rct ->
  ctl_ok looking (rc_looked rct) -> ctl_ok (rc_u8_looking rct ++ others) (u8_looked u8t) ->
  Forall (fun x => 0 <= snd x) looking -> mult_total looking < P ->
  Forall (fun x => 0 <= snd x) others -> mult_total (rc_u8_looking rct ++ others) < P ->
  forall v f, In ([v], f) looking -> 0 < f -> u32 (v mod P).
Proof. intros u8t rct others looking S C M T CL C8 B L O L8 v f. eapply rc_sound; eauto. Qed.
(** Without the bound on the multiplicities: a prover can range-check -1. *)
Theorem C34_rangecheck_refuted : exists u8t rct looking,
  trace_sat u8_air u8t /\ Forall (fun r => canon (u8_value r)) u8t /\ max_rows u8t /\ Forall rc_row_typed rct /\
  ctl_ok looking (rc_looked rct) /\ ctl_ok (rc_u8_looking rct) (u8_looked u8t) /\ In ([P - 1], 1) looking.
Proof.
  exists forged_u8, forged_rc, [([P - 1], 1)]. split; [exact forged_u8_sat|]. split.
  { unfold forged_u8. apply Forall_forall. intros r I. apply in_map_iff in I as (k & <- & I). apply in_seq in I. unfold canon, P. cbn [u8_value]. lia. }
  split; [vm_compute; discriminate|]. split.
  { unfold forged_rc. repeat apply List.Forall_cons; try apply Forall_nil; (split; [reflexivity|]); repeat apply List.Forall_cons; try apply Forall_nil; vm_compute; split; congruence. }
  split; [apply forged_ctl|]. split; [apply forged_ctl|]. left. reflexivity.
Qed.
(** The byte table contains exactly the bytes. *)
Theorem C34_u8_table : forall t, trace_sat u8_air t -> Forall (fun r => canon (u8_value r)) t -> max_rows t ->
  forall v, u8 v <-> exists r, In r t /\ u8_value r = v.
Proof. exact u8_sound. Qed.
(** Completeness: each 32-bit number has a row whose limbs are bytes. *)
Theorem C34_complete : forall v m, u32 v -> canon m -> let r := mkRc (limbs_from_u32 v) m in
  rc_row_typed r /\ rc_value r = v /\ Forall u8 (rc_limbs r).
Proof. exact rc_complete. Qed.

(** * C35 Taken BLTU branches *)
(** Rows of the BLT-taken table jump to the branch target. That the comparison holds follows only if op2 - op1 - 1 is
    range checked ... *)
Theorem C35_bltu_taken_partial : forall r, u32 (bl_op1 r) -> u32 (bl_op2 r) ->
  u32 ((bl_op2 r - bl_op1 r - 1) mod P) -> bl_op1 r < bl_op2 r.
Proof. intros r U1 U2 U. unfold u32, P in *. lia. Qed.
(** ... but the table has no constraints and its range-check lookup is not registered: a taken branch with 5 < 3 is
    accepted (the lookups sent by the table are the skeleton, ROM and register ones, which do not relate the operands). *)
Theorem C35_bltu_taken_refuted : exists r : blt_row, bl_running r = 1 /\ bl_op1 r = 5 /\ bl_op2 r = 3 /\
  cond_sem cLTU (bl_op1 r) (bl_op2 r) = false /\
  blt_skeleton_looking [r] = [([bl_clk r; bl_pc r; bl_imm r; 0], 1)] /\ ~ u32 ((bl_op2 r - bl_op1 r - 1) mod P).
Proof.
  exists (mkBlt 0 1 2 100 7 5 3 1). repeat split; try reflexivity. unfold u32, P. cbn. lia.
Qed.

Print Assumptions C20_add_sound.
Print Assumptions C20_add_complete.
Print Assumptions C25_honest_row_partial.
Print Assumptions C25_padding_row.
Print Assumptions C25_minus31_refuted.
Print Assumptions C25_odd_jalr_refuted.
Print Assumptions C25_pc_wrap_refuted.
Print Assumptions C21_bitwise.
Print Assumptions C21_slt_partial.
Print Assumptions C21_slt_refuted.
Print Assumptions C22_mul.
Print Assumptions C23_div_partial.
Print Assumptions C23_divu_refuted.
Print Assumptions C23_remu_refuted.
Print Assumptions C23_srl_refuted.
Print Assumptions C24_branch.
Print Assumptions C24_straight_partial.
Print Assumptions C24_jump_partial.
Print Assumptions C24_last_row_refuted.
Print Assumptions C24_last_jalr_refuted.
Print Assumptions C24_jalr_range_refuted.
Print Assumptions C24_ecall_refuted.
Print Assumptions C26_one_operation.
Print Assumptions C27_xor_sound.
Print Assumptions C27_xor_complete.
Print Assumptions C27_xor_padding.
Print Assumptions C28_shift_sound.
Print Assumptions C28_shift_complete.
Print Assumptions C34_rangecheck_partial.
Print Assumptions C34_rangecheck_refuted.
Print Assumptions C34_u8_table.
Print Assumptions C34_complete.
Print Assumptions C35_bltu_taken_partial.
Print Assumptions C35_bltu_taken_refuted.
