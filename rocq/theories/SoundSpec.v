(** Specification side of C80: what a verifier accepts, and what it would have to check in addition. *)
From Verif Require Export ProofGenSpec StateSpec RunSpec.
From Verif Require Import RomProofs RegGenModel ProofGenModel.
Open Scope Z_scope.

(** What a verifier knows of a set of tables: constraints and lookups hold, the program and initial-memory tables are those
    of the program, all registers start at 0, and the published commitments are given. *)
Record proof_accepted (K : p2consts) (p : program) (events casts : list Z) (T : tables) : Prop := {
  pa_constraints : constraints_hold K p T;
  pa_lookups : lookups_hold T;
  pa_rom : generate_program_rom_trace p = Ok (t_rom T);
  pa_elf : t_elf T = generate_memory_init_trace p;
  pa_regs : t_reginit T = pad_last (mkRegInit 0 0) (map (fun k => mkRegInit (Z.of_nat k) 0) (seq 1 31));
  pa_events : ctl_ok (tc_event_public (t_tc T)) (public_values events);
  pa_casts : ctl_ok (tc_cast_public (t_tc T)) (public_values casts) }.

(** Cells of tables are field elements, and tables have at most 2^32 rows. *)
Record tables_typed (T : tables) : Prop := {
  ty_cpu : Forall (fun r => Forall canon (cpu_columns r)) (t_cpu T) /\ max_rows (t_cpu T);
  ty_skel : Forall (fun r => canon (sk_clk r) /\ canon (sk_pc r) /\ canon (sk_running r)) (t_skel T) /\ max_rows (t_skel T);
  ty_add : Forall (fun r => Forall canon [ad_pc r; ad_rs1 r; ad_rs2 r; ad_rd r; ad_imm r; ad_clk r; ad_op1 r; ad_op2 r; ad_dst r; ad_running r]) (t_add T) /\ max_rows (t_add T);
  ty_blt : Forall (fun r => Forall canon [bl_pc r; bl_rs1 r; bl_rs2 r; bl_imm r; bl_clk r; bl_op1 r; bl_op2 r; bl_running r]) (t_blt T) /\ max_rows (t_blt T);
  ty_xor : Forall xor_row_typed (t_xor T);
  ty_shift : Forall shift_canon (t_shift T) /\ max_rows (t_shift T);
  ty_mult : max_rows (t_mult T);
  ty_reg : Forall reg_canon (t_reg T) /\ max_rows (t_reg T);
  ty_half : Forall (word_typed 2) (t_half T) /\ max_rows (t_half T);
  ty_full : Forall (word_typed 4) (t_full T) /\ max_rows (t_full T);
  ty_elf : max_rows (t_elf T);
  ty_zero : Forall (fun r => canon (zi_addr r) /\ canon (zi_filter r)) (t_zero T) /\ max_rows (t_zero T);
  ty_mem : Forall mem_canon (t_mem T) /\ max_rows (t_mem T);
  ty_rc : Forall rc_row_typed (t_rc T);
  ty_u8 : Forall (fun r => canon (u8_value r)) (t_u8 T) /\ max_rows (t_u8 T) }.

(** The gaps in the constraint systems that the findings name, closed by assumption. *)
Record gaps_closed (p : program) (T : tables) : Prop := {
  (** finding 36: the [is_running] columns of the ADD and BLTU tables are bits *)
  gc_running : Forall (fun r => bit (ad_running r)) (t_add T) /\ Forall (fun r => bit (bl_running r)) (t_blt T);
  (** finding 7: instruction columns are those of some instruction *)
  gc_inst : forall r, In r (t_cpu T) -> is_running r = 1 -> exists i, inst_fields_ok i /\ c_inst r = inst_cols (c_pc r) i;
  gc_add_inst : forall r, In r (t_add T) -> ad_running r = 1 -> inst_fields_ok (mkInst ADD (mkArgs (ad_rd r) (ad_rs1 r) (ad_rs2 r) (ad_imm r)));
  gc_blt_inst : forall r, In r (t_blt T) -> bl_running r = 1 -> inst_fields_ok (mkInst BLTU (mkArgs 0 (bl_rs1 r) (bl_rs2 r) (bl_imm r)));
  (** finding 2: the signedness of loads is that of the program's instruction *)
  gc_signed : forall r i, In r (t_cpu T) -> c_op r o_lb = 1 \/ c_op r o_lh = 1 -> ro_code p !! c_pc r = Some (inl i) -> i_dst_signed (c_inst r) = b2z (dst_signed (iop i));
  (** finding 37: the sign of signed loads *)
  gc_lb : forall r, In r (t_cpu T) -> c_op r o_lb = 1 -> i_dst_signed (c_inst r) = 1 -> c_dst_sign_bit r = b2z (2 ^ 7 <=? c_mem_value_raw r);
  gc_lh : forall r, In r (t_cpu T) -> c_op r o_lh = 1 -> i_dst_signed (c_inst r) = 1 -> c_dst_sign_bit r = b2z (2 ^ 15 <=? c_mem_value_raw r);
  (** finding 12: word loads and stores exchange the register value with memory *)
  gc_lw : forall r, In r (t_cpu T) -> c_op r o_lw = 1 -> c_dst_value r = c_mem_value_raw r;
  gc_sw : forall r, In r (t_cpu T) -> c_op r o_sw = 1 -> c_mem_value_raw r = c_op1_value r;
  (** finding 5: the truncation of byte and half-word stores *)
  gc_store : forall r, In r (t_cpu T) -> c_op r o_sb = 1 \/ c_op r o_sh = 1 -> c_xor_out r = Z.lxor (c_xor_a r) (c_xor_b r) /\ u32 (c_xor_b r);
  (** finding 4 *)
  gc_slt : forall r, In r (t_cpu T) -> c_op r o_slt = 1 -> u32 (c_abs_diff r);
  (** finding 6 *)
  gc_div : forall r, In r (t_cpu T) -> fzero (1 - c_skip_quotient_sign r) -> bit (c_quotient_sign r);
  (** finding 8 *)
  gc_last : forall r, In r (t_cpu T) -> is_running r = 1 -> inner (t_cpu T) r;
  gc_jump : forall r, In r (t_cpu T) -> c_op r o_jalr = 1 -> u32 (c_new_pc r) /\ c_new_pc r mod 2 = 0;
  (** finding 9 *)
  gc_reg : reg_init_first (t_reg T);
  (** finding 10: multiplicities of range checks do not wrap around (those of the range-check table, and those of CPU rows that
      are not running, whose signedness columns are not constrained) *)
  gc_rc : mult_total (mem_rc_looking (t_mem T) ++ cpu_rc_looking (t_cpu T) ++ add_rc_looking (t_add T) ++ reg_rc_looking (t_reg T)) < P /\
          mult_total (rc_u8_looking (t_rc T) ++ mem_u8_looking (t_mem T)) < P;
  (** finding 11 *)
  gc_blt : forall r, In r (t_blt T) -> bl_running r = 1 -> u32 ((bl_op2 r - bl_op1 r - 1) mod P) }.

(** The fragment: no environment calls except HALT; the tape and hash tables access neither registers nor memory. *)
Record no_devices (T : tables) : Prop := {
  fr_ecall : forall r, In r (t_cpu T) -> c_op r o_ecall = 1 -> c_ecall r e_halt = 1;
  fr_devices : Forall (fun e => snd e = 0) (all_sd_reg_looking (t_tape T) ++ sp_reg_looking (t_sponge T));
  fr_memory : Forall (fun e => snd e = 0) (all_sd_mem_looking (t_tape T) ++ sp_mem_looking (t_sponge T) ++ ob_mem_looking (t_ob T)) }.

(** Code lies at aligned addresses below the end of the address space. *)
Definition code_placed (p : program) : Prop := forall a d, ro_code p !! a = Some d -> 0 <= a < 2 ^ 32 - 4 /\ a mod 4 = 0.

(** What "the tables describe the run [rec]" means. [step_shown rec t a i v1 v2 d]: one of the steps of [rec] was taken at clock
    [t] and address [a], executed [i], read [v1] and [v2] from the source registers, and left [d] in the target register. *)
Definition step_shown (rec : record) (t a : Z) (i : instruction) (v1 v2 d : Z) : Prop :=
  exists k w s', executed rec !! k = Some w /\ state_at rec (S k) = Some s' /\
    clk (rstate w) = t /\ pc (rstate w) = a /\ rinst w = i /\
    reg (rstate w) (rs1 (iargs i)) = v1 /\ reg (rstate w) (rs2 (iargs i)) = v2 /\
    (rd (iargs i) <> 0 -> reg s' (rd (iargs i)) = d).
Record describes (T : tables) (rec : record) : Prop := {
  (** the skeleton lists the steps: clock and pc of each, in order, and nothing else *)
  ds_steps : map (fun w => (clk (rstate w), pc (rstate w))) (executed rec) = map (fun r => (sk_clk r, sk_pc r)) (List.filter (fun r => sk_running r =? 1) (t_skel T));
  (** every running row of the CPU, ADD and BLTU tables shows a step *)
  ds_cpu : forall r, In r (t_cpu T) -> is_running r = 1 -> exists i, c_inst r = inst_cols (c_pc r) i /\
             step_shown rec (c_clk r) (c_pc r) i (c_op1_value r) (c_op2_value_raw r) (c_dst_value r);
  ds_add : forall r, In r (t_add T) -> ad_running r = 1 ->
             step_shown rec (ad_clk r) (ad_pc r) (mkInst ADD (mkArgs (ad_rd r) (ad_rs1 r) (ad_rs2 r) (ad_imm r))) (ad_op1 r) (ad_op2 r) (ad_dst r);
  ds_blt : forall r, In r (t_blt T) -> bl_running r = 1 ->
             step_shown rec (bl_clk r) (bl_pc r) (mkInst BLTU (mkArgs 0 (bl_rs1 r) (bl_rs2 r) (bl_imm r))) (bl_op1 r) (bl_op2 r) 0 ;
  (** every load row of the memory table shows a byte of memory before a step, every store row one after a step *)
  ds_load : forall r, In r (t_mem T) -> m_load r = 1 -> exists k w, executed rec !! k = Some w /\ clk (rstate w) = m_clk r /\ load_u8 (rstate w) (m_addr r) = m_value r;
  ds_store : forall r, In r (t_mem T) -> m_store r = 1 -> exists k w s', executed rec !! k = Some w /\ state_at rec (S k) = Some s' /\
               clk (rstate w) = m_clk r /\ load_u8 s' (m_addr r) = m_value r }.
