(** Model of the tables that hold machine state or the program: CPU skeleton, registers, memory and its half- and
    full-word front ends, memory initialisation, program ROM. *)
From Verif Require Export TablesModel.
Open Scope Z_scope.

(** circuits/src/cross_table_lookup.rs / itertools circular_tuple_windows: each row with its successor, the successor
    of the last row being the first one. A looking or looked column may mention the successor ([flip], [diff]). *)
Definition windows {R} (t : list R) : list (R * R) := combine t (tail t ++ take 1 t).

(** ** CPU skeleton (circuits/src/cpu_skeleton) *)
(** cpu_skeleton/columns.rs:8-17 *)
Record skel := mkSkel { sk_clk : Z; sk_pc : Z; sk_running : Z }.
(** cpu_skeleton/stark.rs:37-77 generate_constraints; [entry] is the public input *)
Definition skel_air (entry : Z) : air skel :=
  mkAir (fun lv => [sk_pc lv - entry; sk_clk lv - 2; sk_running lv - 1])
        (fun _ _ => [])
        (fun lv nv => let clock_diff := sk_clk nv - sk_clk lv in
           [is_binary clock_diff; clock_diff - sk_running lv; sk_running nv * (sk_running nv - sk_running lv)])
        (fun lv => [sk_running lv]).
(** cpu_skeleton/columns.rs:29-41 lookup_for_cpu: (clk, pc, new_pc, will_halt) *)
Definition skel_looked (t : list skel) : entries :=
  map (fun '(lv, nv) => ([sk_clk lv; sk_pc lv; sk_pc nv; 1 - sk_running nv], sk_running lv)) (windows t).
(** cpu/columns.rs:512-523 lookup_for_skeleton *)
Definition cpu_skeleton_looking (t : list cpu) : entries :=
  map (fun r => ([c_clk r; c_pc r; c_new_pc r; c_ecall r e_halt], is_running r)) t.

(** utils.rs pad_trace_with_last: up to the next power of two, at least 8 rows *)
Definition pad_last {R} (d : R) (t : list R) : list R := pad_with (List.last t d) t.
(** cpu_skeleton/generation.rs:10-39 generate_cpu_skeleton_trace: one row per executed step and one for the final state *)
Definition gen_skel_row (s : state) : skel := mkSkel (clk s mod P) (pc s) (b2z (negb (halted s))).
Definition generate_skel_trace (executed : list state) (last_state : state) : list skel :=
  pad_last (mkSkel 0 0 0) (map gen_skel_row (executed ++ [last_state])).

(** ** Registers (circuits/src/register) *)
(** register/general/columns.rs:58-105 *)
Record regrow := mkReg { g_addr : Z; g_value : Z; g_clk : Z; g_init : Z; g_read : Z; g_write : Z }.
Definition g_used (r : regrow) : Z := g_init r + g_read r + g_write r.
Definition g_rw (r : regrow) : Z := g_read r + g_write r.
(** register/general/columns.rs:105 augmented_clk *)
Definition g_aug (r : regrow) : Z := g_clk r + g_clk r + g_write r.
(** register/general/stark.rs:46-90 generate_constraints *)
Definition reg_air : air regrow :=
  mkAir (fun lv => [g_addr lv - 1])
        (fun lv _ => [is_binary (g_init lv); is_binary (g_read lv); is_binary (g_write lv); is_binary (g_used lv)])
        (fun lv nv => [g_used nv * (g_used nv - g_used lv);
                       g_read nv * (g_value nv - g_value lv);
                       (g_read nv + g_write nv) * (g_addr nv - g_addr lv);
                       (g_addr nv - g_addr lv) * (g_addr nv - g_addr lv - 1)])
        (fun lv => [g_addr lv - 31]).
(** register/general/columns.rs:108-121 register_looked: op is the ascending sum of (init, read, write) *)
Definition reg_looked (t : list regrow) : entries :=
  map (fun r => ([g_clk r; 0 * g_init r + 1 * g_read r + 2 * g_write r; g_addr r; g_value r], g_read r + g_write r + g_init r)) t.
(** register/general/columns.rs:123-129 rangecheck_looking *)
Definition reg_rc_looking (t : list regrow) : entries :=
  map (fun '(lv, nv) => ([g_aug nv - g_aug lv], g_rw nv)) (windows t).
(** register/init/columns.rs:12-36 *)
Record reginit := mkRegInit { ri_addr : Z; ri_value : Z }.
Definition reginit_looking (t : list reginit) : entries := map (fun r => ([0; 0; ri_addr r; ri_value r], 1)) t.
(** register/zero_read/columns.rs:13-45 *)
Record zread := mkZRead { zr_clk : Z; zr_used : Z }.
Definition zread_looked (t : list zread) : entries := map (fun r => ([zr_clk r; 1; 0; 0], zr_used r)) t.
(** register/zero_write/columns.rs:13-52 *)
Record zwrite := mkZWrite { zw_clk : Z; zw_value : Z; zw_used : Z }.
Definition zwrite_looked (t : list zwrite) : entries := map (fun r => ([zw_clk r; 2; 0; zw_value r], zw_used r)) t.
(** cpu/columns.rs:476-510, ops/add/mod.rs:46-81, ops/blt_taken/mod.rs:43-70 register_looking: (clk, op, addr, value) *)
Definition cpu_reg_looking (t : list cpu) : entries :=
  map (fun r => ([c_clk r; 1; i_rs1 (c_inst r); c_op1_value r], is_running r)) t
  ++ map (fun r => ([c_clk r; 1; i_rs2 (c_inst r); c_op2_value_raw r], is_running r)) t
  ++ map (fun r => ([c_clk r; 2; i_rd (c_inst r); c_dst_value r], is_running r)) t.
Definition add_reg_looking (t : list add_row) : entries :=
  map (fun r => ([ad_clk r; 1; ad_rs1 r; ad_op1 r], ad_running r)) t
  ++ map (fun r => ([ad_clk r; 1; ad_rs2 r; ad_op2 r], ad_running r)) t
  ++ map (fun r => ([ad_clk r; 2; ad_rd r; ad_dst r], ad_running r)) t.
Definition blt_reg_looking (t : list blt_row) : entries :=
  map (fun r => ([bl_clk r; 1; bl_rs1 r; bl_op1 r], bl_running r)) t
  ++ map (fun r => ([bl_clk r; 1; bl_rs2 r; bl_op2 r], bl_running r)) t.

(** ** Memory (circuits/src/memory) *)
(** memory/columns.rs:17-51 *)
Record memrow := mkMemRow {
  m_writable : Z; m_addr : Z; m_clk : Z; m_store : Z; m_load : Z; m_init : Z; m_value : Z }.
(** memory/columns.rs:166-168 *)
Definition m_executed (r : memrow) : Z := m_store r + m_load r + m_init r.
(** the column of memory/columns.rs:183-189 whose difference is range checked *)
Definition m_aug (r : memrow) : Z := m_clk r * 4 - m_store r - m_load r * 2 - m_init r * 3.
(** memory/stark.rs:32-82 generate_constraints *)
Definition mem_air : air memrow :=
  mkAir (fun lv => [m_addr lv - 0])
        (fun lv nv =>
           [is_binary (m_writable lv); is_binary (m_store lv); is_binary (m_load lv); is_binary (m_init lv);
            is_binary (m_executed lv);
            (1 - m_init nv) * (m_addr nv - m_addr lv);
            (1 - m_init nv) * (m_writable nv - m_writable lv);
            (1 - m_writable lv) * m_store lv;
            m_load nv * (m_value nv - m_value lv)])
        (fun lv nv => [(m_executed lv - m_executed nv) * m_executed nv])
        (fun lv => [m_addr lv - 4294967295]).
(** memory/columns.rs:171-191 rangecheck_looking *)
Definition mem_rc_looking (t : list memrow) : entries :=
  map (fun '(lv, nv) => ([m_addr nv - m_addr lv - m_init nv], m_executed lv)) (windows t)
  ++ map (fun '(lv, nv) => ([m_aug nv - m_aug lv], 1 - m_init nv)) (windows t).
(** memory/columns.rs:193-200 rangecheck_u8_looking *)
Definition mem_u8_looking (t : list memrow) : entries := map (fun r => ([m_value r], m_executed r)) t.
(** memory/columns.rs:212-227 lookup_for_cpu: (clk, is_store, is_load, addr, value) *)
Definition mem_looked (t : list memrow) : entries :=
  map (fun r => ([m_clk r; m_store r; m_load r; m_addr r; m_value r], m_store r + m_load r)) t.
(** memory/columns.rs:229-242 lookup_for_memoryinit: (is_writable, address, clk, value) *)
Definition mem_init_looked (t : list memrow) : entries :=
  map (fun r => ([m_writable r; m_addr r; m_clk r; m_value r], m_init r)) t.
(** memoryinit/columns.rs:8-64, memory_zeroinit/columns.rs:8-32 *)
Record meminit := mkMemInit { mi_addr : Z; mi_value : Z; mi_filter : Z; mi_writable : Z }.
Definition meminit_looking (t : list meminit) : entries :=
  map (fun r => ([mi_writable r; mi_addr r; 1; mi_value r], mi_filter r)) t.
Record zeroinit := mkZeroInit { zi_addr : Z; zi_filter : Z }.
Definition zeroinit_looking (t : list zeroinit) : entries := map (fun r => ([1; zi_addr r; 0; 0], zi_filter r)) t.

(** ** Half- and full-word memory (circuits/src/memory_halfword, memory_fullword) *)
(** memory_halfword/columns.rs:9-43, memory_fullword/columns.rs:7-42 *)
Record wordrow := mkWordRow { w_clk : Z; w_store : Z; w_load : Z; w_addrs : list Z; w_limbs : list Z }.
Definition w_executed (r : wordrow) : Z := w_load r + w_store r.
(** memory_halfword/stark.rs:31-51 *)
Definition half_constraints (r : wordrow) : list Z :=
  let a0 := nth 0 (w_addrs r) 0 in let a1 := nth 1 (w_addrs r) 0 in
  let added := a0 + 1 in let wrapped := added - 2 ^ 32 in
  [is_binary (w_store r); is_binary (w_load r); is_binary (w_executed r);
   w_executed r * (a1 - added) * (a1 - wrapped)].
(** memory_fullword/stark.rs:31-50 *)
Definition full_constraints (r : wordrow) : list Z :=
  [is_binary (w_store r); is_binary (w_load r); is_binary (w_executed r)]
  ++ map (fun i => let addr := nth i (w_addrs r) 0 in let target := nth 0 (w_addrs r) 0 + Z.of_nat i in
            w_executed r * (addr - target) * (addr + 2 ^ 32 - target)) [1; 2; 3]%nat.
Definition half_air : air wordrow := mkAir (fun _ => []) (fun r _ => half_constraints r) (fun _ _ => []) (fun _ => []).
Definition full_air : air wordrow := mkAir (fun _ => []) (fun r _ => full_constraints r) (fun _ _ => []) (fun _ => []).
(** memory_halfword/columns.rs:48-61, memory_fullword/columns.rs:47-61 lookup_for_cpu *)
Definition word_looked (t : list wordrow) : entries :=
  map (fun r => ([w_clk r; w_store r; w_load r; nth 0 (w_addrs r) 0; reduce_with_powers (w_limbs r) 256], w_executed r)) t.
(** memory_halfword/columns.rs:63-77, memory_fullword/columns.rs:63-78 lookup_for_memory_limb *)
Definition word_limb_looking (n : nat) (t : list wordrow) : entries :=
  flat_map (fun i => map (fun r => ([w_clk r; w_store r; w_load r; nth i (w_addrs r) 0; nth i (w_limbs r) 0], w_executed r)) t) (seq 0 n).
(** cpu/columns.rs:339-386 lookup_for_memory, lookup_for_halfword_memory, lookup_for_fullword_memory *)
Definition cpu_mem_looking (st ld : osel) (t : list cpu) : entries :=
  map (fun r => ([c_clk r; c_op r st; c_op r ld; c_mem_addr r; c_mem_value_raw r], c_op r st + c_op r ld)) t.
Definition cpu_byte_looking := cpu_mem_looking o_sb o_lb.
Definition cpu_half_looking := cpu_mem_looking o_sh o_lh.
Definition cpu_full_looking := cpu_mem_looking o_sw o_lw.

(** ** Program ROM (circuits/src/program, program_multiplicities) *)
(** linear_combination_typed.rs ascending_sum: the sum of i times the i-th component *)
Definition ascending_sum (l : list Z) : Z := sumZ (map (fun '(i, x) => Z.of_nat i * x) (combine (seq 0 (length l)) l)).
(** cpu/columns.rs:433-466 lookup_for_program_rom, program/columns.rs:26-54 From<Instruction> for ProgramRom: the packed
    instruction. is_dst_signed is not part of it. *)
Definition inst_data (c : icols) : Z :=
  reduce_with_powers [ascending_sum (map (i_ops c) all_osel); i_op1_signed c; i_op2_signed c; i_rs1 c; i_rs2 c; i_rd c; i_imm c] (2 ^ 5).
Definition cpu_rom_looking (t : list cpu) : entries := map (fun r => ([c_pc r; inst_data (c_inst r)], is_running r)) t.
(** ops/add/mod.rs:105-141 *)
Definition add_rom_looking (t : list add_row) : entries :=
  map (fun r => ([ad_pc r; reduce_with_powers [0; 0; 0; ad_rs1 r; ad_rs2 r; ad_rd r; ad_imm r] (2 ^ 5)], ad_running r)) t.
(** ops/blt_taken/mod.rs:95-132 *)
Definition blt_rom_looking (t : list blt_row) : entries :=
  map (fun r => ([bl_pc r; reduce_with_powers [22; 0; 0; bl_rs1 r; bl_rs2 r; 0; bl_imm r] (2 ^ 5)], bl_running r)) t.
(** program/columns.rs:10-24, program/generation.rs:9-26 generate_program_rom_trace: the rows in ascending order of pc *)
Record romrow := mkRom { ro_pc : Z; ro_data : Z }.
Definition rom_looked (t : list romrow) : entries := map (fun r => ([ro_pc r; ro_data r], 1)) t.
Definition rom_of (p : program) : list romrow :=
  omap (fun '(a, d) => match d with inl i => Some (mkRom a (inst_data (inst_cols a i))) | inr _ => None end)
    (map_to_list (ro_code p)).
(** program_multiplicities/columns.rs:9-33 *)
Record multrow := mkMult { mu_pc : Z; mu_data : Z; mu_mult : Z }.
Definition mult_cpu_looked (t : list multrow) : entries := map (fun r => ([mu_pc r; mu_data r], mu_mult r)) t.
Definition mult_rom_looking (t : list multrow) : entries := map (fun r => ([mu_pc r; mu_data r], 1)) t.

(** ** Generation of the half- and full-word tables *)
Definition is_half_op (o : op) : bool := match o with LH | LHU | SH => true | _ => false end.
Definition is_full_op (o : op) : bool := match o with LW | SW => true | _ => false end.
(** memory/trace.rs get_memory_inst_addr: [aux.mem.unwrap_or_default().addr] *)
Definition aux_addr (a : aux) : Z := match amem a with Some m => me_addr m | None => 0 end.
(** memory_halfword/generation.rs:40-57: the limbs come from [aux.dst_val], not from the raw memory value *)
Definition gen_half_row (s : state) (i : instruction) (a : aux) : wordrow :=
  mkWordRow (clk s mod P) (b2z (match iop i with SH => true | _ => false end)) (b2z (match iop i with LH | LHU => true | _ => false end))
    [aux_addr a; wadd (aux_addr a) 1] [Z.land (dst_val a) 255; Z.land (Z.shiftr (dst_val a) 8) 255].
(** memory_fullword/generation.rs:41-66 *)
Definition gen_full_row (s : state) (i : instruction) (a : aux) : wordrow :=
  mkWordRow (clk s mod P) (b2z (match iop i with SW => true | _ => false end)) (b2z (match iop i with LW => true | _ => false end))
    (map (fun k => wadd (aux_addr a) (Z.of_nat k)) (seq 0 4)) (to_le_bytes32 (dst_val a)).
(** memory_halfword/generation.rs:10-24, memory_fullword/generation.rs:10-24 pad_mem_trace: the last row with its
    operation columns cleared *)
Definition pad_word (n : nat) (t : list wordrow) : list wordrow :=
  let l := List.last t (mkWordRow 0 0 0 (repeat 0 n) (repeat 0 n)) in
  pad_with (mkWordRow (w_clk l) 0 0 (w_addrs l) (w_limbs l)) t.
(** memory_halfword/generation.rs:28-59, memory_fullword/generation.rs:28-66; a row is (state, instruction, aux) *)
Definition generate_half_trace (rows : list (state * instruction * aux)) : list wordrow :=
  pad_word 2 (map (fun '(s, i, a) => gen_half_row s i a) (List.filter (fun '(_, i, _) => is_half_op (iop i)) rows)).
Definition generate_full_trace (rows : list (state * instruction * aux)) : list wordrow :=
  pad_word 4 (map (fun '(s, i, a) => gen_full_row s i a) (List.filter (fun '(_, i, _) => is_full_op (iop i)) rows)).

(** ** The generated CPU table (circuits/src/cpu/generation.rs:22-33 pad_trace, 56-155 generate_cpu_trace) *)
Definition generate_cpu_trace (rows : list (state * instruction * aux)) : list cpu :=
  pad_with pad_row (map (fun '(s, i, a) => gen_row s i a) (List.filter (fun '(s, i, _) => negb (handled_elsewhere s i)) rows)).
