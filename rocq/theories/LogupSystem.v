(** The eighteen cross-table lookups and the two public sub tables of the system, as lists of tables in the order of the
    code, for the compressed comparison of LogupModel. *)
From Verif Require Export LogupSpec ProofGenSpec.
Open Scope Z_scope.

(** circuits/src/cpu/columns.rs:299-330 rangecheck_looking: one table per range-checked expression *)
Definition cpu_rc_tables (t : list cpu) : list entries :=
  map (fun k => map (fun r => let '(v, f) := nth k (rangecheck_looking r) (0, 0) in ([v], f)) t) (seq 0 12).
(** circuits/src/memory/columns.rs:178-197 *)
Definition mem_rc_tables (t : list memrow) : list entries :=
  [map (fun '(lv, nv) => ([m_addr nv - m_addr lv - m_init nv], m_executed lv)) (windows t);
   map (fun '(lv, nv) => ([m_aug nv - m_aug lv], 1 - m_init nv)) (windows t)].
(** circuits/src/rangecheck/columns.rs:34-38 *)
Definition rc_u8_tables (t : list rc_row) : list entries := map (fun i => map (fun r => ([nth i (rc_limbs r) 0], rc_mult r)) t) (seq 0 4).
(** circuits/src/memory_fullword/columns.rs:68-81, memory_halfword/columns.rs:66-79 *)
Definition word_limb_tables (n : nat) (t : list wordrow) : list entries :=
  map (fun i => map (fun r => ([w_clk r; w_store r; w_load r; nth i (w_addrs r) 0; nth i (w_limbs r) 0], w_executed r)) t) (seq 0 n).
(** circuits/src/poseidon2_sponge/columns.rs lookup_for_input_memory, circuits/src/poseidon2_output_bytes/columns.rs
    lookup_for_output_memory *)
Definition sp_mem_tables (t : list sprow) : list entries :=
  map (fun k => map (fun r => ([s_clk r; 0; 1; s_in r + Z.of_nat k; at_ (s_pre r) k], s_executed r)) t) (seq 0 8).
Definition ob_mem_tables (t : list obrow) : list entries :=
  map (fun k => map (fun r => ([o_clk r; 1; 0; o_addr r + Z.of_nat k; at_ (o_bytes r) k], o_exe r)) t) (seq 0 32).
(** circuits/src/cpu/columns.rs, ops/add/columns.rs, ops/blt_taken/columns.rs, poseidon2_sponge/columns.rs register_looking *)
Definition cpu_reg_tables (t : list cpu) : list entries :=
  [map (fun r => ([c_clk r; 1; i_rs1 (c_inst r); c_op1_value r], is_running r)) t;
   map (fun r => ([c_clk r; 1; i_rs2 (c_inst r); c_op2_value_raw r], is_running r)) t;
   map (fun r => ([c_clk r; 2; i_rd (c_inst r); c_dst_value r], is_running r)) t].
Definition add_reg_tables (t : list add_row) : list entries :=
  [map (fun r => ([ad_clk r; 1; ad_rs1 r; ad_op1 r], ad_running r)) t;
   map (fun r => ([ad_clk r; 1; ad_rs2 r; ad_op2 r], ad_running r)) t;
   map (fun r => ([ad_clk r; 2; ad_rd r; ad_dst r], ad_running r)) t].
Definition blt_reg_tables (t : list blt_row) : list entries :=
  [map (fun r => ([bl_clk r; 1; bl_rs1 r; bl_op1 r], bl_running r)) t;
   map (fun r => ([bl_clk r; 1; bl_rs2 r; bl_op2 r], bl_running r)) t].
Definition sp_reg_tables (t : list sprow) : list entries :=
  [map (fun r => ([s_clk r; 1; REG_A1; s_in r], s_init r)) t;
   map (fun r => ([s_clk r; 1; REG_A2; s_len r], s_init r)) t;
   map (fun r => ([s_clk r; 1; REG_A3; s_out r], s_init r)) t].

(** circuits/src/stark/mozak_stark.rs:454-473 the lookups in their order, each with its looking and its looked tables as
    listed in lines 684-971 *)
Definition system_lookups (T : tables) : list (list entries * list entries) :=
  [ (mem_rc_tables (t_mem T) ++ cpu_rc_tables (t_cpu T) ++ [add_rc_looking (t_add T)] ++ [reg_rc_looking (t_reg T)], [rc_looked (t_rc T)]);
    ([xor_looking (t_cpu T)], [xor_looked (t_xor T)]);
    ([shift_looking (t_cpu T)], [shift_looked (t_shift T)]);
    ([add_rom_looking (t_add T); blt_rom_looking (t_blt T); cpu_rom_looking (t_cpu T)], [mult_cpu_looked (t_mult T)]);
    ([mult_rom_looking (t_mult T)], [rom_looked (t_rom T)]);
    ([cpu_byte_looking (t_cpu T)] ++ map (fun o => sd_mem_looking (t_tape T o)) tape_order ++ word_limb_tables 4 (t_full T)
       ++ word_limb_tables 2 (t_half T) ++ sp_mem_tables (t_sponge T) ++ ob_mem_tables (t_ob T), [mem_looked (t_mem T)]);
    ([meminit_looking (t_elf T); zeroinit_looking (t_zero T)], [mem_init_looked (t_mem T)]);
    (rc_u8_tables (t_rc T) ++ [mem_u8_looking (t_mem T)], [u8_looked (t_u8 T)]);
    ([cpu_half_looking (t_cpu T)], [word_looked (t_half T)]);
    ([cpu_full_looking (t_cpu T)], [word_looked (t_full T)]);
    (cpu_reg_tables (t_cpu T) ++ add_reg_tables (t_add T) ++ blt_reg_tables (t_blt T)
       ++ map (fun o => sd_reg_looking (t_tape T o)) [StorePrivate; StorePublic; StoreCallTape; StoreEventsCommitmentTape; StoreCastListCommitmentTape; StoreSelfProgIdTape]
       ++ sp_reg_tables (t_sponge T) ++ [reginit_looking (t_reginit T)], [reg_looked (t_reg T); zread_looked (t_zread T); zwrite_looked (t_zwrite T)]);
    (map (fun '(k, o) => sd_cpu_looking k (t_tape T o)) (List.combine (seq 0 7) tape_order), [cpu_sd_looked (t_cpu T)]);
    ([sp_cpu_looking (t_sponge T)], [cpu_sp_looked (t_cpu T)]);
    ([perm_looking (t_perm T)], [sp_perm_looked (t_sponge T)]);
    ([ob_looking (t_ob T)], [sp_out_looked (t_sponge T)]);
    ([cpu_skeleton_looking (t_cpu T); add_skeleton_looking (t_add T); blt_skeleton_looking (t_blt T)], [skel_looked (t_skel T)]);
    ([tc_looking (t_tape T StoreEventsCommitmentTape)], [tc_event_looked (t_tc T)]);
    ([tc_looking (t_tape T StoreCastListCommitmentTape)], [tc_cast_looked (t_tc T)]) ].
(** circuits/src/stark/mozak_stark.rs:474-477 the public sub tables, each with one column *)
Definition system_publics (T : tables) (events casts : list Z) : list (entries * list (list Z)) :=
  [ (tc_event_public (t_tc T), map (fun x => [x]) events); (tc_cast_public (t_tc T), map (fun x => [x]) casts) ].

(** What the comparison stands for: every lookup balances, and the public values are those of the tables. *)
Definition balanced (T : tables) (events casts : list Z) : Prop :=
  lookups_hold T /\ ctl_ok (tc_event_public (t_tc T)) (public_values events) /\ ctl_ok (tc_cast_public (t_tc T)) (public_values casts).

(** circuits/src/stark/batch_verifier.rs:104-167 and verifier.rs:40-84: the part of the verifier that looks across tables, for
    one challenge *)
Definition system_accepted (T : tables) (events casts : list Z) (c : challenge) : Prop :=
  Forall (fun '(a, b) => lookup_accepted a b c) (system_lookups T) /\
  Forall (fun '(e, vs) => public_accepted e vs c) (system_publics T events casts).

(** The columns of the tables that are lists in the model have as many elements as the code's arrays. *)
Record tables_shaped (T : tables) : Prop := {
  sh_perm : Forall (fun r => length (q_input r ++ last_state_of (q_second r)) = 24%nat) (t_perm T);
  sh_sponge : Forall (fun r => length (s_pre r) = 12%nat /\ length (s_post r) = 12%nat) (t_sponge T);
  sh_ob : Forall (fun r => length (o_fields r) = 4%nat) (t_ob T) }.

(** The rows of the tables of every lookup, and of every public sub table with its values, number at most [R]. *)
Definition rows_bounded (R : Z) (T : tables) (events casts : list Z) : Prop :=
  Forall (fun '(a, b) => total_rows (a ++ b) <= R) (system_lookups T) /\
  Forall (fun '(e, vs) => total_rows [e; as_entries vs] <= R) (system_publics T events casts).

(** No row of any table taking part is compressed to zero. *)
Definition system_nonzero (T : tables) (events casts : list Z) (c : challenge) : Prop :=
  Forall (fun '(a, b) => nonzero_denominators c (a ++ b)) (system_lookups T) /\
  Forall (fun '(e, vs) => nonzero_denominators c [e; as_entries vs]) (system_publics T events casts).
