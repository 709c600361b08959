(** Specification side of C79: what the proof system checks about a set of tables. *)
From Verif Require Export ProofGenModel RunnerSpec CircuitSpec.
Open Scope Z_scope.

(** memoryinit/stark.rs:31-40, memory_zeroinit/stark.rs:31-40: the filter is binary *)
Definition meminit_air : air meminit := mkAir (fun _ => []) (fun r _ => [is_binary (mi_filter r)]) (fun _ _ => []) (fun _ => []).
Definition zeroinit_air : air zeroinit := mkAir (fun _ => []) (fun r _ => [is_binary (zi_filter r)]) (fun _ _ => []) (fun _ => []).

(** Every table satisfies its own constraints. Range check, program, program multiplicities, BLTU, initial registers, reads
    and writes of x0 have none (Unstark). The program's entry point is the public input of the skeleton. *)
Record constraints_hold (K : p2consts) (p : program) (T : tables) : Prop := {
  ch_cpu : trace_sat cpu_air (t_cpu T);
  ch_skel : trace_sat (skel_air (entry_point p)) (t_skel T);
  ch_add : trace_sat add_air (t_add T);
  ch_xor : trace_sat xor_air (t_xor T);
  ch_shift : trace_sat shift_air (t_shift T);
  ch_elf : trace_sat meminit_air (t_elf T);
  ch_zero : trace_sat zeroinit_air (t_zero T);
  ch_half : trace_sat half_air (t_half T);
  ch_full : trace_sat full_air (t_full T);
  ch_tape : forall o, In o tape_order -> trace_sat sd_air (t_tape T o);
  ch_sponge : trace_sat sponge_air (t_sponge T);
  ch_ob : trace_sat ob_air (t_ob T);
  ch_perm : trace_sat (perm_air K) (t_perm T);
  ch_mem : trace_sat mem_air (t_mem T);
  ch_reg : trace_sat reg_air (t_reg T);
  ch_u8 : trace_sat u8_air (t_u8 T);
  ch_tc : trace_sat tc_air (t_tc T) }.

(** The eighteen cross-table lookups of stark/mozak_stark.rs:682-971 hold: each side sends the same tuples with the same
    multiplicities, in the field. *)
Record lookups_hold (T : tables) : Prop := {
  lh_skeleton : ctl_ok (cpu_skeleton_looking (t_cpu T) ++ add_skeleton_looking (t_add T) ++ blt_skeleton_looking (t_blt T)) (skel_looked (t_skel T));
  lh_rangecheck : ctl_ok (mem_rc_looking (t_mem T) ++ cpu_rc_looking (t_cpu T) ++ add_rc_looking (t_add T) ++ reg_rc_looking (t_reg T)) (rc_looked (t_rc T));
  lh_xor : ctl_ok (xor_looking (t_cpu T)) (xor_looked (t_xor T));
  lh_memory : ctl_ok (cpu_byte_looking (t_cpu T) ++ all_sd_mem_looking (t_tape T) ++ word_limb_looking 4 (t_full T) ++ word_limb_looking 2 (t_half T)
                      ++ sp_mem_looking (t_sponge T) ++ ob_mem_looking (t_ob T)) (mem_looked (t_mem T));
  lh_meminit : ctl_ok (meminit_looking (t_elf T) ++ zeroinit_looking (t_zero T)) (mem_init_looked (t_mem T));
  lh_shift : ctl_ok (shift_looking (t_cpu T)) (shift_looked (t_shift T));
  lh_program : ctl_ok (add_rom_looking (t_add T) ++ blt_rom_looking (t_blt T) ++ cpu_rom_looking (t_cpu T)) (mult_cpu_looked (t_mult T));
  lh_rom : ctl_ok (mult_rom_looking (t_mult T)) (rom_looked (t_rom T));
  lh_u8 : ctl_ok (rc_u8_looking (t_rc T) ++ mem_u8_looking (t_mem T)) (u8_looked (t_u8 T));
  lh_half : ctl_ok (cpu_half_looking (t_cpu T)) (word_looked (t_half T));
  lh_full : ctl_ok (cpu_full_looking (t_cpu T)) (word_looked (t_full T));
  lh_register : ctl_ok (cpu_reg_looking (t_cpu T) ++ add_reg_looking (t_add T) ++ blt_reg_looking (t_blt T) ++ all_sd_reg_looking (t_tape T)
                        ++ sp_reg_looking (t_sponge T) ++ reginit_looking (t_reginit T))
                       (reg_looked (t_reg T) ++ zread_looked (t_zread T) ++ zwrite_looked (t_zwrite T));
  lh_tapes : ctl_ok (all_sd_cpu_looking (t_tape T)) (cpu_sd_looked (t_cpu T));
  lh_hash : ctl_ok (sp_cpu_looking (t_sponge T)) (cpu_sp_looked (t_cpu T));
  lh_perm : ctl_ok (perm_looking (t_perm T)) (sp_perm_looked (t_sponge T));
  lh_digest : ctl_ok (ob_looking (t_ob T)) (sp_out_looked (t_sponge T));
  lh_event : ctl_ok (tc_looking (t_tape T StoreEventsCommitmentTape)) (tc_event_looked (t_tc T));
  lh_cast : ctl_ok (tc_looking (t_tape T StoreCastListCommitmentTape)) (tc_cast_looked (t_tc T)) }.

(** The code of a program consists of decoded RV32IM instructions, each in the internal form for its own address. *)
Definition decoded_code (p : program) : Prop := forall a i, ro_code p !! a = Some (inl i) -> exists rv, rv_ok rv /\ i = lower a rv.
