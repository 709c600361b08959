(** Specification side of the state-table properties. *)
From Verif Require Export StateModel CircuitSpec.
Open Scope Z_scope.

(** ** "Reads return the last write" for any kind of table
    [r], a read of address [addr r] at time [time r], returns the value of the latest write to that address before that
    time, or the initial value if there is none. *)
Definition reads_last_write {R} (t : list R) (is_init is_write : R -> Prop) (addr time value : R -> Z) (r : R) : Prop :=
  (exists w, In w t /\ is_write w /\ addr w = addr r /\ time w < time r /\ value w = value r /\
     forall w', In w' t -> is_write w' -> addr w' = addr r -> time w' < time r -> time w' <= time w) \/
  ((forall w', In w' t -> is_write w' -> addr w' = addr r -> time r <= time w') /\
   exists i, In i t /\ is_init i /\ addr i = addr r /\ value i = value r).

(** ** Accepted skeleton *)
Record skel_accepted (entry : Z) (t : list skel) : Prop := {
  sa_sat : trace_sat (skel_air entry) t;
  sa_canon : Forall (fun r => canon (sk_clk r) /\ canon (sk_pc r) /\ canon (sk_running r)) t;
  sa_len : max_rows t }.

(** ** Accepted register table *)
(** range checks: the values sent to the range-check table with a non-zero filter are 32-bit numbers (see C34) *)
Definition range_checked (e : entries) : Prop := forall v f, In ([v], f) e -> ~ fzero f -> u32 (v mod P).
Definition reg_canon (r : regrow) : Prop :=
  canon (g_addr r) /\ canon (g_value r) /\ canon (g_clk r) /\ canon (g_init r) /\ canon (g_read r) /\ canon (g_write r).
Record reg_accepted (t : list regrow) : Prop := {
  ra_sat : trace_sat reg_air t;
  ra_canon : Forall reg_canon t;
  ra_len : max_rows t;
  ra_rc : range_checked (reg_rc_looking t);
  (** what the register lookup gives: initialisation happens at clock 0 (register/init), accesses at clocks of the
      skeleton, which are below 2^33 (C29) *)
  ra_init : Forall (fun r => g_init r = 1 -> g_clk r = 0) t;
  ra_clk : Forall (fun r => g_rw r = 1 -> g_clk r < 2 ^ 40) t }.
(** every register is initialised before it is accessed (a register may have several initial rows: those generated for x31
    are doubled by padding, see C78) *)
Record reg_init_first (t : list regrow) : Prop := {
  ro_first : forall r, t !! 0%nat = Some r -> g_init r = 1;
  ro_before : forall i j r r', t !! i = Some r -> t !! j = Some r' -> g_rw r = 1 -> g_init r' = 1 -> g_addr r = g_addr r' -> (j < i)%nat }.

(** ** Accepted memory table *)
Definition mem_canon (r : memrow) : Prop :=
  canon (m_writable r) /\ canon (m_addr r) /\ canon (m_clk r) /\ canon (m_store r) /\ canon (m_load r) /\ canon (m_init r) /\ canon (m_value r).
Record mem_accepted (t : list memrow) : Prop := {
  ma_sat : trace_sat mem_air t;
  ma_canon : Forall mem_canon t;
  ma_len : max_rows t;
  ma_rc : range_checked (mem_rc_looking t);
  ma_u8 : forall v f, In ([v], f) (mem_u8_looking t) -> ~ fzero f -> u8 v;
  (** what the lookups give: initialisation happens at clock 0 or 1 (memory_zeroinit, memoryinit), accesses at clocks of
      the skeleton *)
  ma_init : Forall (fun r => m_init r = 1 -> m_clk r = 0 \/ m_clk r = 1) t;
  ma_clk : Forall (fun r => m_store r + m_load r = 1 -> m_clk r < 2 ^ 40) t }.

(** ** Half- and full-word tables together with the memory and CPU tables they are linked to *)
Definition word_typed (n : nat) (r : wordrow) : Prop :=
  length (w_addrs r) = n /\ length (w_limbs r) = n /\ Forall canon ([w_clk r; w_store r; w_load r] ++ w_addrs r ++ w_limbs r).
(** [others]: what the storage-device and Poseidon2 tables send to memory (with filters 0 or 1; at most 2^40 entries,
    tables having at most 2^32 rows) *)
Record mem_system (cpus : list cpu) (half full : list wordrow) (others : entries) (mem : list memrow) : Prop := {
  ms_cpu : cpu_accepted cpus;
  ms_half : trace_sat half_air half; ms_half_typed : Forall (word_typed 2) half; ms_half_len : max_rows half;
  ms_full : trace_sat full_air full; ms_full_typed : Forall (word_typed 4) full; ms_full_len : max_rows full;
  ms_mem : mem_accepted mem;
  ms_others : Forall (fun e => bit (snd e)) others; ms_others_len : Z.of_nat (length others) <= 2 ^ 40;
  (** mozak_stark.rs IntoMemoryTable, HalfWordMemoryCpuTable, FullWordMemoryCpuTable *)
  ms_into : ctl_ok (cpu_byte_looking cpus ++ others ++ word_limb_looking 4 full ++ word_limb_looking 2 half) (mem_looked mem);
  ms_half_ctl : ctl_ok (cpu_half_looking cpus) (word_looked half);
  ms_full_ctl : ctl_ok (cpu_full_looking cpus) (word_looked full) }.
(** the memory table has an access of this kind ([st] = 1: store, [ld] = 1: load) *)
Definition accesses (mem : list memrow) (clk st ld addr value : Z) : Prop :=
  exists m, In m mem /\ m_clk m = clk /\ m_store m = st /\ m_load m = ld /\ m_addr m = addr /\ m_value m = value.

(** ** The program ROM with the tables that look instructions up in it *)
(** mozak_stark.rs InnerCpuTable, ProgramCpuTable. The last two fields say what the ADD and BLT tables fail to enforce
    (their [is_running] columns are not constrained). *)
Record rom_system (cpus : list cpu) (adds : list add_row) (blts : list blt_row) (mults : list multrow) (rom : list romrow) : Prop := {
  rs_cpu : cpu_accepted cpus;
  rs_inner : ctl_ok (add_rom_looking adds ++ blt_rom_looking blts ++ cpu_rom_looking cpus) (mult_cpu_looked mults);
  rs_rom : ctl_ok (mult_rom_looking mults) (rom_looked rom);
  rs_len : max_rows adds /\ max_rows blts /\ max_rows mults;
  rs_add : Forall (fun r => bit (ad_running r)) adds;
  rs_blt : Forall (fun r => bit (bl_running r)) blts }.
