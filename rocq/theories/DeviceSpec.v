(** Specification side of the tape-table properties. *)
From Verif Require Export DeviceModel StateSpec RunSpec.
Open Scope Z_scope.

(** ** What an execution reads from a tape *)
(** the read of tape [o] performed by one executed step, if any: (clock, start address, bytes delivered) *)
Definition tape_read (o : sd_op) (x : state * instruction * aux) : option (Z * Z * list Z) :=
  let '(s, i, _) := x in
  if bool_decide (iop i = ECALL) && bool_decide (read_call (reg s REG_A0) = Some o)
  then Some (clk s, reg s REG_A1, take (Z.to_nat (reg s REG_A2)) (available o s)) else None.
Definition tape_reads (o : sd_op) (rows : list (state * instruction * aux)) : list (Z * Z * list Z) := omap (tape_read o) rows.
(** byte k goes to address start + k modulo 2^32, at the clock of the call *)
Definition bytes_stored (x : Z * Z * list Z) : entries :=
  let '(c, a, data) := x in map (fun '(k, b) => ([c; 1; 0; word (a + Z.of_nat k); b], 1)) (combine (seq 0 (length data)) data).
(** the table has 2^k rows, k >= 3, without any padding row *)
Definition full_table (n : nat) : Prop := exists k, 3 <= k /\ Z.of_nat n = 2 ^ k.
(** rows a list of reads occupies: one for the call and one per byte *)
Definition rows_needed (reads : list (Z * Z * list Z)) : nat := sum_list (map (fun '(_, _, d) => S (length d)) reads).
(** no read of zero bytes is directly followed by a read of some bytes; when the table has no padding row the first
    read counts as following the last *)
Definition no_stall (reads : list (Z * Z * list Z)) : Prop :=
  (forall k c a d c' a' d', reads !! k = Some (c, a, d) -> reads !! S k = Some (c', a', d') -> d = [] -> d' = []) /\
  (full_table (rows_needed reads) -> forall c a d c' a' d',
     stdpp.list.last reads = Some (c, a, d) -> reads !! 0%nat = Some (c', a', d') -> d = [] -> d' = []).

(** ** Accepted tables *)
Definition sd_canon (r : sdrow) : Prop :=
  canon (d_clk r) /\ canon (d_addr r) /\ canon (d_size r) /\ canon (d_value r) /\ canon (d_store r) /\ canon (d_dev r) /\ canon (d_both r).
Record sd_accepted (t : list sdrow) : Prop := {
  sda_sat : trace_sat sd_air t;
  sda_canon : Forall sd_canon t;
  sda_len : max_rows t }.
(** What the constraints of the storage-device table leave out (see C72): that rows carrying bytes still to come are
    followed by a store of the same call, that the helper column is set on them, that a store belongs to some call, and
    that the last row has no bytes left. *)
Record chained (t : list sdrow) : Prop := {
  ch_next : forall k r r', t !! k = Some r -> t !! S k = Some r' -> d_executed r = 1 -> d_size r <> 0 -> d_store r' = 1 /\ d_clk r' = d_clk r;
  ch_both : forall k r, t !! k = Some r -> d_store r = 1 -> d_size r <> 0 -> d_both r = 1;
  ch_prev : forall k r', t !! S k = Some r' -> d_store r' = 1 -> exists r, t !! k = Some r /\ d_executed r = 1 /\ d_size r <> 0;
  ch_first : forall r, t !! 0%nat = Some r -> d_store r = 0;
  (** the comment in the source announces this one; the constraint below it tests the next row's helper instead *)
  ch_size : forall k r r', t !! k = Some r -> t !! S k = Some r' -> d_both r = 1 -> d_size r' = d_size r - 1;
  ch_last : forall r, stdpp.list.last t = Some r -> d_executed r = 1 -> d_size r = 0 }.

(** the CPU selector of each tape *)
Definition tape_sel (o : sd_op) : esel :=
  match o with
  | StorePrivate => e_private | StorePublic => e_public | StoreCallTape => e_call | StoreEventTape => e_event
  | StoreEventsCommitmentTape => e_events_commitment | StoreCastListCommitmentTape => e_cast_list_commitment
  | StoreSelfProgIdTape => e_self_prog_id | SdNone => e_halt
  end.
(** the seven tape tables with the CPU and memory tables they are linked to (mozak_stark.rs StorageDeviceToCpuTable,
    IntoMemoryTable); [others]: what the Poseidon2 tables send to memory *)
Record tape_system (cpus : list cpu) (half full : list wordrow) (tables : sd_op -> list sdrow) (others : entries) (mem : list memrow) : Prop := {
  tps_mem : mem_system cpus half full (all_sd_mem_looking tables ++ others) mem;
  tps_tables : forall o, In o tape_order -> sd_accepted (tables o);
  tps_cpu : ctl_ok (all_sd_cpu_looking tables) (cpu_sd_looked cpus) }.

Definition tc_canon (r : tcrow) : Prop :=
  canon (tc_byte r) /\ canon (tc_index r) /\ canon (tc_cast_mult r) /\ canon (tc_event_mult r) /\ canon (tc_is_cast r) /\ canon (tc_is_event r).
Record tc_accepted (t : list tcrow) : Prop := {
  tca_sat : trace_sat tc_air t;
  tca_canon : Forall tc_canon t;
  tca_len : max_rows t }.
