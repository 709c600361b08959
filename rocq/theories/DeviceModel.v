(** Model of the tables behind the environment calls: storage devices (the seven tapes) and tape commitments. *)
From Verif Require Export StateModel.
Open Scope Z_scope.

(** ** Storage devices (circuits/src/storage_device); one table per tape, all with the same constraints *)
(** storage_device/columns.rs:17-42 *)
Record sdrow := mkSdRow { d_clk : Z; d_addr : Z; d_size : Z; d_value : Z; d_store : Z; d_dev : Z; d_both : Z }.
Definition d_executed (r : sdrow) : Z := d_dev r + d_store r.
(** storage_device/stark.rs:35-82 generate_constraints *)
Definition sd_air : air sdrow :=
  mkAir (fun _ => [])
        (fun lv nv =>
           let added := d_addr lv + 1 in let wrapped := added - 2 ^ 32 in
           [is_binary (d_store lv); is_binary (d_dev lv); is_binary (d_executed lv);
            d_dev nv * d_size lv;
            d_both lv * (d_addr nv - added) * (d_addr nv - wrapped);
            d_dev lv * d_size nv * (d_both nv - 1)])
        (fun lv nv =>
           [d_both nv * (d_size nv - (d_size lv - 1));
            d_dev lv * d_size lv * (d_addr nv - d_addr lv);
            d_dev lv * d_size lv * (d_size nv - (d_size lv - 1))])
        (fun _ => []).
(** stark/mozak_stark.rs StorageDeviceToCpuTable: the seven looking tables, numbered in this order *)
Definition tape_order : list sd_op :=
  [StorePrivate; StorePublic; StoreCallTape; StoreEventTape; StoreEventsCommitmentTape; StoreCastListCommitmentTape; StoreSelfProgIdTape].
(** storage_device/columns.rs:65-81 lookup_for_cpu: (op, clk, addr, size) *)
Definition sd_cpu_looking (k : nat) (t : list sdrow) : entries :=
  map (fun r => ([Z.of_nat k; d_clk r; d_addr r; d_size r], d_dev r)) t.
(** [tables o]: the table of tape [o] *)
Definition all_sd_cpu_looking (tables : sd_op -> list sdrow) : entries :=
  flat_map (fun '(k, o) => sd_cpu_looking k (tables o)) (combine (seq 0 7) tape_order).
(** cpu/columns.rs:388-412 lookup_for_storage_tables *)
Definition storage_sels : list esel :=
  [e_private; e_public; e_call; e_event; e_events_commitment; e_cast_list_commitment; e_self_prog_id].
Definition cpu_sd_looked (t : list cpu) : entries :=
  map (fun r => ([ascending_sum (map (c_ecall r) storage_sels); c_clk r; c_io_addr r; c_io_size r], sumZ (map (c_ecall r) storage_sels))) t.
(** storage_device/columns.rs:83-101 lookup_for_memory: (clk, is_store, is_load, addr, value) *)
Definition sd_mem_looking (t : list sdrow) : entries :=
  map (fun r => ([d_clk r; d_store r; 0; d_addr r; d_value r], d_store r)) t.
Definition all_sd_mem_looking (tables : sd_op -> list sdrow) : entries := flat_map (fun o => sd_mem_looking (tables o)) tape_order.
(** storage_device/columns.rs:103-119 register_looking: (clk, 1, A1, addr); the event tape is not in the list *)
Definition sd_reg_looking (t : list sdrow) : entries := map (fun r => ([d_clk r; 1; REG_A1; d_addr r], d_dev r)) t.
Definition all_sd_reg_looking (tables : sd_op -> list sdrow) : entries :=
  flat_map (fun o => sd_reg_looking (tables o))
    [StorePrivate; StorePublic; StoreCallTape; StoreEventsCommitmentTape; StoreCastListCommitmentTape; StoreSelfProgIdTape].

(** storage_device/generation.rs:46-90: the rows of one read *)
Definition gen_sd_rows (c addr : Z) (data : list Z) : list sdrow :=
  mkSdRow c addr (Z.of_nat (length data)) 0 0 1 0
  :: map (fun '(i, v) => mkSdRow c (wadd addr (Z.of_nat i)) (Z.of_nat (length data) - Z.of_nat i - 1) v 1 0
                           (b2z (negb (S i =? length data)%nat)))
         (combine (seq 0 (length data)) data).
(** storage_device/generation.rs:21-31 filter *)
Definition sd_entry_of (o : sd_op) (x : state * instruction * aux) : option (Z * Z * list Z) :=
  let '(s, i, a) := x in
  match storage_device_entry a with
  | Some e => if bool_decide (sd_opcode e = o) && bool_decide (iop i = ECALL) then Some (clk s mod P, sd_addr e, sd_data e) else None
  | None => None
  end.
Definition sd_default : sdrow := mkSdRow 0 0 0 0 0 0 0.
(** storage_device/generation.rs:12-19 pad_mem_trace, 46-90 generate_storage_trace *)
Definition generate_sd_trace (o : sd_op) (rows : list (state * instruction * aux)) : list sdrow :=
  pad_with sd_default (flat_map (fun '(c, a, d) => gen_sd_rows c a d) (omap (sd_entry_of o) rows)).

(** ** Tape commitments (circuits/src/tape_commitments) *)
(** tape_commitments/columns.rs:20-45 *)
Record tcrow := mkTcRow { tc_byte : Z; tc_index : Z; tc_cast_mult : Z; tc_event_mult : Z; tc_is_cast : Z; tc_is_event : Z }.
(** tape_commitments/stark.rs:18-33 generate_constraints *)
Definition tc_air : air tcrow :=
  mkAir (fun _ => [])
        (fun lv _ => [is_binary (tc_is_event lv); is_binary (tc_is_cast lv); is_binary (tc_is_cast lv + tc_is_event lv);
                      tc_event_mult lv * (1 - tc_is_event lv); tc_cast_mult lv * (1 - tc_is_cast lv)])
        (fun _ _ => []) (fun _ => []).
(** storage_device/columns.rs:121-141: (byte, 31 - size), for stored bytes of the two commitment tapes *)
Definition tc_looking (t : list sdrow) : entries := map (fun r => ([d_value r; 31 - d_size r], d_store r)) t.
(** tape_commitments/columns.rs:49-69 *)
Definition tc_event_looked (t : list tcrow) : entries := map (fun r => ([tc_byte r; tc_index r], tc_event_mult r)) t.
Definition tc_cast_looked (t : list tcrow) : entries := map (fun r => ([tc_byte r; tc_index r], tc_cast_mult r)) t.
(** tape_commitments/columns.rs:71-93 make_event_commitment_tape_public, make_castlist_commitment_tape_public: the
    column handed to the verifier. public_sub_table.rs compresses its filtered rows to a sum of inverses, which the
    verifier recomputes from the public values: a lookup whose other side are these values, each once. *)
Definition tc_event_public (t : list tcrow) : entries := map (fun r => ([tc_byte r], tc_is_event r)) t.
Definition tc_cast_public (t : list tcrow) : entries := map (fun r => ([tc_byte r], tc_is_cast r)) t.
Definition public_values (l : list Z) : entries := map (fun v => ([v], 1)) l.
(** tape_commitments/generation.rs:9-19 num_ecalls *)
Definition num_ecalls (o : sd_op) (rows : list (state * instruction * aux)) : Z :=
  Z.of_nat (length (List.filter (fun '(_, _, a) => match storage_device_entry a with Some e => bool_decide (sd_opcode e = o) | None => false end) rows)).
(** tape_commitments/generation.rs:21-91; the tapes are arrays of 32 bytes. The final trace has 64 rows and is not padded. *)
Definition generate_tc_trace (rows : list (state * instruction * aux)) (last_state : state) : list tcrow :=
  map (fun '(i, b) => mkTcRow b (Z.of_nat i) (num_ecalls StoreCastListCommitmentTape rows mod P) 0 1 0)
    (combine (seq 0 (length (cast_list_commitment_tape last_state))) (cast_list_commitment_tape last_state))
  ++ map (fun '(i, b) => mkTcRow b (Z.of_nat i) 0 (num_ecalls StoreEventsCommitmentTape rows mod P) 0 1)
    (combine (seq 0 (length (events_commitment_tape last_state))) (events_commitment_tape last_state)).
