(** Model of the generation of the remaining tables (range checks, program) and of all tables together. *)
From Verif Require Export RegGenModel.
Open Scope Z_scope.

(** ** Range checks (circuits/src/rangecheck, rangecheck_u8) *)
(** cpu/columns.rs:299-330 rangecheck_looking, row by row (the order of the entries does not matter) *)
Definition cpu_rc_looking (t : list cpu) : entries := flat_map (fun r => map (fun '(v, f) => ([v], f)) (rangecheck_looking r)) t.
(** rangecheck/generation.rs:22-41 extract_with_mul for one row: the value and its multiplicity, if that is not zero *)
Definition extract_with_mul (e : list Z * Z) : res (list (Z * Z)) :=
  match fst e with
  | [v] => Ok (if snd e mod P =? 0 then [] else [(v mod P, snd e mod P)])
  | _ => Panic PAssert
  end.
(** itertools into_group_map, sorted by the value, the multiplicities of a value added up in the field
    (rangecheck/generation.rs:75-80, rangecheck_u8/generation.rs:30-36) *)
Definition group_map (l : list (Z * Z)) : list (Z * Z) :=
  map (fun k => (k, sumZ (map snd (List.filter (fun e => fst e =? k) l)) mod P))
    (sort_by Z.leb (elements (list_to_set (map fst l) : gset Z))).
(** rangecheck/generation.rs:43-93 generate_rangecheck_trace; [looking] are the looking tables of
    stark/mozak_stark.rs:699-716 RangecheckTable. Panics when a value does not fit 32 bits. *)
Definition rc_looking (mem : list memrow) (cpus : list cpu) (adds : list add_row) (regs : list regrow) : entries :=
  mem_rc_looking mem ++ cpu_rc_looking cpus ++ add_rc_looking adds ++ reg_rc_looking regs.
Definition generate_rangecheck_trace (looking : entries) : res (list rc_row) :=
  l <-- collect_res extract_with_mul looking ;;
  rows <-- collect_res (fun '(v, m) => if v <? 2 ^ 32 then Ok [mkRc (limbs_from_u32 v) m] else Panic PAssert) (group_map l) ;;
  Ok (pad_with (mkRc [0; 0; 0; 0] 0) rows).
(** rangecheck_u8/generation.rs:13-41 generate_rangecheck_u8_trace; the looking tables are those of
    stark/mozak_stark.rs:812-824 RangeCheckU8LookupTable. There is no padding. *)
Definition generate_rangecheck_u8_trace (rc : list rc_row) (mem : list memrow) : res (list u8_row) :=
  l <-- collect_res extract_with_mul (rc_u8_looking rc ++ mem_u8_looking mem) ;;
  Ok (map (fun '(v, m) => mkU8 v m) (group_map (l ++ map (fun k => (Z.of_nat k, 0)) (seq 0 256)))).

(** ** Program (circuits/src/program, program_multiplicities) *)
(** program/generation.rs:9-26 generate_program_rom_trace; utils.rs pad_trace_with_last panics on an empty trace *)
Definition generate_program_rom_trace (p : program) : res (list romrow) :=
  match sort_by (fun x y => ro_pc x <=? ro_pc y) (rom_of p) with
  | [] => Panic PAssert
  | d :: l => Ok (pad_last d (d :: l))
  end.
(** cpu/generation.rs:43-53: each ROM row takes the count of its pc; [remove] leaves nothing for later rows with that pc.
    [counts] is the list of the pcs that are not yet taken. *)
Fixpoint take_counts (counts : list Z) (rom : list romrow) : list multrow :=
  match rom with
  | [] => []
  | r :: rom' => mkMult (ro_pc r) (ro_data r) (Z.of_nat (length (List.filter (Z.eqb (ro_pc r)) counts)))
                 :: take_counts (List.filter (fun c => negb (ro_pc r =? c)) counts) rom'
  end.
(** cpu/generation.rs:35-54 generate_program_mult_trace *)
Definition generate_program_mult_trace (skeleton : list skel) (rom : list romrow) : list multrow :=
  take_counts (map sk_pc (List.filter (fun r => negb (sk_running r mod P =? 0)) skeleton)) rom.

(** ** All tables (circuits/src/generation.rs) *)
(** stark/mozak_stark.rs TableKindSetBuilder; the seven tapes are one function *)
Record tables := mkTables {
  t_cpu : list cpu; t_skel : list skel; t_add : list add_row; t_blt : list blt_row; t_xor : list xor_row; t_shift : list shift_row;
  t_rom : list romrow; t_mult : list multrow; t_elf : list meminit; t_zero : list zeroinit; t_half : list wordrow; t_full : list wordrow;
  t_tape : sd_op -> list sdrow; t_sponge : list sprow; t_ob : list obrow; t_perm : list prow; t_mem : list memrow;
  t_reginit : list reginit; t_zread : list zread; t_zwrite : list zwrite; t_reg : list regrow;
  t_rc : list rc_row; t_u8 : list u8_row; t_tc : list tcrow }.
(** generation.rs:60-180 generate_traces. The ELF table and the one handed to the memory table are the same function of
    the program (memoryinit/generation.rs:8-35, 52-58). *)
Definition generate_traces (K : p2consts) (p : program) (rec : record) : res tables :=
  let rows := map (fun r => (rstate r, rinst r, raux r)) (executed rec) in
  let cpus := generate_cpu_trace rows in
  let skels := generate_skel_trace (map rstate (executed rec)) (last_state rec) in
  adds <-- generate_add_trace rows ;;
  blts <-- generate_blt_trace rows ;;
  let xors := generate_xor_trace cpus in
  let shifts := generate_shift_trace cpus in
  rom <-- generate_program_rom_trace p ;;
  let mults := generate_program_mult_trace skels rom in
  let elf := generate_memory_init_trace p in
  let zero := generate_zero_init_trace rows p in
  let half := generate_half_trace rows in
  let full := generate_full_trace rows in
  let tape := fun o => generate_sd_trace o rows in
  sponge <-- generate_sponge_trace rows ;;
  let ob := generate_ob_trace sponge in
  let perm := generate_perm_trace K rows in
  let mem := generate_memory_trace rows elf zero half full tape sponge ob in
  let init := generate_reginit_trace rec in
  x <-- generate_register_trace (register_looking cpus adds blts tape sponge init) ;;
  let '(zr, zw, regs) := x in
  rc <-- generate_rangecheck_trace (rc_looking mem cpus adds regs) ;;
  u8s <-- generate_rangecheck_u8_trace rc mem ;;
  Ok (mkTables cpus skels adds blts xors shifts rom mults elf zero half full tape sponge ob perm mem init zr zw regs rc u8s
        (generate_tc_trace rows (last_state rec))).
