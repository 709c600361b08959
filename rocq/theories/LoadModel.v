(** Model of program loading: runner/src/code.rs, runner/src/elf.rs, State::new of runner/src/state.rs. *)
From Verif Require Export RunnerModel.
Open Scope Z_scope.

(** [iter.collect::<HashMap<_, _>>()]: later pairs overwrite earlier ones *)
Definition collect_map {V} (l : list (Z * V)) : gmap Z V :=
  fold_left (fun m '(k, v) => <[k := v]> m) l ∅.

(** [(start..).zip(bytes)] with a u32 counter. [Zip::next] first advances the counter and then asks the byte
    iterator, so the counter is advanced once more than there are bytes: in a build with overflow checks this
    panics when [start + length + 1] does not fit 32 bits. *)
Definition counter_zip (start : Z) (bytes : list Z) : res (list (Z * Z)) :=
  if start + Z.of_nat (length bytes) + 1 <? 4294967296
  then Ok (combine (map (fun i => start + Z.of_nat i) (seq 0 (length bytes))) bytes)
  else Panic POverflow.

(** runner/src/code.rs:38-46 load_u32 of Code::from *)
Definition load_word (image : gmap Z Z) (addr : Z) : res Z :=
  if addr + 5 <? 4294967296
  then Ok (from_le_bytes32 (default 0 (image !! addr)) (default 0 (image !! (addr + 1)))
                           (default 0 (image !! (addr + 2))) (default 0 (image !! (addr + 3))))
  else Panic POverflow.

(** mapping a fallible function over a list, first failure wins *)
Fixpoint map_res {A B} (f : A -> res B) (l : list A) : res (list B) :=
  match l with
  | [] => Ok []
  | x :: r => y <-- f x ;; ys <-- map_res f r ;; Ok (y :: ys)
  end.

(** runner/src/code.rs:37-57 impl From<&HashMap<u32, u8>> for Code. [addr & !3] clears the two low bits;
    the keys are visited in some order, which does not matter because each key maps to one value. *)
Definition code_from (image : gmap Z Z) : res code :=
  entries <-- map_res (fun addr => let key := Z.land addr 4294967292 in
                         w <-- load_word image key ;; Ok (key, decode_instruction key w))
                      (map fst (map_to_list image)) ;;
  Ok (collect_map entries).

(** One entry of the ELF program-header table, as the [elf] crate hands it over for a 32-bit file *)
Record segment := mkSegment { p_flags : Z; p_vaddr : Z; p_offset : Z; p_filesz : Z; p_memsz : Z }.

(** elf::abi: PF_X = 1, PF_W = 2, PF_R = 4 *)
(** runner/src/elf.rs:130-133 (and 105-108) read-only memory *)
Definition is_ro (flags : Z) : bool := (Z.land flags 4 =? 4) && (Z.land flags 2 =? 0).
(** runner/src/elf.rs:173 read-write memory *)
Definition is_rw (flags : Z) : bool := flags =? 6.
(** runner/src/elf.rs:183 code *)
Definition is_x (flags : Z) : bool := Z.land flags 1 =? 1.

(** runner/src/elf.rs:204-217 the bytes of one segment. The [try_into] conversions never fail for 32-bit headers. *)
Definition segment_bytes (input : list Z) (h : segment) : res (list (Z * Z)) :=
  let mn := Z.min (p_filesz h) (p_memsz h) in
  let mx := Z.max (p_filesz h) (p_memsz h) in
  if Z.of_nat (length input) <? p_offset h + mn then Panic PIndex
  else
    let bytes := take (Z.to_nat mn) (drop (Z.to_nat (p_offset h)) input) in
    counter_zip (p_vaddr h) (bytes ++ repeat 0 (Z.to_nat (mx - mn))).

(** runner/src/elf.rs:196-221 extract_elf_data *)
Definition extract_elf_data (check : Z -> bool) (input : list Z) (segs : list segment) : res (gmap Z Z) :=
  l <-- map_res (segment_bytes input) (filter (fun h => Is_true (check (p_flags h))) segs) ;;
  Ok (collect_map (concat l)).

(** runner/src/elf.rs:159-194 internal_load_elf *)
Definition internal_load_elf (input : list Z) (entry : Z) (segs : list segment) : res program :=
  ro <-- extract_elf_data is_ro input segs ;;
  rw <-- extract_elf_data is_rw input segs ;;
  x <-- extract_elf_data is_x input segs ;;
  c <-- code_from x ;;
  Ok (mkProgram entry ro rw c).

(** What [ElfBytes::minimal_parse] (crate [elf], not modelled) yields *)
Record elf_file := mkElf { e_class32 : bool; e_machine : Z; e_type : Z; e_entry : Z;
                           e_segments : option (list segment) }.

(** runner/src/elf.rs:136-156 parse_and_validate_elf after the container has been parsed;
    EM_RISCV = 243, ET_EXEC = 2. *)
Definition validate_elf (e : elf_file) : res (Z * list segment) :=
  if negb (e_class32 e) then Err (EElf 1)
  else if negb (e_machine e =? 243) then Err (EElf 2)
  else if negb (e_type e =? 2) then Err (EElf 3)
  else if negb (e_entry e <? 4294967296) then Err (EElf 4)
  else if negb (e_entry e mod 4 =? 0) then Err (EElf 5)
  else match e_segments e with
       | None => Err (EElf 6)
       | Some segs => if (256 <? length segs)%nat then Err (EElf 7) else Ok (e_entry e, segs)
       end.

(** runner/src/elf.rs:232-236 mozak_load_program (and 99-110 vanilla_load_elf, which is the same) *)
Definition load_program (e : elf_file) (input : list Z) : res program :=
  v <-- validate_elf e ;;
  internal_load_elf input (fst v) (snd v).

(** runner/src/elf.rs:241-248 Program::create *)
Definition program_create (ro rw : list (Z * Z)) (c : code) : program :=
  mkProgram 0 (collect_map ro) (collect_map rw) c.

(** runner/src/elf.rs:45-61 impl From<HashMap<u32, u32>> for Program *)
Definition program_from (image : gmap Z Z) : res program :=
  let l := map_to_list image in
  if existsb (fun '(a, _) => negb (a mod 4 =? 0)) l then Panic PAssert
  else
    bs <-- map_res (fun '(k, v) => counter_zip k (to_le_bytes32 v)) l ;;
    let img := collect_map (concat bs) in
    c <-- code_from img ;;
    Ok (mkProgram 0 ∅ img c).

(** runner/src/elf.rs:63-91 impl From<HashMap<u32, u32>> for Data. [sorted] is given by any list of the
    entries of the map in increasing key order; the byte counter is a u64, narrowed with [try_from(..).unwrap()]
    ([u32::try_from] is applied lazily after the zip's extra counter step, hence only the bytes written count...
    the fifth counter value is also mapped, so address [k + 4] must fit too). *)
Definition data_overlap (ks : list Z) : bool :=
  match ks with
  | [] | [_] => false
  | k0 :: _ =>
    existsb (fun '(a, b) => existsb (fun i => wadd a i =? b) [0; 1; 2; 3])
            (combine ks (drop 1 ks ++ [k0]))
  end.
Definition data_from (sorted : list (Z * Z)) : res (gmap Z Z) :=
  if data_overlap (map fst sorted) then Panic PAssert
  else
    bs <-- map_res (fun '(k, v) => if k + 4 <? 4294967296
                                   then Ok (combine [k; k + 1; k + 2; k + 3] (to_le_bytes32 v))
                                   else Panic PAssert) sorted ;;
    Ok (collect_map (concat bs)).

(** runner/src/state.rs:90-103 StateMemory::new; [rw.extend(ro)] overwrites *)
Definition memory_new (ro rw : gmap Z Z) : memory := mkMem (ro ∪ rw) (dom ro).

(** runner/src/state.rs:219-228 RawTapes *)
Record raw_tapes := mkRaw { raw_private : list Z; raw_public : list Z; raw_call : list Z; raw_event : list Z;
  raw_events_commitment : list Z; raw_cast_list_commitment : list Z; raw_self_prog_id : list Z }.

(** runner/src/state.rs:230-271 State::new with the defaults of 130-152 (clk 2, registers 0, not halted) *)
Definition state_new (p : program) (t : raw_tapes) : state :=
  mkState 2 false (repeat 0 32) (entry_point p) (memory_new (ro_memory p) (rw_memory p))
    (mkTape (raw_private t) 0) (mkTape (raw_public t) 0) (mkTape (raw_call t) 0) (mkTape (raw_event t) 0)
    (raw_events_commitment t) (raw_cast_list_commitment t) (raw_self_prog_id t).

(** runner/src/state.rs:154-173 impl From<Program> for State: State::new with empty tapes *)
Definition state_from (p : program) : state :=
  state_new p (mkRaw [] [] [] [] (repeat 0 32) (repeat 0 32) (repeat 0 32)).

(** runner/src/code.rs:64-103 execute_code_with_ro_memory: appends [li a0, HALT; ecall] and runs.
    Code addresses count up from 0 by 4 with a u32 counter ([(0..).step_by(4)]); the model gives them as integers
    (a list of 2^30 instructions does not exist in practice). *)
Definition exec_code (is : list instruction) : code :=
  let all := is ++ [mkInst ADD (mkArgs 10 0 0 0); ECALL_INST] in
  collect_map (combine (map (fun i => 4 * Z.of_nat i) (seq 0 (length all))) (map inl all)).
Fixpoint set_regs (s : state) (regs : list (Z * Z)) : res state :=
  match regs with
  | [] => Ok s
  | (r, v) :: l => s' <-- set_reg s r v ;; set_regs s' l
  end.
Definition execute_code_with_ro_memory (permute : list Z -> list Z) (utf8_ok : list Z -> bool)
  (limit : option Z) (fuel : nat) (is : list instruction) (ro rw : list (Z * Z)) (regs : list (Z * Z))
  (t : raw_tapes) : res (program * record) :=
  let p := program_create ro rw (exec_code is) in
  s <-- set_regs (state_new p t) regs ;;
  match step permute utf8_ok limit p fuel s with
  | Ok r => if halted (last_state r) then Ok (p, r) else Panic PAssert
  | Err _ => Panic PAssert          (* .unwrap() *)
  | Panic q => Panic q
  end.
