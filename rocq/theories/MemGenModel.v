(** Model of the generation of the memory table and of its initialisation tables. *)
From Verif Require Export PoseidonModel LoadModel.
Open Scope Z_scope.

(** Rust's slice::sort_by_key: a stable sort. There is only one stable sorted order, which insertion computes. *)
Fixpoint insert_by {A} (le : A -> A -> bool) (x : A) (l : list A) : list A :=
  match l with [] => [x] | y :: l' => if le x y then x :: l else y :: insert_by le x l' end.
Definition sort_by {A} (le : A -> A -> bool) (l : list A) : list A := fold_right (insert_by le) [] l.

(** ** Initial memory (circuits/src/memoryinit, memory_zeroinit) *)
(** memoryinit/generation.rs:37-50 elf_memory_init; the iteration order of the hash maps is not specified, but the rows
    are sorted afterwards *)
Definition elf_memory_init (p : program) : list meminit :=
  map (fun '(a, b) => mkMemInit a b 1 0) (map_to_list (ro_memory p)) ++ map (fun '(a, b) => mkMemInit a b 1 1) (map_to_list (rw_memory p)).
(** memoryinit/generation.rs:8-35, 52-58 generate_memory_init_trace, generate_init_trace, generate_elf_memory_init_trace *)
Definition generate_memory_init_trace (p : program) : list meminit :=
  pad_with (mkMemInit 0 0 0 0) (sort_by (fun x y => mi_addr x <=? mi_addr y) (elf_memory_init p)).
(** memory_zeroinit/generation.rs:11-18 init_in_program *)
Definition init_in_program (p : program) : list Z :=
  map mi_addr (List.filter (fun r => mi_filter r =? 1) (generate_memory_init_trace p)).
(** memory_zeroinit/generation.rs:20-30 used_in_execution *)
Definition used_in_execution (rows : list (state * instruction * aux)) : list Z :=
  flat_map (fun '(_, _, a) => mem_addresses_used a) rows ++ [0; 4294967295].
(** memory_zeroinit/generation.rs:32-50 generate_memory_zero_init_trace: the difference of the two BTreeSets, in order *)
Definition generate_zero_init_trace (rows : list (state * instruction * aux)) (p : program) : list zeroinit :=
  pad_with (mkZeroInit 0 0)
    (map (fun a => mkZeroInit a 1)
       (sort_by Z.leb (elements ((list_to_set (used_in_execution rows) : gset Z) ∖ list_to_set (init_in_program p))))).

(** ** Rows of other tables as memory rows (circuits/src/memory/columns.rs); is_writable is set later *)
(** memory/columns.rs:53-66 From<&MemoryInit> *)
Definition mem_of_init (r : meminit) : option memrow :=
  if mi_filter r =? 1 then Some (mkMemRow (mi_writable r) (mi_addr r) 1 0 0 1 (mi_value r)) else None.
(** memory/columns.rs:68-79 From<&MemoryZeroInit> *)
Definition mem_of_zero (r : zeroinit) : option memrow :=
  if zi_filter r =? 1 then Some (mkMemRow 1 (zi_addr r) 0 0 0 1 0) else None.
(** memory/columns.rs:81-117 From<&HalfWordMemory>, From<&FullWordMemory>; [is_zero] is a test in the field *)
Definition mem_of_word (r : wordrow) : list memrow :=
  if w_executed r mod P =? 0 then []
  else map (fun '(a, v) => mkMemRow 0 a (w_clk r) (w_store r) (w_load r) 0 v) (combine (w_addrs r) (w_limbs r)).
(** memory/columns.rs:119-138 From<&Poseidon2Sponge> *)
Definition mem_of_sponge (r : sprow) : list memrow :=
  if s_executed r mod P =? 0 then []
  else map (fun k => mkMemRow 0 ((s_in r + Z.of_nat k) mod P) (s_clk r) 0 1 0 (at_ (s_pre r) k)) (seq 0 8).
(** memory/columns.rs:140-159 From<&Poseidon2OutputBytes> *)
Definition mem_of_ob (r : obrow) : list memrow :=
  if o_exe r mod P =? 0 then []
  else map (fun k => mkMemRow 0 ((o_addr r + Z.of_nat k) mod P) (o_clk r) 1 0 0 (at_ (o_bytes r) k)) (seq 0 32).
(** memory/columns.rs:161-174 From<&StorageDevice> *)
Definition mem_of_sd (r : sdrow) : option memrow :=
  if d_store r =? 1 then Some (mkMemRow 0 (d_addr r) (d_clk r) 1 0 0 (d_value r)) else None.
(** memory/generation.rs:38-64 generate_memory_trace_from_execution, memory/trace.rs *)
Definition mem_of_step (x : state * instruction * aux) : option memrow :=
  let '(s, i, a) := x in
  match amem a with
  | Some m =>
    match iop i with
    | SB => Some (mkMemRow 0 (me_addr m) (clk s mod P) 1 0 0 (me_raw_value m))
    | LB | LBU => Some (mkMemRow 0 (me_addr m) (clk s mod P) 0 1 0 (me_raw_value m))
    | _ => None
    end
  | None => None
  end.

(** ** The memory table (circuits/src/memory/generation.rs) *)
(** memory/generation.rs:131-136 key, compared lexicographically *)
Definition mem_key_le (x y : memrow) : bool := (m_addr x <? m_addr y) || ((m_addr x =? m_addr y) && (m_clk x <=? m_clk y)).
Definition set_writable (r : memrow) (w : Z) : memrow := mkMemRow w (m_addr r) (m_clk r) (m_store r) (m_load r) (m_init r) (m_value r).
(** memory/generation.rs:19-36 pad_mem_trace: to the next power of two above the length, at least 8, with the last row
    without its operation; that is, one such row and then the usual padding *)
Definition pad_mem (t : list memrow) : list memrow :=
  let l := List.last t (mkMemRow 0 0 0 0 0 0 0) in
  let d := mkMemRow (m_writable l) (m_addr l) (m_clk l) 0 0 0 (m_value l) in
  pad_with d (t ++ [d]).
(** memory/generation.rs:138-208 generate_memory_trace *)
Definition generate_memory_trace (rows : list (state * instruction * aux)) (init : list meminit) (zero : list zeroinit)
  (half full : list wordrow) (tapes : sd_op -> list sdrow) (sponge : list sprow) (ob : list obrow) : list memrow :=
  let merged := omap mem_of_init init ++ omap mem_of_zero zero ++ omap mem_of_step rows ++ flat_map mem_of_word half ++ flat_map mem_of_word full
    ++ flat_map (fun o => omap mem_of_sd (tapes o)) tape_order ++ flat_map mem_of_sponge sponge ++ flat_map mem_of_ob ob in
  let read_only := map mi_addr (List.filter (fun r => negb (mi_filter r mod P =? 0) && (mi_writable r mod P =? 0)) init) in
  pad_mem (map (fun r => set_writable r (b2z (negb (bool_decide (m_addr r ∈ read_only))))) (sort_by mem_key_le merged)).
