(** Model of the tables behind the hash environment call: sponge, permutation and output bytes. *)
From Verif Require Export DeviceModel.
Open Scope Z_scope.

(** ** Sponge (circuits/src/poseidon2_sponge) *)
(** poseidon2_sponge/columns.rs:19-37 Ops, Poseidon2Sponge; the arrays [preimage] and [output] have 12 elements *)
Record sprow := mkSpRow { s_clk : Z; s_init : Z; s_permute : Z; s_in : Z; s_out : Z; s_len : Z; s_pre : list Z; s_post : list Z; s_gen : Z }.
Definition s_executed (r : sprow) : Z := s_init r + s_permute r.
Definition at_ (l : list Z) (k : nat) : Z := nth k l 0.
(** the local closure [is_init_or_dummy] of stark.rs:71-73 *)
Definition not_start (r : sprow) : Z := (1 - s_init r) * (s_init r + s_permute r).
(** poseidon2_sponge/stark.rs:36-107 generate_constraints, with RATE = 8 and WIDTH = 12 *)
Definition sponge_air : air sprow :=
  mkAir (fun lv => [not_start lv])
        (fun lv nv =>
           [is_binary (s_permute lv); is_binary (s_init lv); is_binary (s_gen lv); is_binary (s_executed lv);
            (1 - s_executed lv) * s_gen lv;
            s_gen lv * (s_len lv - 8);
            s_gen lv * not_start nv]
           ++ map (fun k => s_init lv * at_ (s_pre lv) k) (seq 8 4)
           ++ map (fun k => (1 - s_init nv) * s_permute nv * (at_ (s_pre nv) k - at_ (s_post lv) k)) (seq 8 4))
        (fun lv nv =>
           let not_last := (1 - s_gen lv) * (s_permute lv + s_init lv) in
           [s_permute nv * (s_clk lv - s_clk nv);
            not_last * (s_len lv - (s_len nv + 8));
            not_last * (s_in lv - (s_in nv - 8))])
        (fun _ => []).
(** poseidon2_sponge/columns.rs:55-61 lookup_for_cpu and cpu/columns.rs:466-472 lookup_for_poseidon2_sponge *)
Definition sp_cpu_looking (t : list sprow) : entries := map (fun r => ([s_clk r], s_init r)) t.
Definition cpu_sp_looked (t : list cpu) : entries := map (fun r => ([c_clk r], c_ecall r e_poseidon2)) t.
(** poseidon2_sponge/columns.rs:63-95 register_looking: reads of a1, a2 and a3 *)
Definition sp_reg_looking (t : list sprow) : entries :=
  map (fun r => ([s_clk r; 1; REG_A1; s_in r], s_init r)) t
  ++ map (fun r => ([s_clk r; 1; REG_A2; s_len r], s_init r)) t
  ++ map (fun r => ([s_clk r; 1; REG_A3; s_out r], s_init r)) t.
(** poseidon2_sponge/columns.rs:97-110 lookup_for_poseidon2: input and output of the permutation *)
Definition sp_perm_looked (t : list sprow) : entries := map (fun r => (s_pre r ++ s_post r, s_executed r)) t.
(** poseidon2_sponge/columns.rs:112-123 lookup_for_poseidon2_output_bytes *)
Definition sp_out_looked (t : list sprow) : entries := map (fun r => (s_clk r :: s_out r :: take 4 (s_post r), s_gen r)) t.
(** poseidon2_sponge/columns.rs:125-141 lookup_for_input_memory: eight loads per row, (clk, is_store, is_load, addr, value) *)
Definition sp_mem_looking (t : list sprow) : entries :=
  flat_map (fun k => map (fun r => ([s_clk r; 0; 1; s_in r + Z.of_nat k; at_ (s_pre r) k], s_executed r)) t) (seq 0 8).

(** poseidon2_sponge/generation.rs:25-51, the loop of unroll_sponge_data: [input_addr += 8] and [input_len -= 8] on u32,
    also after the last row *)
Fixpoint unroll_rows (c out : Z) (first : bool) (addr len : Z) (l : list sponge_data) : res (list sprow) :=
  match l with
  | [] => Ok []
  | d :: l' =>
    if 4294967296 <=? addr + 8 then Panic POverflow
    else if len <? 8 then Panic POverflow
    else rest <-- unroll_rows c out false (addr + 8) (len - 8) l' ;;
         Ok (mkSpRow (c mod P) (b2z first) (b2z (negb first)) addr out len (preimage d) (output d) (gen_output d) :: rest)
  end.
(** poseidon2_sponge/generation.rs:14-52 unroll_sponge_data *)
Definition unroll_sponge_data (c : Z) (e : p2_entry) : res (list sprow) :=
  if negb (p2_len e mod 8 =? 0) then Panic PAssert
  else unroll_rows c (p2_output_addr e) true (p2_addr e) (p2_len e) (p2_sponge e).
(** poseidon2_sponge/generation.rs:10-12 filter *)
Definition p2_entry_of (x : state * instruction * aux) : option (Z * p2_entry) :=
  let '(s, _, a) := x in match poseidon2 a with Some e => Some (clk s, e) | None => None end.
Fixpoint unroll_all (l : list (Z * p2_entry)) : res (list sprow) :=
  match l with
  | [] => Ok []
  | (c, e) :: l' => r <-- unroll_sponge_data c e ;; rest <-- unroll_all l' ;; Ok (r ++ rest)
  end.
(** columns.rs: all columns zero *)
Definition sp_default : sprow := mkSpRow 0 0 0 0 0 0 (repeat 0 12) (repeat 0 12) 0.
(** poseidon2_sponge/generation.rs:54-67 generate_poseidon2_sponge_trace *)
Definition generate_sponge_trace (rows : list (state * instruction * aux)) : res (list sprow) :=
  t <-- unroll_all (omap p2_entry_of rows) ;; Ok (pad_with sp_default t).

(** ** Output bytes (circuits/src/poseidon2_output_bytes) *)
(** poseidon2_output_bytes/columns.rs:18-25; the arrays have 4 and 32 elements *)
Record obrow := mkObRow { o_exe : Z; o_clk : Z; o_addr : Z; o_fields : list Z; o_bytes : list Z }.
(** poseidon2_output_bytes/stark.rs:32-50 generate_constraints *)
Definition ob_air : air obrow :=
  mkAir (fun _ => [])
        (fun lv _ => is_binary (o_exe lv)
           :: map (fun k => reduce_with_powers (take 8 (drop (8 * k) (o_bytes lv))) 256 - at_ (o_fields lv) k) (seq 0 4))
        (fun _ _ => []) (fun _ => []).
(** poseidon2_output_bytes/columns.rs:64-74 lookup_for_poseidon2_sponge *)
Definition ob_looking (t : list obrow) : entries := map (fun r => (o_clk r :: o_addr r :: o_fields r, o_exe r)) t.
(** poseidon2_output_bytes/columns.rs:76-89 lookup_for_output_memory: 32 stores per row *)
Definition ob_mem_looking (t : list obrow) : entries :=
  flat_map (fun k => map (fun r => ([o_clk r; 1; 0; o_addr r + Z.of_nat k; at_ (o_bytes r) k], o_exe r)) t) (seq 0 32).
(** poseidon2_output_bytes/columns.rs:29-52 From<&Poseidon2Sponge> *)
Definition ob_of (r : sprow) : option obrow :=
  if s_gen r =? 1 then Some (mkObRow 1 (s_clk r) (s_out r) (take 4 (s_post r)) (hash_to_bytes (take 4 (s_post r)))) else None.
Definition ob_default : obrow := mkObRow 0 0 0 (repeat 0 4) (repeat 0 32).
(** poseidon2_output_bytes/generation.rs:7-17 *)
Definition generate_ob_trace (sponge : list sprow) : list obrow := pad_with ob_default (omap ob_of sponge).

(** ** The permutation (circuits/src/poseidon2) *)
(** Constants of plonky2's Poseidon2 (RC12, RC12_MID, MAT_DIAG12_M_1, ROUND_F_END / 2), which are not in the repository;
    the number of partial rounds is the number of their constants. *)
Record p2consts := mkConsts { k_rc : list Z; k_mid : list Z; k_diag : list Z; k_half : nat }.
(** poseidon2/stark.rs:26-34 add_rc: element i gets RC12[r + i] *)
Definition add_rc (K : p2consts) (r : nat) (st : list Z) : list Z :=
  map (fun '(i, x) => x + at_ (k_rc K) (r + i)) (combine (seq 0 (length st)) st).
(** poseidon2/stark.rs:44-83 matmul_m4 *)
Fixpoint matmul_m4 (st : list Z) : list Z :=
  match st with
  | x0 :: x1 :: x2 :: x3 :: rest =>
    let t0 := x0 + x1 in let t1 := x2 + x3 in let t2 := x1 * 2 + t1 in let t3 := x3 * 2 + t0 in
    let t4 := t3 + t1 * 4 in let t5 := t2 + t0 * 4 in let t6 := t3 + t5 in let t7 := t2 + t4 in
    t6 :: t5 :: t7 :: t4 :: matmul_m4 rest
  | _ => st
  end.
(** poseidon2/stark.rs:85-103 matmul_external12 *)
Definition matmul_external (st : list Z) : list Z :=
  let m := matmul_m4 st in
  let stored l := at_ m l + at_ m (4 + l) + at_ m (8 + l) in
  map (fun '(i, x) => x + stored (i mod 4)%nat) (combine (seq 0 (length m)) m).
(** poseidon2/stark.rs:106-117 matmul_internal12 *)
Definition matmul_internal (K : p2consts) (st : list Z) : list Z :=
  map (fun '(i, x) => x * (at_ (k_diag K) i - 1) + sumZ st) (combine (seq 0 (length st)) st).
Definition add_head (c : Z) (st : list Z) : list Z := match st with x :: r => (x + c) :: r | [] => [] end.
Definition set_head (c : Z) (st : list Z) : list Z := match st with _ :: r => c :: r | [] => [] end.

(** poseidon2/columns.rs:18-33 Poseidon2State; the flattened arrays of [ROUNDS * 12] columns are lists of states here *)
Record prow := mkPRow { q_exe : Z; q_input : list Z; q_first : list (list Z); q_state0 : list Z; q_mid : list Z; q_second : list (list Z);
                        q_cube1 : list (list Z); q_cube2 : list (list Z); q_cubep : list Z }.
(** poseidon2/stark.rs:37-42 sbox_p: x * q * q, where [q] is a column that no constraint ties to x^3 *)
Definition sbox_cols (st q : list Z) : list Z := zip_with (fun x y => x * (y * y)) st q.
(** poseidon2/stark.rs:147-161, 180-195: the constraints of consecutive full rounds, from round [r] on *)
Fixpoint round_constraints (K : p2consts) (r : nat) (st : list Z) (cols cubes : list (list Z)) : list Z :=
  match cols, cubes with
  | col :: cols', q :: cubes' =>
    zip_with Z.sub (matmul_external (sbox_cols (add_rc K r st) q)) col ++ round_constraints K (S r) col cols' cubes'
  | _, _ => []
  end.
(** poseidon2/stark.rs:163-178: the partial rounds; the state they leave must equal state_after_partial_rounds *)
Fixpoint partial_constraints (K : p2consts) (mid : list Z) (st : list Z) (state0 cubes : list Z) (final : list Z) : list Z :=
  match mid, state0, cubes with
  | c :: mid', s0 :: state0', q :: cubes' =>
    let st1 := add_head c st in
    let st2 := matmul_internal K (set_head (at_ st1 0 * (q * q)) st1) in
    (at_ st2 0 - s0) :: partial_constraints K mid' (set_head s0 st2) state0' cubes' final
  | _, _, _ => zip_with Z.sub st final
  end.
Definition last_state_of (l : list (list Z)) : list Z := List.last l [].
(** poseidon2/stark.rs:137-198 generate_constraints *)
Definition perm_air (K : p2consts) : air prow :=
  mkAir (fun _ => [])
        (fun lv _ => is_binary (q_exe lv)
           :: round_constraints K 0 (matmul_external (q_input lv)) (q_first lv) (q_cube1 lv)
           ++ partial_constraints K (k_mid K) (last_state_of (q_first lv)) (q_state0 lv) (q_cubep lv) (q_mid lv)
           ++ round_constraints K (k_half K) (q_mid lv) (q_second lv) (q_cube2 lv))
        (fun _ _ => []) (fun _ => []).
(** poseidon2/columns.rs:45-59 lookup_for_sponge: the output is the state after the last full round *)
Definition perm_looking (t : list prow) : entries := map (fun r => (q_input r ++ last_state_of (q_second r), q_exe r)) t.

(** poseidon2/generation.rs:20-102: the same rounds computed in the field, with x^3 stored for each S-box input. The field
    functions constant_layer, sbox_layer (x^7), matmul_external, matmul_internal are plonky2's; they are taken to be the
    maps that the constraints use, as the tests of the repository check. *)
Definition norm (l : list Z) : list Z := map (fun x => x mod P) l.
Fixpoint gen_full (K : p2consts) (n r : nat) (st : list Z) : list (list Z * list Z) :=
  match n with
  | O => []
  | S n' => let x := norm (add_rc K r st) in
            let st' := norm (matmul_external (map (fun v => v ^ 7) x)) in
            (st', map (fun v => v ^ 3 mod P) x) :: gen_full K n' (S r) st'
  end.
Fixpoint gen_partial (K : p2consts) (mid : list Z) (st : list Z) : list (Z * Z) * list Z :=
  match mid with
  | [] => ([], st)
  | c :: mid' => let x := (at_ st 0 + c) mod P in
                 let st' := norm (matmul_internal K (set_head (x ^ 7) st)) in
                 let '(l, fin) := gen_partial K mid' st' in ((at_ st' 0, x ^ 3 mod P) :: l, fin)
  end.
(** poseidon2/generation.rs:104-139 generate_poseidon2_state *)
Definition gen_perm (K : p2consts) (pre : list Z) (exe : bool) : prow :=
  let f1 := gen_full K (k_half K) 0 (norm (matmul_external pre)) in
  let '(ps, mid) := gen_partial K (k_mid K) (last_state_of (map fst f1)) in
  let f2 := gen_full K (k_half K) (k_half K) mid in
  mkPRow (b2z exe) pre (map fst f1) (map fst ps) mid (map fst f2) (map snd f1) (map snd f2) (map snd ps).
(** poseidon2/generation.rs:141-171 generate_poseidon2_states, generate_poseidon2_trace *)
Definition generate_perm_trace (K : p2consts) (rows : list (state * instruction * aux)) : list prow :=
  pad_with (gen_perm K (repeat 0 12) false)
    (flat_map (fun '(_, e) => map (fun d => gen_perm K (preimage d) true) (p2_sponge e)) (omap p2_entry_of rows)).
