(** Specification side of the hash-table properties. *)
From Verif Require Export PoseidonModel DeviceSpec.
Open Scope Z_scope.

(** ** The Poseidon2 permutation on twelve Goldilocks elements, by matrices *)
Definition M4 : list (list Z) := [[5; 7; 1; 3]; [4; 6; 1; 1]; [1; 3; 5; 7]; [1; 1; 4; 6]].
(** circ(2 M4, M4, M4) *)
Definition external_matrix (i j : nat) : Z :=
  nth (j mod 4) (nth (i mod 4) M4 []) 0 * (if (i / 4 =? j / 4)%nat then 2 else 1).
(** all ones but for the given diagonal *)
Definition internal_matrix (K : p2consts) (i j : nat) : Z := if (i =? j)%nat then nth i (k_diag K) 0 else 1.
Definition apply_matrix (m : nat -> nat -> Z) (st : list Z) : list Z :=
  map (fun i => sumZ (map (fun j => m i j * nth j st 0) (seq 0 12)) mod P) (seq 0 12).
Definition full_round (K : p2consts) (r : nat) (st : list Z) : list Z :=
  apply_matrix external_matrix (map (fun i => (nth i st 0 + nth (r + i) (k_rc K) 0) ^ 7) (seq 0 12)).
Definition partial_round (K : p2consts) (c : Z) (st : list Z) : list Z :=
  apply_matrix (internal_matrix K) (map (fun i => if (i =? 0)%nat then (nth 0 st 0 + c) ^ 7 else nth i st 0) (seq 0 12)).
Definition poseidon2_permutation (K : p2consts) (st : list Z) : list Z :=
  let s0 := apply_matrix external_matrix st in
  let s1 := fold_left (fun s r => full_round K r s) (seq 0 (k_half K)) s0 in
  let s2 := fold_left (fun s c => partial_round K c s) (k_mid K) s1 in
  fold_left (fun s r => full_round K r s) (seq (k_half K) (k_half K)) s2.

(** ** The permutation table *)
Definition state12 (l : list Z) : Prop := length l = 12%nat /\ Forall canon l.
(** the columns of a row are field elements, in arrays of the declared sizes *)
Record perm_canon (K : p2consts) (r : prow) : Prop := {
  pc_exe : canon (q_exe r); pc_input : state12 (q_input r); pc_mid : state12 (q_mid r);
  pc_first : length (q_first r) = k_half K /\ Forall state12 (q_first r);
  pc_second : length (q_second r) = k_half K /\ Forall state12 (q_second r);
  pc_cube1 : length (q_cube1 r) = k_half K /\ Forall state12 (q_cube1 r);
  pc_cube2 : length (q_cube2 r) = k_half K /\ Forall state12 (q_cube2 r);
  pc_state0 : length (q_state0 r) = length (k_mid K) /\ Forall canon (q_state0 r);
  pc_cubep : length (q_cubep r) = length (k_mid K) /\ Forall canon (q_cubep r) }.
Record perm_accepted (K : p2consts) (t : list prow) : Prop := {
  pa_sat : trace_sat (perm_air K) t;
  pa_canon : Forall (perm_canon K) t;
  pa_len : max_rows t }.
(** What the constraints leave out (see C76): every helper column holds the cube of the S-box input it stands for. *)
Record cubes_ok (K : p2consts) (r : prow) : Prop := {
  ck_first : forall k i q, q_cube1 r !! k = Some q -> (i < 12)%nat ->
    feq (nth i q 0) ((nth i (nth k (apply_matrix external_matrix (q_input r) :: q_first r) []) 0 + nth (k + i) (k_rc K) 0) ^ 3);
  ck_partial : forall k q c, q_cubep r !! k = Some q -> k_mid K !! k = Some c ->
    feq q ((nth k (nth 0 (List.last (q_first r) []) 0 :: q_state0 r) 0 + c) ^ 3);
  ck_second : forall k i q, q_cube2 r !! k = Some q -> (i < 12)%nat ->
    feq (nth i q 0) ((nth i (nth k (q_mid r :: q_second r) []) 0 + nth (k_half K + k + i) (k_rc K) 0) ^ 3) }.

(** ** What an execution hashes *)
(** the hash call performed by one executed step, if any: (clock, message address, digest address, message) *)
Definition hash_call (x : state * instruction * aux) : option (Z * Z * Z * list Z) :=
  let '(s, i, _) := x in
  if bool_decide (iop i = ECALL) && (reg s REG_A0 =? 3) then Some (clk s, reg s REG_A1, reg s REG_A3, message s) else None.
Definition hash_calls (rows : list (state * instruction * aux)) : list (Z * Z * Z * list Z) := omap hash_call rows.
(** the 32 bytes of the digest of a message: the first four elements of the state after the last block, little-endian *)
Definition is_digest (permute : list Z -> list Z) (msg bytes : list Z) : Prop :=
  exists sp d, sponge_chain permute msg sp /\ stdpp.list.last sp = Some d /\ bytes = flat_map (le_bytes 8) (take 4 (output d)).
(** reads of the three argument registers *)
Definition call_regs (x : Z * Z * Z * list Z) : entries :=
  let '(c, a, o, m) := x in [([c; 1; 11; a], 1); ([c; 1; 12; Z.of_nat (length m)], 1); ([c; 1; 13; o], 1)].
(** loads of the message *)
Definition call_loads (x : Z * Z * Z * list Z) : entries :=
  let '(c, a, _, m) := x in map (fun '(k, b) => ([c; 0; 1; a + Z.of_nat k; b], 1)) (combine (seq 0 (length m)) m).
(** stores of a digest, to addresses that are not reduced modulo 2^32 *)
Definition digest_stores (x : Z * Z * list Z) : entries :=
  let '(c, o, d) := x in map (fun '(k, b) => ([c; 1; 0; o + Z.of_nat k; b], 1)) (combine (seq 0 (length d)) d).

(** what each call stores: the digest of its message *)
Definition digest_of (permute : list Z -> list Z) (x : Z * Z * Z * list Z) (y : Z * Z * list Z) : Prop :=
  let '(c, _, o, m) := x in let '(c', o', d) := y in c' = c /\ o' = o /\ is_digest permute m d.

(** ** Accepted tables *)
Definition sp_canon (r : sprow) : Prop :=
  canon (s_clk r) /\ canon (s_init r) /\ canon (s_permute r) /\ canon (s_in r) /\ canon (s_out r) /\ canon (s_len r) /\
  state12 (s_pre r) /\ state12 (s_post r) /\ canon (s_gen r).
Record sp_accepted (t : list sprow) : Prop := {
  spa_sat : trace_sat sponge_air t; spa_canon : Forall sp_canon t; spa_len : max_rows t }.
Definition ob_canon (r : obrow) : Prop :=
  canon (o_exe r) /\ canon (o_clk r) /\ canon (o_addr r) /\ length (o_fields r) = 4%nat /\ Forall canon (o_fields r) /\
  length (o_bytes r) = 32%nat /\ Forall canon (o_bytes r).
Record ob_accepted (t : list obrow) : Prop := {
  oba_sat : trace_sat ob_air t; oba_canon : Forall ob_canon t; oba_len : max_rows t }.
(** What the constraints of the sponge table leave out (see C75): that a block which is not the last one is followed by
    a block of the same message with the same digest address, that only such blocks continue, and that the last row
    leaves no message open. *)
Record sp_chained (t : list sprow) : Prop := {
  sc_next : forall k r r', t !! k = Some r -> t !! S k = Some r' -> s_executed r = 1 -> s_gen r = 0 -> s_permute r' = 1 /\ s_out r' = s_out r;
  sc_prev : forall k r', t !! S k = Some r' -> s_permute r' = 1 -> exists r, t !! k = Some r /\ s_executed r = 1;
  sc_last : forall r, stdpp.list.last t = Some r -> s_executed r = 1 -> s_gen r = 1 }.
(** the three hash tables with the CPU and memory tables they are linked to (mozak_stark.rs Poseidon2SpongeCpuTable,
    Poseidon2Poseidon2SpongeTable, Poseidon2OutputBytesPoseidon2SpongeTable, IntoMemoryTable); [rest]: what the tape
    tables send to memory *)
Record hash_system (K : p2consts) (cpus : list cpu) (half full : list wordrow) (sponge : list sprow) (perm : list prow) (ob : list obrow)
  (rest : entries) (mem : list memrow) : Prop := {
  hs_mem : mem_system cpus half full (sp_mem_looking sponge ++ ob_mem_looking ob ++ rest) mem;
  hs_sponge : sp_accepted sponge; hs_perm : perm_accepted K perm; hs_ob : ob_accepted ob;
  hs_cpu : ctl_ok (sp_cpu_looking sponge) (cpu_sp_looked cpus);
  hs_perm_ctl : ctl_ok (perm_looking perm) (sp_perm_looked sponge);
  hs_ob_ctl : ctl_ok (ob_looking ob) (sp_out_looked sponge) }.
(** ** What the memory table holds for a digest: 32 bytes whose little-endian groups of eight give the elements modulo P *)
Fixpoint le_value (l : list Z) : Z := match l with [] => 0 | b :: l' => b + 256 * le_value l' end.
Definition encodes_digest (bytes out : list Z) : Prop :=
  length bytes = 32%nat /\ Forall u8 bytes /\ forall j, (j < 4)%nat -> le_value (take 8 (drop (8 * j) bytes)) mod P = nth j out 0.
(** the sponge table asks the register table for these values of the argument registers a1, a2 and a3 *)
Definition call_args (sponge : list sprow) (c a n o : Z) : Prop :=
  In ([c; 1; 11; a], 1) (sp_reg_looking sponge) /\ In ([c; 1; 12; n], 1) (sp_reg_looking sponge) /\ In ([c; 1; 13; o], 1) (sp_reg_looking sponge).
