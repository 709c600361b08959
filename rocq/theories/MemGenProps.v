(** C77: the memory table generated for an execution. *)
From Verif Require Import MemGenModel MemGenProofs MemGenSteps MemGenAccs MemGenLook MemGenRun StateSpec DeviceSpec DeviceProofs TableProofs CpuTrace StateProofs StateWitness WordProofs StepProofs ExecProofs EcallProofs RunProofs CpuProofs WordProps PoseidonSpec PoseidonPerm PoseidonGen PoseidonLook PoseidonProps DeviceProps RunnerProps LoadProofs.
Open Scope Z_scope.

(** the tables the prover builds from the rows of an execution, and the memory table built from them *)
Definition memory_table (p : program) (rows : list (state * instruction * aux)) (sponge : list sprow) : list memrow :=
  generate_memory_trace rows (generate_memory_init_trace p) (generate_zero_init_trace rows p) (generate_half_trace rows) (generate_full_trace rows)
    (fun o => generate_sd_trace o rows) sponge (generate_ob_trace sponge).
(** every message hashed ends below 2^32, and so does every digest *)
Definition hashes_fit (rows : list (state * instruction * aux)) : Prop :=
  forall c a o m, In (c, a, o, m) (hash_calls rows) -> a + Z.of_nat (length m) < 2 ^ 32 /\ o + 32 <= 2 ^ 32.

(** * C77 The memory table generated for an execution *)
(** For every halting execution of every program whose read-only and writable memory do not overlap, if it takes at most
    2^30 - 2 steps and every hashed message and every digest ends below 2^32: the generated memory table satisfies all its
    constraints and range checks; its accesses are exactly those that the CPU table, the tape tables, the hash tables and
    the half- and full-word tables ask for; its initial rows are exactly those of the two tables of initial memory. *)
Theorem C77_generated_partial : forall K utf8_ok limit p fuel t rec, good_program p -> good_tapes t -> ro_memory p ##ₘ rw_memory p ->
  step (poseidon2_permutation K) utf8_ok limit p fuel (state_new p t) = Ok rec ->
  let rows := run_rows rec in
  Z.of_nat (length (executed rec)) <= 2 ^ 30 - 2 -> hashes_fit rows ->
  exists sponge, generate_sponge_trace rows = Ok sponge /\ let mem := memory_table p rows sponge in
  (max_rows mem -> mem_accepted mem) /\
  ctl_ok (cpu_byte_looking (generate_cpu_trace rows)
          ++ (all_sd_mem_looking (fun o => generate_sd_trace o rows) ++ sp_mem_looking sponge ++ ob_mem_looking (generate_ob_trace sponge))
          ++ word_limb_looking 4 (generate_full_trace rows) ++ word_limb_looking 2 (generate_half_trace rows)) (mem_looked mem) /\
  ctl_ok (meminit_looking (generate_memory_init_trace p) ++ zeroinit_looking (generate_zero_init_trace rows p)) (mem_init_looked mem).
Proof.
  intros K utf8_ok limit p fuel t rec GP GT DJ R rows SH HF. pose proof (permutation_state12 K) as P12. pose proof (good_program_ok _ GP) as PO. pose proof (state_new_ok p t GP GT) as OK.
  pose proof (step_rows_ok _ _ _ _ _ _ _ OK GP R) as F. fold (run_rows rec) in F. fold rows in F. pose proof (entries_calls _ P12 utf8_ok p rows PO F) as EC.
  assert (SP : exists sponge, generate_sponge_trace rows = Ok sponge).
  { unfold generate_sponge_trace. destruct (unroll_all_spec _ P12 utf8_ok _ _ EC) as [[T _]|[T ->]]; [|eauto]. exfalso. apply (top_calls _ _ _ EC) in T as (c & a & o & m & I & E). destruct (HF c a o m I). lia. }
  destruct SP as [sponge SP]. exists sponge. split; [exact SP|]. cbv zeta.
  assert (DF : digests_fit rows) by (intros c a o m I; apply (HF c a o m I)).
  assert (SHORT : Z.of_nat (length (run_rows rec)) <= 2 ^ 30 - 2) by (unfold run_rows; rewrite map_length; exact SH).
  split; [|split].
  - intros MR. destruct (mem_trace_ok _ P12 utf8_ok limit p fuel t rec GP GT DJ R SHORT sponge SP DF) as (H1 & H2 & H3 & H4 & H5 & H6). constructor; auto. eapply List.Forall_impl; [|exact H6]. intros r Q S. specialize (Q S). lia.
  - intros v. apply fz_eq. pose proof (mem_trace_into _ P12 utf8_ok limit p fuel t rec GP GT DJ R SHORT sponge SP DF v) as E. change (mem_trace p rec sponge) with (memory_table p rows sponge) in E. fold rows in E. rewrite E. apply Z.sub_diag.
  - intros v. apply fz_eq. pose proof (mem_trace_init _ P12 utf8_ok limit p fuel t rec GP GT DJ R SHORT sponge SP DF v) as E. change (mem_trace p rec sponge) with (memory_table p rows sponge) in E. fold rows in E. rewrite E. apply Z.sub_diag.
Qed.
(** Its rows tell the history of the memory: the k-th step has clock k + 2, a load row holds the byte before that step, a
    store row the byte after it, an initial row the byte before the first step; and every byte a step changes has a row. *)
Theorem C77_history_partial : forall K utf8_ok limit p fuel t rec sponge, good_program p -> good_tapes t -> ro_memory p ##ₘ rw_memory p ->
  step (poseidon2_permutation K) utf8_ok limit p fuel (state_new p t) = Ok rec ->
  let rows := run_rows rec in
  Z.of_nat (length (executed rec)) <= 2 ^ 30 - 2 -> hashes_fit rows -> generate_sponge_trace rows = Ok sponge ->
  let mem := memory_table p rows sponge in
  (forall r, In r mem -> m_init r = 1 -> m_value r = load_u8 (state_new p t) (m_addr r)) /\
  (forall r, In r mem -> m_load r = 1 -> exists k s, state_at rec k = Some s /\ (k < length (executed rec))%nat /\ m_clk r = 2 + Z.of_nat k /\ m_value r = load_u8 s (m_addr r)) /\
  (forall r, In r mem -> m_store r = 1 -> exists k s', state_at rec (S k) = Some s' /\ (k < length (executed rec))%nat /\ m_clk r = 2 + Z.of_nat k /\ m_value r = load_u8 s' (m_addr r)) /\
  (forall k s s' a, state_at rec k = Some s -> state_at rec (S k) = Some s' -> load_u8 s' a <> load_u8 s a ->
     exists r, In r mem /\ m_store r = 1 /\ m_clk r = 2 + Z.of_nat k /\ m_addr r = a).
Proof.
  intros K utf8_ok limit p fuel t rec sponge GP GT DJ R rows SH HF SP mem. pose proof (permutation_state12 K) as P12.
  assert (DF : digests_fit rows) by (intros c a o m I; apply (HF c a o m I)).
  assert (SHORT : Z.of_nat (length (run_rows rec)) <= 2 ^ 30 - 2) by (unfold run_rows; rewrite map_length; exact SH).
  pose proof (run_history _ P12 utf8_ok limit p fuel t rec GP GT DJ R SHORT sponge SP DF) as HY. pose proof (mem_trace_eq p rec sponge) as EM. fold rows in HY, EM. change (mem_trace p rec sponge) with mem in EM.
  assert (LR : length rows = length (executed rec)) by (unfold rows, run_rows; apply map_length).
  assert (F0 : state_at rec 0 = Some (state_new p t)) by exact (first_state _ utf8_ok limit p fuel t rec R SHORT sponge SP DF).
  assert (SA : forall k, (k <= length (executed rec))%nat -> exists s, state_at rec k = Some s).
  { intros k L. unfold state_at. destruct (executed rec !! k) as [r|] eqn:E; [eauto|]. apply lookup_ge_None in E. assert (k = length (executed rec)) as -> by lia. rewrite Nat.eqb_refl. eauto. }
  assert (ACC : forall r, In r mem -> m_init r = 0 -> m_load r = 1 \/ m_store r = 1 -> exists e, In e (accs_of rows sponge) /\ r = set_writable e (m_writable r)).
  { intros r I I0 LS. rewrite EM in I. destruct (table_in _ _ _ _ _ HY r I) as (e & Ie & W). destruct (sorted_cases _ _ e Ie) as [J|J].
    - destruct (hy_init _ _ _ _ _ HY e J) as (Q & _). destruct W as [-> | ->]; cbn in *; [congruence|destruct LS; discriminate].
    - exists e. split; [exact J|]. destruct W as [-> | ->]; cbn in *; [reflexivity|destruct LS; discriminate]. }
  assert (NI : forall r, In r mem -> m_load r = 1 \/ m_store r = 1 -> m_init r = 0).
  { intros r I LS. rewrite EM in I. destruct (table_in _ _ _ _ _ HY r I) as (e & Ie & W). destruct (sorted_row _ _ _ _ _ HY e Ie) as (_ & _ & B1 & B2 & B3 & S & _). destruct W as [-> | ->]; cbn in *; [unfold bit in *; lia|reflexivity]. }
  split; [|split; [|split]].
  - intros r I I1. rewrite EM in I. destruct (table_in _ _ _ _ _ HY r I) as (e & Ie & W). destruct (sorted_cases _ _ e Ie) as [J|J].
    + destruct (hy_init _ _ _ _ _ HY e J) as (_ & _ & _ & _ & _ & _ & V). unfold value_at in V. change (Z.to_nat (2 - 2)) with 0%nat in V. rewrite F0 in V. destruct W as [-> | ->]; cbn; exact V.
    + destruct (hy_acc _ _ _ _ _ HY e J) as (Q & _). destruct W as [-> | ->]; cbn in I1; [congruence|discriminate].
  - intros r I L1. destruct (ACC r I (NI r I (or_introl L1)) (or_introl L1)) as (e & J & Er). rewrite Er in L1. rewrite Er. destruct (hy_acc _ _ _ _ _ HY e J) as (_ & C & _ & _ & V). cbn in *. exists (Z.to_nat (m_clk e - 2)). destruct (SA (Z.to_nat (m_clk e - 2)) ltac:(lia)) as [s E]. exists s.
    split; [exact E|]. split; [lia|]. split; [lia|]. destruct V as [(_ & _ & V)|(S1 & L0 & _)]; [|congruence]. unfold value_at in V. rewrite E in V. exact V.
  - intros r I S1. destruct (ACC r I (NI r I (or_intror S1)) (or_intror S1)) as (e & J & Er). rewrite Er in S1. rewrite Er. destruct (hy_acc _ _ _ _ _ HY e J) as (_ & C & _ & _ & V). cbn in *. exists (Z.to_nat (m_clk e - 2)). destruct (SA (S (Z.to_nat (m_clk e - 2))) ltac:(lia)) as [s E]. exists s.
    split; [exact E|]. split; [lia|]. split; [lia|]. destruct V as [(_ & S0 & _)|(_ & _ & V & _)]; [congruence|]. unfold value_at in V. replace (Z.to_nat (m_clk e + 1 - 2)) with (S (Z.to_nat (m_clk e - 2))) in V by lia. rewrite E in V. exact V.
  - intros k s s' a E E' N. assert (Lk : (k < length (executed rec))%nat). { unfold state_at in E'. destruct (executed rec !! S k) as [q|] eqn:Q; [apply lookup_lt_Some in Q; lia|]. destruct (Nat.eqb_spec (S k) (length (executed rec))); [lia|discriminate]. }
    destruct (hy_change _ _ _ _ _ HY (2 + Z.of_nat k) a ltac:(lia)) as (e & J & S1 & C & A).
    { unfold value_at. replace (Z.to_nat (2 + Z.of_nat k - 2)) with k by lia. replace (Z.to_nat (2 + Z.of_nat k + 1 - 2)) with (S k) by lia. rewrite E, E'. exact N. }
    exists (set_writable e (b2z (negb (MemGenRun.is_ro p (m_addr e))))). split; [|cbn; auto]. rewrite EM. destruct (table_shape _ _ _ _ _ HY) as (_ & _ & x & n & _ & _ & ->). apply in_or_app. left. apply in_map_iff. exists e. split; [reflexivity|]. apply (acc_sorted _ _ e J).
Qed.

(** Stores, loads and initial memory: the program stores a half word over two bytes of its data and loads it back. *)
Definition store_code : list instruction :=
  [ mkInst ADD (mkArgs 5 0 0 300); mkInst ADD (mkArgs 6 0 0 77777); mkInst SH (mkArgs 0 6 5 0); mkInst LBU (mkArgs 7 0 5 1); mkInst LW (mkArgs 8 0 5 (2 ^ 32 - 200)) ].
Definition store_prog (ro rw : list (Z * Z)) : program := program_create ro rw (exec_code store_code).
Definition store_run (ro rw : list (Z * Z)) := step (poseidon2_permutation toyK) (fun _ => true) None (store_prog ro rw) 8 (state_new (store_prog ro rw) demo_tapes).
Lemma store_good ro rw : bytes_ok (ro_memory (store_prog ro rw)) -> bytes_ok (rw_memory (store_prog ro rw)) -> good_program (store_prog ro rw).
Proof.
  intros H1 H2. constructor; auto.
  - unfold u32; cbn; lia.
  - apply map_Forall_to_list. change (map_to_list (ro_code (store_prog ro rw))) with (ltac:(let v := eval vm_compute in (map_to_list (ro_code (store_prog ro rw))) in exact v)).
    repeat (apply List.Forall_cons; [unfold instruction_ok, is_reg, u32 in *; cbn; lia|]); apply List.Forall_nil.
Qed.
Definition demo_row (r : memrow) : Z * Z * Z * Z * Z := (m_addr r, m_clk r, m_store r, m_load r, m_value r).
Definition store_check (ro rw : list (Z * Z)) (f : record -> list sprow -> bool) : bool :=
  match store_run ro rw with Ok rec => halted (last_state rec) && match generate_sponge_trace (run_rows rec) with Ok sp => f rec sp | _ => false end | _ => false end.
Lemma store_check_ok ro rw f : store_check ro rw f = true -> exists rec sp, store_run ro rw = Ok rec /\ halted (last_state rec) = true /\ generate_sponge_trace (run_rows rec) = Ok sp /\ f rec sp = true.
Proof.
  unfold store_check. destruct (store_run ro rw) as [rec| |] eqn:Er; intros H; try discriminate H.  apply andb_true_iff in H as [H1 H2]. destruct (generate_sponge_trace (run_rows rec)) as [sp| |] eqn:Es; try discriminate H2. exists rec, sp. auto.
Qed.
Lemma small_bytes l : Forall (fun x => u32 (fst x) /\ u8 (snd x)) l -> bytes_ok (collect_map l).
Proof.
  intros F a b E. rewrite collect_map_lookup in E. induction F as [|[k v] l [H1 H2] F IH]; cbn in *; [discriminate|]. destruct (last_at a l); [auto|]. destruct (Z.eqb_spec k a); [|discriminate]. injection E as <-. subst k. auto.
Qed.
Example C77_ex : exists rec sponge, store_run [(100, 7)] [(300, 9)] = Ok rec /\ generate_sponge_trace (run_rows rec) = Ok sponge /\
  good_program (store_prog [(100, 7)] [(300, 9)]) /\ ro_memory (store_prog [(100, 7)] [(300, 9)]) ##ₘ rw_memory (store_prog [(100, 7)] [(300, 9)]) /\
  Z.of_nat (length (executed rec)) <= 2 ^ 30 - 2 /\ hashes_fit (run_rows rec) /\
  map demo_row (firstn 14 (memory_table (store_prog [(100, 7)] [(300, 9)]) (run_rows rec) sponge)) =
    [ (0, 0, 0, 0, 0); (100, 1, 0, 0, 7); (100, 6, 0, 1, 7); (101, 0, 0, 0, 0); (101, 6, 0, 1, 0); (102, 0, 0, 0, 0); (102, 6, 0, 1, 0); (103, 0, 0, 0, 0); (103, 6, 0, 1, 0);
      (300, 1, 0, 0, 9); (300, 4, 1, 0, 209); (301, 0, 0, 0, 0); (301, 4, 1, 0, 47); (301, 5, 0, 1, 47) ].
Proof.
  destruct (store_check_ok [(100, 7)] [(300, 9)] (fun rec sp => (length (executed rec) <? 20)%nat && (length (hash_calls (run_rows rec)) =? 0)%nat && bool_decide (map demo_row (firstn 14 (memory_table (store_prog [(100, 7)] [(300, 9)]) (run_rows rec) sp)) =
    [ (0, 0, 0, 0, 0); (100, 1, 0, 0, 7); (100, 6, 0, 1, 7); (101, 0, 0, 0, 0); (101, 6, 0, 1, 0); (102, 0, 0, 0, 0); (102, 6, 0, 1, 0); (103, 0, 0, 0, 0); (103, 6, 0, 1, 0);
      (300, 1, 0, 0, 9); (300, 4, 1, 0, 209); (301, 0, 0, 0, 0); (301, 4, 1, 0, 47); (301, 5, 0, 1, 47) ]))) as (rec & sp & R & _ & S & F); [vm_compute; reflexivity|].
  apply andb_true_iff in F as [F F3]. apply andb_true_iff in F as [F1 F2]. apply Nat.ltb_lt in F1. apply Nat.eqb_eq in F2. apply bool_decide_eq_true in F3. exists rec, sp. split; [exact R|]. split; [exact S|].
  split; [apply store_good; apply small_bytes; repeat (apply List.Forall_cons; [unfold u32, u8; cbn; lia|]); apply List.Forall_nil|]. split; [|split; [lia|split; [|exact F3]]].
  - apply map_disjoint_spec. intros a x y E1 E2. cbn [store_prog program_create ro_memory rw_memory] in E1, E2. rewrite collect_map_lookup in E1, E2. cbn [last_at] in E1, E2. destruct (Z.eqb_spec 100 a), (Z.eqb_spec 300 a); try discriminate; lia.
  - intros c a o m I. apply length_zero_iff_nil in F2. rewrite F2 in I. destruct I.
Qed.
(** An ELF file may give the same address to a read-only and to a writable segment; the loader documents that the read-only
    byte wins, and the machine does run such a program. The memory table then holds two initial rows for that address, and
    the gap between them is not a 32-bit number: the execution cannot be proved. *)
Theorem C77_overlap_refuted : exists p fuel t rec sponge, good_program p /\ good_tapes t /\
  step (poseidon2_permutation toyK) (fun _ => true) None p fuel (state_new p t) = Ok rec /\ halted (last_state rec) = true /\
  hash_calls (run_rows rec) = [] /\ generate_sponge_trace (run_rows rec) = Ok sponge /\
  ~ range_checked (mem_rc_looking (memory_table p (run_rows rec) sponge)).
Proof.
  destruct (store_check_ok [(100, 7)] [(300, 9); (100, 8)] (fun rec sp => (length (hash_calls (run_rows rec)) =? 0)%nat && existsb (fun e => match e with ([v], w) => negb (w mod P =? 0) && negb (v mod P <? 2 ^ 32) | _ => false end) (mem_rc_looking (memory_table (store_prog [(100, 7)] [(300, 9); (100, 8)]) (run_rows rec) sp)))) as (rec & sp & R & Hh & S & F); [vm_compute; reflexivity|].
  apply andb_true_iff in F as [F1 F2]. apply Nat.eqb_eq, length_zero_iff_nil in F1. exists (store_prog [(100, 7)] [(300, 9); (100, 8)]), 8%nat, demo_tapes, rec, sp.
  split; [apply store_good; apply small_bytes; repeat (apply List.Forall_cons; [unfold u32, u8; cbn; lia|]); apply List.Forall_nil|]. split; [exact demo_tapes_good|]. split; [exact R|]. split; [exact Hh|]. split; [exact F1|]. split; [exact S|].
  intros RC. apply existsb_exists in F2 as ([[|v [|? ?]] w] & I & F2); try discriminate F2. apply andb_true_iff in F2 as [W V]. apply negb_true_iff in W, V. apply Z.eqb_neq in W. apply Z.ltb_ge in V. specialize (RC v w I). destruct RC as [_ RC]; [exact W|lia].
Qed.

Print Assumptions C77_generated_partial.
Print Assumptions C77_history_partial.
Print Assumptions C77_overlap_refuted.
