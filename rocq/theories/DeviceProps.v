(** Properties C71 - C73: the tape tables of the proof system. *)
From Verif Require Import DeviceSpec DeviceProofs ExecProofs TableProofs CpuTrace CpuWitness StateProofs WordProofs StateWitness StepProofs EcallProofs RunProofs LoadProofs CpuProofs CpuGen WordProps RunnerProps.
Open Scope Z_scope.

Definition run_rows (rec : record) : list (state * instruction * aux) := map (fun r => (rstate r, rinst r, raux r)) (executed rec).

(** * C71 The tape tables generated for an execution *)
(** For every execution: the table of a tape satisfies its constraints exactly when no empty read of it is directly
    followed by a non-empty one; its link to the CPU table always holds; what it sends to memory are exactly the bytes
    delivered by the reads, at consecutive addresses modulo 2^32; what it sends to the register table are exactly the
    reads of a1 (none for the event tape). *)
Theorem C71_generated_partial : forall permute utf8_ok limit p fuel s rec, state_ok s -> good_program p ->
  step permute utf8_ok limit p fuel s = Ok rec ->
  let rows := run_rows rec in
  (forall o, In o tape_order -> trace_sat sd_air (generate_sd_trace o rows) <-> no_stall (tape_reads o rows)) /\
  ctl_ok (all_sd_cpu_looking (fun o => generate_sd_trace o rows)) (cpu_sd_looked (generate_cpu_trace rows)) /\
  (forall v, mult_of v (all_sd_mem_looking (fun o => generate_sd_trace o rows)) = mult_of v (flat_map (fun o => flat_map bytes_stored (tape_reads o rows)) tape_order)) /\
  (forall v, mult_of v (all_sd_reg_looking (fun o => generate_sd_trace o rows)) =
    mult_of v (flat_map (fun o => map (fun '(c, a, _) => ([c; 1; 11; a], 1)) (tape_reads o rows)) (List.filter (fun o => negb (bool_decide (o = StoreEventTape))) tape_order))).
Proof.
  intros permute utf8_ok limit p fuel s rec OK HP R rows. pose proof (good_program_ok _ HP) as PO. pose proof (step_rows_ok _ _ _ _ _ _ _ OK HP R) as F. fold (run_rows rec) in F.
  split; [|split; [|split]].
  - intros o I. apply (generated_sat permute utf8_ok p); auto. cbn in I. intuition congruence.
  - intros v. apply fz_eq. rewrite (generated_cpu permute utf8_ok p rows PO F v). lia.
  - apply (generated_mem permute utf8_ok p); auto.
  - apply (generated_regs permute utf8_ok p); auto.
Qed.
(** demo reads three bytes of the public tape: the table satisfies its constraints *)
Example C71_ex : exists rec, demo_run 11 = Ok rec /\ tape_reads StorePublic (run_rows rec) = [(5, 200, [1; 2; 3])] /\
  trace_sat sd_air (generate_sd_trace StorePublic (run_rows rec)) /\ good_program demo.
Proof.
  destruct (demo_run 11) as [rec| |] eqn:E; [|exfalso; revert E; vm_compute; discriminate|exfalso; revert E; vm_compute; discriminate].
  exists rec. split; [reflexivity|]. assert (T : tape_reads StorePublic (run_rows rec) = [(5, 200, [1; 2; 3])]).
  { unfold demo_run in E. revert E. vm_compute. intros Q. injection Q as <-. reflexivity. }
  split; [exact T|]. split; [|apply demo_good]. apply (proj1 (C71_generated_partial _ _ _ _ _ _ _ demo_state_ok demo_good E) StorePublic ltac:(cbn; auto)). rewrite T. split.
  - intros [|k] c a d c' a' d'; cbn; [discriminate|destruct k; discriminate].
  - intros _ c a d c' a' d' Q _ ->. cbn in Q. discriminate.
Qed.
(** A program that asks for zero bytes of the public tape and then for one byte cannot be proved. *)
Definition stall_code : list instruction :=
  [ mkInst ADD (mkArgs 10 0 0 4); mkInst ADD (mkArgs 11 0 0 200); ECALL_INST; mkInst ADD (mkArgs 12 0 0 1); ECALL_INST ].
Definition stall : program := program_create [] [] (exec_code stall_code).
Lemma stall_good : good_program stall.
Proof.
  constructor; unfold bytes_ok.
  - unfold u32; cbn; lia.
  - intros a b H. change (ro_memory stall) with (∅ : gmap Z Z) in H. rewrite lookup_empty in H. discriminate.
  - intros a b H. change (rw_memory stall) with (∅ : gmap Z Z) in H. rewrite lookup_empty in H. discriminate.
  - apply map_Forall_to_list. change (map_to_list (ro_code stall)) with
      (ltac:(let v := eval vm_compute in (map_to_list (ro_code stall)) in exact v)).
    repeat (apply List.Forall_cons; [unfold instruction_ok, is_reg, u32; cbn; lia|]); apply List.Forall_nil.
Qed.
Theorem C71_generated_refuted : exists p t fuel rec, good_program p /\ good_tapes t /\
  step (fun l => l) (fun _ => true) None p fuel (state_new p t) = Ok rec /\ halted (last_state rec) = true /\
  load_u8 (last_state rec) 200 = 1 /\ ~ trace_sat sd_air (generate_sd_trace StorePublic (run_rows rec)).
Proof.
  exists stall, demo_tapes, 8%nat.
  destruct (step (fun l => l) (fun _ => true) None stall 8 (state_new stall demo_tapes)) as [rec| |] eqn:E; [|exfalso; revert E; vm_compute; discriminate|exfalso; revert E; vm_compute; discriminate].
  exists rec. split; [apply stall_good|]. split; [apply demo_tapes_good|]. split; [reflexivity|].
  assert (T : tape_reads StorePublic (run_rows rec) = [(4, 200, []); (6, 200, [1])] /\ halted (last_state rec) = true /\ load_u8 (last_state rec) 200 = 1).
  { revert E. vm_compute. intros Q. injection Q as <-. auto. }
  destruct T as (T & Hl & Ld). split; [exact Hl|]. split; [exact Ld|]. intros ST.
  apply (proj1 (C71_generated_partial _ _ _ _ _ _ _ (state_new_ok _ _ stall_good demo_tapes_good) stall_good E) StorePublic ltac:(cbn; auto)) in ST.
  destruct ST as [N _]. rewrite T in N. specialize (N 0%nat _ _ _ _ _ _ eq_refl eq_refl eq_refl). discriminate.
Qed.

(** * C72 What an accepted proof says about tape reads *)
(** Every tape read of the CPU table has its call row with the same clock, address and length, and conversely. *)
Theorem C72_calls : forall cpus half full tables others mem, tape_system cpus half full tables others mem ->
  forall o, In o tape_order ->
  (forall r, In r cpus -> c_ecall r (tape_sel o) = 1 ->
     exists q, In q (tables o) /\ d_dev q = 1 /\ d_clk q = c_clk r /\ d_addr q = c_io_addr r /\ d_size q = c_io_size r) /\
  (forall q, In q (tables o) -> d_dev q = 1 ->
     exists r, In r cpus /\ c_ecall r (tape_sel o) = 1 /\ c_clk r = d_clk q /\ c_io_addr r = d_addr q /\ c_io_size r = d_size q).
Proof.
  intros cpus half full tables others mem TS o Io. split.
  - intros r I W. eapply read_row; eauto.
  - intros q I D. eapply call_row; eauto.
Qed.
(** Provided the rows of a read are chained as the constraints fail to require: a read of n bytes writes exactly n bytes
    to memory, to the consecutive addresses (modulo 2^32) from its address on, at its clock; and every byte a tape
    table writes belongs to such a read. *)
Theorem C72_writes_partial : forall cpus half full tables others mem, tape_system cpus half full tables others mem ->
  forall o, In o tape_order -> chained (tables o) ->
  (forall r, In r cpus -> c_ecall r (tape_sel o) = 1 -> forall j, Z.of_nat j < c_io_size r ->
     exists q b, In q (tables o) /\ d_store q = 1 /\ d_value q = b /\ u8 b /\ accesses mem (c_clk r) 1 0 (word (c_io_addr r + Z.of_nat j)) b) /\
  (forall q, In q (tables o) -> d_store q = 1 ->
     exists r j, In r cpus /\ c_ecall r (tape_sel o) = 1 /\ Z.of_nat j < c_io_size r /\
       d_clk q = c_clk r /\ d_addr q = word (c_io_addr r + Z.of_nat j) /\ accesses mem (d_clk q) 1 0 (d_addr q) (d_value q)).
Proof.
  intros cpus half full tables others mem TS o Io CH. pose proof (tps_tables _ _ _ _ _ _ TS o Io) as A.
  assert (U : forall k r, tables o !! k = Some r -> d_store r = 1 -> u32 (d_addr r)).
  { intros k r E D. apply (tape_store_in _ _ _ _ _ _ TS o r Io); auto. eapply lookup_In; eauto. }
  assert (UC : forall k q, tables o !! k = Some q -> d_dev q = 1 -> 0 < d_size q -> u32 (d_addr q)).
  { intros k q E D L. destruct (sd_bits _ A k q E) as (B1 & B2 & B3). assert (X : d_executed q = 1) by (unfold d_executed, bit in *; lia).
    destruct (next_exists _ CH U k q E X ltac:(lia)) as [q' E']. destruct (ch_next _ CH k q q' E E' X ltac:(lia)) as [St _].
    destruct (after_call _ A k q q' E E' D ltac:(lia)) as [Ad _]. rewrite <- Ad. apply (U _ _ E' St). }
  split.
  - intros r I W j L. destruct (read_row _ _ _ _ _ _ TS r o I Io W) as (q & Iq & D & Ck & Ad & Sz). apply In_lookup in Iq as [k Ek].
    destruct (call_bytes _ A CH U k q Ek D (UC k q Ek D ltac:(lia)) j ltac:(lia)) as (q' & E' & St & Ck' & Ad' & _).
    destruct (tape_store_in _ _ _ _ _ _ TS o q' Io ltac:(eapply lookup_In; eauto) St) as (Ac & _ & U8).
    exists q', (d_value q'). split; [eapply lookup_In; eauto|]. split; [exact St|]. split; [reflexivity|]. split; [exact U8|].
    rewrite <- Ck, <- Ck', <- Ad, <- Ad'. exact Ac.
  - intros q Iq St. destruct (tape_store_in _ _ _ _ _ _ TS o q Io Iq St) as (Ac & _ & _). apply In_lookup in Iq as [m Em].
    destruct (stored_by_call _ A CH U m q Em St) as (k & q0 & j & -> & E0 & D0 & L & _).
    destruct (call_bytes _ A CH U k q0 E0 D0 (UC k q0 E0 D0 ltac:(lia)) j L) as (q' & E' & _ & Ck' & Ad' & _). rewrite Em in E'. injection E' as <-.
    destruct (call_row _ _ _ _ _ _ TS o q0 Io ltac:(eapply lookup_In; eauto) D0) as (r & I & W & Ck & Ad & Sz).
    exists r, j. rewrite Ck, Ad, Sz. auto 10.
Qed.
(** witnesses *)
Definition check_sd (t : list sdrow) : bool :=
  check_air sd_air t && forallb (fun r => forallb canonb [d_clk r; d_addr r; d_size r; d_value r; d_store r; d_dev r; d_both r]) t && (Z.of_nat (length t) <=? 2 ^ 32).
Lemma check_sd_ok t : check_sd t = true -> sd_accepted t.
Proof.
  unfold check_sd. rewrite !andb_true_iff. intros ((C1 & C2) & C3). constructor; [apply check_air_ok, C1| |apply Z.leb_le, C3].
  rewrite forallb_forall in C2. apply List.Forall_forall. intros r I. specialize (C2 r I). rewrite forallb_forall in C2.
  unfold sd_canon. repeat split_and; apply canonb_ok, C2; cbn; auto 10.
Qed.
Definition check_tape_system (cpus : list cpu) (half full : list wordrow) (tables : sd_op -> list sdrow) (others : entries) (mem : list memrow) : bool :=
  check_mem_system cpus half full (all_sd_mem_looking tables ++ others) mem && forallb (fun o => check_sd (tables o)) tape_order
  && ctl_check (all_sd_cpu_looking tables) (cpu_sd_looked cpus).
Lemma check_tape_system_ok cpus half full tables others mem : check_tape_system cpus half full tables others mem = true -> tape_system cpus half full tables others mem.
Proof.
  unfold check_tape_system. rewrite !andb_true_iff. intros ((C1 & C2) & C3). rewrite forallb_forall in C2. constructor.
  - apply check_mem_system_ok, C1.
  - intros o I. apply check_sd_ok, C2, I.
  - apply ctl_check_ok, C3.
Qed.
(** the table of one tape, the others being empty *)
Definition one_tape (o : sd_op) (t : list sdrow) (o' : sd_op) : list sdrow := if bool_decide (o' = o) then t else repeat sd_default 8.
(** an environment call reading [n] bytes of the public tape to address 100 at clock 2 *)
Definition read_call_row (n : nat) : cpu :=
  gen_row (mkState 2 false (repeat 0 10 ++ [4; 100; Z.of_nat n] ++ repeat 0 19) 0 (mkMem ∅ ∅) (mkTape [] 0) (mkTape (repeat 7 n) 0) (mkTape [] 0) (mkTape [] 0) [] [] [])
     ECALL_INST (mkAux 0 4 None [] false 4 100 100 None (Some (mkSd 100 StorePublic (repeat 7 n)))).
Definition honest_read : list sdrow := gen_sd_rows 2 100 [7; 7] ++ repeat sd_default 5.
Definition mem_two (a b : Z) : list memrow :=
  [minit 0 0 1; minit 100 0 1; mkMemRow 1 100 2 1 0 0 a; minit 101 0 1; mkMemRow 1 101 2 1 0 0 b; minit 4294967295 0 1] ++ mem_pad 2.
Definition imp (a b : bool) : bool := negb a || b.
Lemma imp_ok a b : a = true -> imp a b = true -> b = true.
Proof. destruct a, b; auto. Qed.
Definition check_chained (t : list sdrow) : bool :=
  forallb (fun '(r, r') => imp ((d_executed r =? 1) && negb (d_size r =? 0)) ((d_store r' =? 1) && (d_clk r' =? d_clk r))
                           && imp (d_store r' =? 1) ((d_executed r =? 1) && negb (d_size r =? 0)) && imp (d_both r =? 1) (d_size r' =? d_size r - 1)) (adj t)
  && forallb (fun r => imp ((d_store r =? 1) && negb (d_size r =? 0)) (d_both r =? 1)) t
  && match t with r :: _ => d_store r =? 0 | [] => true end
  && match stdpp.list.last t with Some r => imp (d_executed r =? 1) (d_size r =? 0) | None => true end.
Lemma check_chained_ok t : check_chained t = true -> chained t.
Proof.
  unfold check_chained. rewrite !andb_true_iff. intros (((A & B) & C) & D). rewrite forallb_forall in A, B. constructor.
  - intros k r r' E E' X N. specialize (A _ (adj_lookup_In _ _ _ _ E E')). cbv beta iota in A. rewrite !andb_true_iff in A. destruct A as [[A _] _].
    apply imp_ok in A; [|rewrite X; apply negb_true_iff, Z.eqb_neq, N]. apply andb_true_iff in A as [A1 A2]. apply Z.eqb_eq in A1, A2. auto.
  - intros k r E S1 N. specialize (B _ (lookup_In _ _ _ E)). apply imp_ok in B; [apply Z.eqb_eq, B|]. rewrite S1. apply negb_true_iff, Z.eqb_neq, N.
  - intros k r' E' S1. destruct (lookup_lt_is_Some_2 t k) as [r E]; [apply lookup_lt_Some in E'; lia|]. exists r. specialize (A _ (adj_lookup_In _ _ _ _ E E')). cbv beta iota in A. rewrite !andb_true_iff in A. destruct A as [[_ A] _].
    apply imp_ok in A; [|rewrite S1; reflexivity]. apply andb_true_iff in A as [A1 A2]. apply Z.eqb_eq in A1. apply negb_true_iff, Z.eqb_neq in A2. auto.
  - intros r E. destruct t; [discriminate|]. injection E as ->. apply Z.eqb_eq, C.
  - intros k r r' E E' X. specialize (A _ (adj_lookup_In _ _ _ _ E E')). cbv beta iota in A. rewrite !andb_true_iff in A. destruct A as [_ A]. apply imp_ok in A; [apply Z.eqb_eq, A|rewrite X; reflexivity].
  - intros r E X. rewrite E in D. apply imp_ok in D; [apply Z.eqb_eq, D|rewrite X; reflexivity].
Qed.
Lemma honest_chained : chained honest_read.
Proof. apply check_chained_ok. reflexivity. Qed.
Example C72_ex : tape_system (table_of (read_call_row 2)) (word_pad 2 8) (word_pad 4 8) (one_tape StorePublic honest_read) [] (mem_two 7 7) /\
  chained (one_tape StorePublic honest_read StorePublic) /\ c_ecall (read_call_row 2) (tape_sel StorePublic) = 1 /\ c_io_size (read_call_row 2) = 2.
Proof. split; [apply check_tape_system_ok; vm_compute; reflexivity|]. split; [apply honest_chained|]. split; reflexivity. Qed.
(** Without the chaining the guarantee fails in both directions. A tape table may write any byte to any address at any
    clock although the CPU table contains no environment call at all: *)
Theorem C72_write_without_call_refuted : exists cpus half full tables mem,
  tape_system cpus half full tables [] mem /\ (forall r, In r cpus -> c_op r o_ecall = 0 /\ forall w, c_op r (store_sel w) = 0) /\
  accesses mem 3 1 0 1000 55.
Proof.
  exists (table_of pad_row), (word_pad 2 8), (word_pad 4 8), (one_tape StorePrivate ([sd_default; mkSdRow 3 1000 0 55 1 0 0] ++ repeat sd_default 6)),
    ([minit 0 0 1; minit 1000 0 1; mkMemRow 1 1000 3 1 0 0 55; minit 4294967295 0 1] ++ mem_pad 4).
  split; [apply check_tape_system_ok; vm_compute; reflexivity|]. split.
  - intros r I. assert (r = pad_row) as -> by (cbn in I; intuition). split; [reflexivity|]. intros []; reflexivity.
  - eexists. split; [do 2 right; left; reflexivity|]. cbn. auto.
Qed.
(** and an environment call that reads three bytes may write none: *)
Theorem C72_read_without_write_refuted : exists cpus half full tables mem r,
  tape_system cpus half full tables [] mem /\ In r cpus /\ c_ecall r e_public = 1 /\ c_io_size r = 3 /\ c_io_addr r = 100 /\
  (forall m, In m mem -> m_store m = 0).
Proof.
  exists (table_of (read_call_row 3)), (word_pad 2 8), (word_pad 4 8),
    (one_tape StorePublic ([sd_call_row 2 100 [7; 7; 7]; mkSdRow 0 100 2 0 0 0 1; mkSdRow 0 101 0 0 0 0 0] ++ repeat sd_default 5)),
    ([minit 0 0 1; minit 4294967295 0 1] ++ mem_pad 6), (read_call_row 3).
  split; [apply check_tape_system_ok; vm_compute; reflexivity|]. split; [left; reflexivity|]. split; [reflexivity|]. split; [reflexivity|]. split; [reflexivity|].
  intros m I. cbn in I. intuition (subst; reflexivity).
Qed.

(** * C73 Tape commitments *)
(** For every execution with 32-byte commitment tapes: the commitment table satisfies its constraints and agrees with the
    public values; it agrees with what the program read exactly when every read asked for all 32 bytes. *)
Theorem C73_generated_partial : forall permute utf8_ok limit p fuel s rec, state_ok s -> good_program p ->
  step permute utf8_ok limit p fuel s = Ok rec -> length (events_commitment_tape s) = 32%nat -> length (cast_list_commitment_tape s) = 32%nat ->
  Z.of_nat (length (executed rec)) <= 2 ^ 32 ->
  let rows := run_rows rec in let tc := generate_tc_trace rows (last_state rec) in
  trace_sat tc_air tc /\ length tc = 64%nat /\
  ctl_ok (tc_event_public tc) (public_values (events_commitment_tape s)) /\ ctl_ok (tc_cast_public tc) (public_values (cast_list_commitment_tape s)) /\
  (ctl_ok (tc_looking (generate_sd_trace StoreEventsCommitmentTape rows)) (tc_event_looked tc) <->
     forall c a d, In (c, a, d) (tape_reads StoreEventsCommitmentTape rows) -> length d = 32%nat) /\
  (ctl_ok (tc_looking (generate_sd_trace StoreCastListCommitmentTape rows)) (tc_cast_looked tc) <->
     forall c a d, In (c, a, d) (tape_reads StoreCastListCommitmentTape rows) -> length d = 32%nat).
Proof.
  intros permute utf8_ok limit p fuel s rec OK HP R LE LC LR rows tc. pose proof (good_program_ok _ HP) as PO. pose proof (step_rows_ok _ _ _ _ _ _ _ OK HP R) as F. fold (run_rows rec) in F.
  destruct (constant_run permute utf8_ok limit p fuel s rec StoreEventsCommitmentTape OK PO R) as [CE1 CE2]. destruct (constant_run permute utf8_ok limit p fuel s rec StoreCastListCommitmentTape OK PO R) as [CC1 CC2].
  cbn [constant_tape] in *. injection CE1 as CE1. injection CC1 as CC1.
  assert (FI : forall (l : list (Z * Z * list Z)), Forall (fun '(_, _, d) => length d = 32%nat) l <-> forall c a d, In (c, a, d) l -> length d = 32%nat).
  { intros l. rewrite List.Forall_forall. split; [intros H c a d I; apply (H _ I)|intros H [[c a] d] I; eapply H; eauto]. }
  assert (LR' : Z.of_nat (length rows) <= 2 ^ 32) by (unfold rows, run_rows; rewrite map_length; exact LR).
  split; [apply tc_sat; rewrite CC1, LC; lia|]. split; [unfold tc, generate_tc_trace; rewrite app_length, !map_length, !combine_length, !seq_length, CC1, CE1; lia|].
  split; [intros v; apply fz_eq; unfold tc; rewrite tc_public_event, CE1; lia|]. split; [intros v; apply fz_eq; unfold tc; rewrite tc_public_cast, CC1; lia|]. split.
  - rewrite <- FI. apply (tc_ctl permute utf8_ok p StoreEventsCommitmentTape rows (events_commitment_tape s) _ PO F ltac:(discriminate) LR' LE).
    + intros s' i a I. unfold rows, run_rows in I. apply in_map_iff in I as (r & Q & I). injection Q as <- <- <-. specialize (CE2 r I). injection CE2 as CE2. exact CE2.
    + intros v. unfold tc. rewrite tc_looked_event, CE1. reflexivity.
  - rewrite <- FI. apply (tc_ctl permute utf8_ok p StoreCastListCommitmentTape rows (cast_list_commitment_tape s) _ PO F ltac:(discriminate) LR' LC).
    + intros s' i a I. unfold rows, run_rows in I. apply in_map_iff in I as (r & Q & I). injection Q as <- <- <-. specialize (CC2 r I). injection CC2 as CC2. exact CC2.
    + intros v. unfold tc. rewrite tc_looked_cast, CC1. reflexivity.
Qed.
(** demo never reads them; a program that reads 32 bytes of the event commitment meets the condition *)
Definition commit_tapes : raw_tapes := mkRaw [] [] [] [] (map Z.of_nat (seq 1 32)) (repeat 9 32) (repeat 0 32).
Definition commit_run (n : Z) := let p := program_create [] [] (exec_code [ mkInst ADD (mkArgs 10 0 0 7); mkInst ADD (mkArgs 11 0 0 200); mkInst ADD (mkArgs 12 0 0 n); ECALL_INST ]) in
  step (fun l => l) (fun _ => true) None p 7 (state_new p commit_tapes).
Lemma commit_good n : u32 n -> good_program (program_create [] [] (exec_code [ mkInst ADD (mkArgs 10 0 0 7); mkInst ADD (mkArgs 11 0 0 200); mkInst ADD (mkArgs 12 0 0 n); ECALL_INST ])).
Proof.
  intros Hn. constructor; unfold bytes_ok; cbn [entry_point ro_memory rw_memory ro_code program_create].
  - unfold u32; lia.
  - intros a b H. change (collect_map [] : gmap Z Z) with (∅ : gmap Z Z) in H. rewrite lookup_empty in H. discriminate.
  - intros a b H. change (collect_map [] : gmap Z Z) with (∅ : gmap Z Z) in H. rewrite lookup_empty in H. discriminate.
  - apply map_Forall_to_list. match goal with |- Forall _ ?l => let v := eval vm_compute in l in change l with v end.
    repeat (apply List.Forall_cons; [unfold instruction_ok, is_reg, u32 in *; cbn; lia|]); apply List.Forall_nil.
Qed.
Lemma commit_tapes_good : good_tapes commit_tapes.
Proof. constructor; cbn; repeat (apply List.Forall_cons; [unfold u8; lia|]); apply List.Forall_nil. Qed.
Example C73_ex : exists rec, commit_run 32 = Ok rec /\ length (tape_reads StoreEventsCommitmentTape (run_rows rec)) = 1%nat /\
  ctl_ok (tc_looking (generate_sd_trace StoreEventsCommitmentTape (run_rows rec))) (tc_event_looked (generate_tc_trace (run_rows rec) (last_state rec))).
Proof.
  destruct (commit_run 32) as [rec| |] eqn:E; [|exfalso; revert E; vm_compute; discriminate|exfalso; revert E; vm_compute; discriminate].
  exists rec. split; [reflexivity|].
  assert (T : tape_reads StoreEventsCommitmentTape (run_rows rec) = [(5, 200, map Z.of_nat (seq 1 32))] /\ length (executed rec) = 6%nat).
  { revert E. vm_compute. intros Q. injection Q as <-. auto. }
  destruct T as [T L]. split; [rewrite T; reflexivity|].
  apply (C73_generated_partial _ _ _ _ _ _ _ (state_new_ok _ _ (commit_good 32 ltac:(unfold u32; lia)) commit_tapes_good) (commit_good 32 ltac:(unfold u32; lia)) E eq_refl eq_refl ltac:(rewrite L; lia)).
  rewrite T. intros c a d [Q|[]]. injection Q as <- <- <-. reflexivity.
Qed.
(** A program that reads only part of a commitment cannot be proved. *)
Theorem C73_generated_refuted : exists p t fuel rec, good_program p /\ good_tapes t /\
  step (fun l => l) (fun _ => true) None p fuel (state_new p t) = Ok rec /\ halted (last_state rec) = true /\
  length (raw_events_commitment t) = 32%nat /\ length (raw_cast_list_commitment t) = 32%nat /\
  ~ ctl_ok (tc_looking (generate_sd_trace StoreEventsCommitmentTape (run_rows rec))) (tc_event_looked (generate_tc_trace (run_rows rec) (last_state rec))).
Proof.
  eexists _, commit_tapes, 7%nat.
  destruct (commit_run 31) as [rec| |] eqn:E; [|exfalso; revert E; vm_compute; discriminate|exfalso; revert E; vm_compute; discriminate].
  exists rec. split; [apply (commit_good 31); unfold u32; lia|]. split; [apply commit_tapes_good|]. split; [exact E|].
  assert (T : tape_reads StoreEventsCommitmentTape (run_rows rec) = [(5, 200, map Z.of_nat (seq 1 31))] /\ length (executed rec) = 6%nat /\ halted (last_state rec) = true).
  { revert E. vm_compute. intros Q. injection Q as <-. auto. }
  destruct T as (T & L & Hl). split; [exact Hl|]. split; [reflexivity|]. split; [reflexivity|]. intros C.
  destruct (C73_generated_partial _ _ _ _ _ _ _ (state_new_ok _ _ (commit_good 31 ltac:(unfold u32; lia)) commit_tapes_good) (commit_good 31 ltac:(unfold u32; lia)) E eq_refl eq_refl ltac:(rewrite L; lia)) as (_ & _ & _ & _ & [I _] & _). specialize (I C).
  rewrite T in I. specialize (I _ _ _ (or_introl eq_refl)). discriminate.
Qed.
(** Soundness: every byte of a commitment that reaches memory is one of the bytes published for that commitment; and the
    published bytes are, up to their order, those the table marks. *)
Theorem C73_published_partial : forall t tc pub, sd_accepted t -> tc_accepted tc -> Forall u8 pub -> Z.of_nat (length pub) < P ->
  ctl_ok (tc_looking t) (tc_event_looked tc) -> ctl_ok (tc_event_public tc) (public_values pub) ->
  (forall q, In q t -> d_store q = 1 -> In (d_value q) pub) /\
  Permutation (map tc_byte (List.filter (fun r => tc_is_event r =? 1) tc)) pub.
Proof. intros t tc pub A T U L C1 C2. split; [eapply published_bytes; eauto|apply published_perm; auto]. Qed.
Theorem C73_published_cast_partial : forall t tc pub, sd_accepted t -> tc_accepted tc -> Forall u8 pub -> Z.of_nat (length pub) < P ->
  ctl_ok (tc_looking t) (tc_cast_looked tc) -> ctl_ok (tc_cast_public tc) (public_values pub) ->
  (forall q, In q t -> d_store q = 1 -> In (d_value q) pub) /\
  Permutation (map tc_byte (List.filter (fun r => tc_is_cast r =? 1) tc)) pub.
Proof. intros t tc pub A T U L C1 C2. split; [eapply published_bytes_cast; eauto|apply published_perm_cast; auto]. Qed.
(** The order of the published bytes is not proved: a proof for one commitment is a proof for any rearrangement of it. *)
Theorem C73_order_refuted : forall tc pub pub', Permutation pub pub' -> ctl_ok (tc_event_public tc) (public_values pub) -> ctl_ok (tc_event_public tc) (public_values pub').
Proof. intros tc pub pub' PP C v. specialize (C v). rewrite (public_perm v pub pub' PP) in C. exact C. Qed.
Example C73_order_ex : exists tc pub pub', Permutation pub pub' /\ pub <> pub' /\ tc_accepted tc /\
  ctl_ok (tc_event_public tc) (public_values pub) /\ ctl_ok (tc_event_public tc) (public_values pub') /\
  ctl_ok (tc_looking (generate_sd_trace StoreEventsCommitmentTape [])) (tc_event_looked tc).
Proof.
  exists (generate_tc_trace [] (state_new demo commit_tapes)), (map Z.of_nat (seq 1 32)), (rev (map Z.of_nat (seq 1 32))).
  split; [apply Permutation_rev|]. split; [discriminate|]. split.
  - constructor; [apply tc_sat; cbn; lia| |unfold max_rows; cbn; lia]. apply List.Forall_forall. intros r I. unfold generate_tc_trace in I. apply in_app_iff in I.
    destruct I as [I|I]; apply in_map_iff in I as ([i b] & <- & I); pose proof (in_combine_r _ _ _ _ I) as I2; apply in_combine_l, in_seq in I; unfold tc_canon, canon, P; cbn in I, I2 |- *; repeat split; try lia;
      repeat (destruct I2 as [<-|I2]; [lia|]); destruct I2.
  - split; [apply ctl_check_ok; vm_compute; reflexivity|]. split; apply ctl_check_ok; vm_compute; reflexivity.
Qed.

Print Assumptions C71_generated_partial.
Print Assumptions C71_generated_refuted.
Print Assumptions C72_calls.
Print Assumptions C72_writes_partial.
Print Assumptions C72_write_without_call_refuted.
Print Assumptions C72_read_without_write_refuted.
Print Assumptions C73_generated_partial.
Print Assumptions C73_generated_refuted.
Print Assumptions C73_published_partial.
Print Assumptions C73_published_cast_partial.
Print Assumptions C73_order_refuted.
