(** C79: everything that runs can be proved. *)
From Verif Require Import ProofGenSpec ProofGenTables ProofGenRun RegGenLook RegGenRun RegGenProofs RegGenProps MemGenProofs MemGenSteps MemGenAccs MemGenLook MemGenRun MemGenProps StateSpec DeviceSpec DeviceProofs WordProps StateProps PoseidonSpec PoseidonPerm PoseidonGen PoseidonLook PoseidonProps DeviceProps CircuitProps DecodeProofs LoadModel LoadProofs TableProofs CpuTrace CpuComplete CpuGen StateProofs WordProofs StepProofs ExecProofs RunProofs RunnerProps.
Open Scope Z_scope.

(** The two public tables: the commitment tapes that the verifier is given (stark/mozak_stark.rs:474-490). *)
Record publics_hold (s : state) (T : tables) : Prop := {
  ph_event : ctl_ok (tc_event_public (t_tc T)) (public_values (events_commitment_tape s));
  ph_cast : ctl_ok (tc_cast_public (t_tc T)) (public_values (cast_list_commitment_tape s)) }.

Lemma cpu_rc_singles t : singles (cpu_rc_looking t).
Proof. intros e I. apply in_flat_map in I as (r & _ & I). apply in_map_iff in I as ([v f] & <- & _). cbn. eauto. Qed.
Lemma binary_sat {A} (f : A -> Z) (l : list A) : (l <> []) -> (forall r, In r l -> f r = 0 \/ f r = 1) ->
  trace_sat (mkAir (fun _ => []) (fun r _ => [is_binary (f r)]) (fun _ _ => []) (fun _ => [])) l.
Proof.
  intros N H. constructor; cbn [a_first a_always a_transition a_last]; try (intros; apply List.Forall_nil); [exact N|].
  intros k r r' E _. apply lookup_In in E. destruct (H r E) as [-> | ->]; repeat constructor.
Qed.

Lemma decoded_word a w i : u32 w -> decode_instruction a w = inl i -> exists rv, rv_ok rv /\ i = lower a rv.
Proof.
  intros U D. destruct (decode_total a _ U) as [E|(r & Hr & W)]; [rewrite D in E; discriminate E|]. exists r. split; [exact Hr|]. rewrite <- W, decode_encode_rv in D by auto. injection D as <-. reflexivity.
Qed.

(** * C79 Every execution can be proved *)
(** Code that the loader accepts consists of decoded instructions. *)
Theorem C79_loaded : forall e input p segs, e_segments e = Some segs -> Forall seg_ok segs -> Forall u8 input -> load_program e input = Ok p -> decoded_code p.
Proof.
  intros e input p segs ES HS HI E. destruct (load_program_inv _ _ _ E) as (segs' & ro & rw & x & c & ES' & _ & _ & _ & _ & _ & _ & E1 & E2 & E3 & E4 & ->).
  rewrite ES in ES'. injection ES' as <-. intros a i Hd. cbn [ro_code] in Hd. apply (code_from_entries x c (extract_ok _ _ _ _ HS HI E3) E4 a _) in Hd as (_ & _ & D). symmetry in D.
  eapply decoded_word; [|exact D]. apply image_word_u32; eapply extract_ok; eauto.
Qed.
(** For every halting execution of every such program, whose read-only and writable memory do not overlap, on tapes whose
    two commitments have 32 bytes, of at most 2^30 - 2 steps, if every step is one that the CPU table can prove, no read of
    zero bytes of a tape is directly followed by a read of some, every read of a commitment tape asks for 32 bytes, and
    every hashed message and every digest ends below 2^32: all tables are generated without a panic, each satisfies its
    constraints, the eighteen cross-table lookups hold, and the public tables hold the two commitments. *)
Theorem C79_generated_partial : forall K utf8_ok limit p fuel t rec, (0 < k_half K)%nat ->
  good_program p -> decoded_code p -> ro_memory p ##ₘ rw_memory p -> good_tapes t ->
  length (events_commitment_tape (state_new p t)) = 32%nat -> length (cast_list_commitment_tape (state_new p t)) = 32%nat ->
  step (poseidon2_permutation K) utf8_ok limit p fuel (state_new p t) = Ok rec ->
  let rows := run_rows rec in
  Z.of_nat (length (executed rec)) <= 2 ^ 30 - 2 ->
  (forall s i a, In (s, i, a) rows -> provable_step s i) ->
  (forall o, In o tape_order -> no_stall (tape_reads o rows)) ->
  (forall o c a d, o = StoreEventsCommitmentTape \/ o = StoreCastListCommitmentTape -> In (c, a, d) (tape_reads o rows) -> length d = 32%nat) ->
  hashes_fit rows ->
  exists T, generate_traces K p rec = Ok T /\ constraints_hold K p T /\ lookups_hold T /\ publics_hold (state_new p t) T.
Proof.
  intros K utf8_ok limit p fuel t rec HK GP DC DJ GT L1 L2 R rows SH PR NS CR HF. pose proof (permutation_state12 K) as P12. pose proof (good_program_ok _ GP) as PO. pose proof (state_new_ok p t GP GT) as OK.
  pose proof (step_rows_ok _ _ _ _ _ _ _ OK GP R) as F. fold (run_rows rec) in F. fold rows in F.
  assert (SHORT : Z.of_nat (length (run_rows rec)) <= 2 ^ 30 - 2) by (unfold run_rows; rewrite map_length; exact SH).
  assert (SHORT' : Z.of_nat (length (run_rows rec)) <= 2 ^ 31 - 2) by lia.
  pose proof (decoded_plain p DC) as ND.
  destruct (C77_generated_partial K utf8_ok limit p fuel t rec GP GT DJ R SH HF) as (sponge & SP & _ & MC & MI). fold rows in SP, MC, MI.
  assert (DF : digests_fit rows) by (intros c a o m I; apply (HF c a o m I)).
  destruct (mem_trace_ok _ P12 utf8_ok limit p fuel t rec GP GT DJ R SHORT sponge SP DF) as (MS & _ & MR & MU & _). change (mem_trace p rec sponge) with (memory_table p rows sponge) in *.
  destruct (C74_generated_partial K utf8_ok limit p fuel _ rec HK OK GP R) as [(PN & _)|(_ & sponge' & SP' & H74)]; [fold rows in PN; rewrite SP in PN; discriminate PN|]. fold rows in SP', H74. rewrite SP in SP'. injection SP' as <-. cbv zeta in H74. destruct H74 as ((SS & _) & (PS & _) & (OS & _) & SC & PC & OC & _).
  destruct (C73_generated_partial _ utf8_ok limit p fuel _ rec OK GP R L1 L2 ltac:(lia)) as (TS & _ & TE & TC & TLE & TLC). fold rows in TS, TE, TC, TLE, TLC.
  destruct (C71_generated_partial _ utf8_ok limit p fuel _ rec OK GP R) as (DS & DCPU & _). fold rows in DS, DCPU.
  destruct (C33_generated _ utf8_ok p rows GP F) as (HS & _ & HC & FS & _ & FC).
  assert (SCK : small_clk rows) by (intros s i a I; exact (proj2 (clk_small _ utf8_ok limit p fuel t rec GP GT ND R SHORT' s i a I))).
  pose proof (reg_history _ P12 utf8_ok limit p fuel t rec GP GT ND R SHORT' sponge SP) as HY. pose proof (looking_ok _ P12 utf8_ok limit p fuel t rec GP GT ND R SHORT' sponge SP) as LO. fold rows in HY, LO.
  pose proof (reg_generated _ _ _ LO HY) as RG. pose proof (reg_ctl _ _ _ LO HY) as RC. set (O := ops_of _) in *. pose proof (reg_table_sat _ _ _ HY) as RS. pose proof (reg_table_rc _ _ _ HY) as RR.
  set (mem := memory_table p rows sponge) in *. set (regs := reg_table O) in *.
  assert (NE : executed rec <> []) by (eapply some_step; eauto).
  assert (CODE : exists a i, ro_code p !! a = Some (inl i)).
  { destruct (executed rec) as [|r l] eqn:E; [congruence|]. assert (I : In (rstate r, rinst r, raux r) (run_rows rec)) by (unfold run_rows; rewrite E; left; reflexivity).
    destruct (row_step _ _ _ _ _ _ _ GP GT DC R PR SHORT _ _ _ I) as (_ & _ & _ & _ & _ & _ & Q & _). eauto. }
  destruct CODE as (a0 & i0 & CODE). destruct (rom_generated p a0 i0 CODE) as (rom & ROM & ROMI).
  assert (SG : singles (rc_looking mem (generate_cpu_trace rows) (add_rows rows) regs)).
  { intros e I. unfold rc_looking in I. apply in_app_or in I as [I|I]; [|apply in_app_or in I as [I|I]; [|apply in_app_or in I as [I|I]]].
    - unfold mem_rc_looking in I. apply in_app_or in I as [I|I]; apply in_map_iff in I as ([lv nv] & <- & _); cbn; eauto.
    - eapply cpu_rc_singles; exact I.
    - apply in_map_iff in I as (r & <- & _); cbn; eauto.
    - apply in_map_iff in I as ([lv nv] & <- & _); cbn; eauto. }
  assert (SR : forall v f, In ([v], f) (rc_looking mem (generate_cpu_trace rows) (add_rows rows) regs) -> ~ fzero f -> u32 (v mod P)).
  { intros v f I NZ. unfold rc_looking in I. apply in_app_or in I as [I|I]; [exact (MR v f I NZ)|]. apply in_app_or in I as [I|I]; [exact (cpu_rc _ _ _ _ _ _ _ GP GT DC R PR SHORT v f I NZ)|]. apply in_app_or in I as [I|I]; [|exact (RR v f I NZ)].
    apply in_map_iff in I as (r & [= <- <-] & I). destruct (add_ok _ _ _ _ _ _ _ GP GT DC R PR SHORT r I) as [_ U]. rewrite Z.mod_small; [exact U|unfold u32, P in *; lia]. }
  destruct (rangecheck_generated _ SG SR) as (rc & RCG & RCC & RCL). destruct (u8_generated rc mem RCL MU) as (u8s & U8G & U8S & U8C).
  eexists. split.
  { unfold generate_traces. change (map (fun r => (rstate r, rinst r, raux r)) (executed rec)) with rows. cbv zeta. rewrite (add_generated _ SCK). cbn [rbind]. rewrite (blt_generated _ SCK). cbn [rbind]. rewrite ROM. cbn [rbind]. rewrite SP. cbn [rbind].
    rewrite RG. cbn [rbind]. change (generate_memory_trace rows _ _ _ _ _ sponge _) with mem. fold regs. rewrite RCG. cbn [rbind]. rewrite U8G. cbn [rbind]. reflexivity. }
  split; [|split].
  - constructor; cbn [t_cpu t_skel t_add t_blt t_xor t_shift t_rom t_mult t_elf t_zero t_half t_full t_tape t_sponge t_ob t_perm t_mem t_reginit t_zread t_zwrite t_reg t_rc t_u8 t_tc]; auto.
    + eapply cpu_sat; eauto.
    + eapply C29_vm_run; eauto.
    + eapply add_sat; eauto.
    + eapply xor_sat; eauto.
    + apply C28_shift_complete.
    + apply (binary_sat mi_filter); [apply padded_nonempty|]. intros r I. apply in_pad in I as [I| ->]; [|auto]. apply sort_in in I. unfold elf_memory_init in I. apply in_app_or in I as [I|I]; apply in_map_iff in I as ([x y] & <- & _); auto.
    + apply (binary_sat zi_filter); [apply padded_nonempty|]. intros r I. apply in_pad in I as [I| ->]; [|auto]. apply in_map_iff in I as (x & <- & _). auto.
    + intros o I. apply (DS o I), NS, I.
  - constructor; cbn [t_cpu t_skel t_add t_blt t_xor t_shift t_rom t_mult t_elf t_zero t_half t_full t_tape t_sponge t_ob t_perm t_mem t_reginit t_zread t_zwrite t_reg t_rc t_u8 t_tc]; auto.
    + eapply skel_ctl; eauto.
    + eapply xor_ctl; eauto.
    + intros v. specialize (MC v). rewrite !mult_of_app in *. match goal with |- fzero (?x - _) => match type of MC with fzero (?y - _) => replace x with y by lia end end. exact MC.
    + eapply shift_ctl; eauto.
    + eapply program_ctl; eauto.
    + apply rom_ctl.
    + intros v. apply fz_eq. apply Zeq_minus. symmetry. exact (RC v).
    + apply TLE. intros c a d. apply CR. auto.
    + apply TLC. intros c a d. apply CR. auto.
  - constructor; cbn [t_tc]; auto.
Qed.
(** The same for a program loaded from an ELF file. *)
Theorem C79_elf_partial : forall K utf8_ok limit e input segs p fuel t rec, (0 < k_half K)%nat ->
  e_segments e = Some segs -> Forall seg_ok segs -> Forall u8 input -> 0 <= e_entry e -> load_program e input = Ok p ->
  ro_memory p ##ₘ rw_memory p -> good_tapes t -> length (raw_events_commitment t) = 32%nat -> length (raw_cast_list_commitment t) = 32%nat ->
  step (poseidon2_permutation K) utf8_ok limit p fuel (state_new p t) = Ok rec ->
  let rows := run_rows rec in
  Z.of_nat (length (executed rec)) <= 2 ^ 30 - 2 ->
  (forall s i a, In (s, i, a) rows -> provable_step s i) ->
  (forall o, In o tape_order -> no_stall (tape_reads o rows)) ->
  (forall o c a d, o = StoreEventsCommitmentTape \/ o = StoreCastListCommitmentTape -> In (c, a, d) (tape_reads o rows) -> length d = 32%nat) ->
  hashes_fit rows ->
  exists T, generate_traces K p rec = Ok T /\ constraints_hold K p T /\ lookups_hold T /\
    ctl_ok (tc_event_public (t_tc T)) (public_values (raw_events_commitment t)) /\ ctl_ok (tc_cast_public (t_tc T)) (public_values (raw_cast_list_commitment t)).
Proof.
  intros K utf8_ok limit e input segs p fuel t rec HK ES HS HI HE L DJ GT L1 L2 R rows SH PR NS CR HF.
  destruct (C79_generated_partial K utf8_ok limit p fuel t rec HK (C14_loaded_program_well_formed e input segs p ES HS HI HE L) (C79_loaded e input p segs ES HS HI L) DJ GT L1 L2 R SH PR NS CR HF) as (T & G & C & LK & [P1 P2]).
  exists T. auto.
Qed.

(** A program that reads a tape, hashes, stores, loads, multiplies, shifts, branches and jumps *)
Definition prove_rvs : list rv32 :=
  [ AluI iADDI 10 0 4; AluI iADDI 11 0 512; AluI iADDI 12 0 4; Ecall 0 0; Load wW false 5 0 512; AluI iADDI 10 0 3; AluI iADDI 12 0 16; AluI iADDI 13 0 1024; Ecall 0 0;
    Load wB true 6 0 1024; Alu rMULHSU 7 5 6; ShiftI sSRAI 7 7 3; Alu rXOR 8 7 5; Store wH 0 8 514; Branch cLTU 6 5 8; Alu rDIV 9 5 6; Alu rSUB 9 6 5; Jal 1 8; AluI iADDI 2 0 1;
    AluI iADDI 10 0 7; AluI iADDI 12 0 32; Ecall 0 0; Branch cLTU 5 6 8; Alu rREM 9 9 6 ].
Definition prove_prog : program := program_create [(100, 7)] [(514, 9)] (exec_code (imap (fun k => lower (4 * Z.of_nat k)) prove_rvs)).
Definition prove_run := step (poseidon2_permutation toyK) (fun _ => true) None prove_prog 40 (state_new prove_prog demo_tapes).
Definition provable_stepb (s : state) (i : instruction) : bool :=
  let x1 := reg s (rs1 (iargs i)) in
  let x2 := word (reg s (rs2 (iargs i)) + imm (iargs i)) in
  let y := match iop i with BLT | BGE => reg s (rs2 (iargs i)) | _ => x2 end in
  implb (op2_signed (iop i)) (negb ((sg x1 =? -31) && (sg y =? -1))) && implb (bool_decide (iop i = JALR)) ((x1 + imm (iargs i)) mod 2 =? 0) &&
  implb (bool_decide (iop i = ECALL)) (bool_decide (reg s REG_A0 ∈ [0; 2; 3; 4; 5; 6; 7; 8; 9])) && (pc s + 4 <? 2 ^ 32).
Lemma provable_stepb_ok s i : provable_stepb s i = true -> provable_step s i.
Proof.
  unfold provable_stepb, provable_step. cbv zeta. set (y := match iop i with BLT | BGE => _ | _ => _ end). rewrite !andb_true_iff, !implb_true_iff, Z.ltb_lt, !bool_decide_eq_true, Z.eqb_eq. intros (((A & B) & C) & D).
  split; [|split; [exact B|split; [|auto]]].
  - intros O (E1 & E2). specialize (A O). apply negb_true_iff, andb_false_iff in A. rewrite !Z.eqb_neq in A. destruct A; congruence.
  - intros O. apply elem_of_list_In, C, O.
Qed.
Definition inst_eqb (i j : instruction) : bool :=
  bool_decide (iop i = iop j) && (rd (iargs i) =? rd (iargs j)) && (rs1 (iargs i) =? rs1 (iargs j)) && (rs2 (iargs i) =? rs2 (iargs j)) && (imm (iargs i) =? imm (iargs j)).
Lemma inst_eqb_ok i j : inst_eqb i j = true -> i = j.
Proof.
  destruct i as [o [a b c d]], j as [o' [a' b' c' d']]. unfold inst_eqb. cbn. rewrite !andb_true_iff, bool_decide_eq_true, !Z.eqb_eq. intros ((((-> & ->) & ->) & ->) & ->). reflexivity.
Qed.
Definition decodedb (words : list Z) (a : Z) (d : decode_result) : bool :=
  match d with inl i => existsb (fun w => (0 <=? w) && (w <? 2 ^ 32) && match decode_instruction a w with inl j => inst_eqb i j | _ => false end) words | inr _ => true end.
Lemma decodedb_ok p words : forallb (fun '(a, d) => decodedb words a d) (map_to_list (ro_code p)) = true -> decoded_code p.
Proof.
  intros H a i E. apply elem_of_map_to_list, elem_of_list_In in E. rewrite forallb_forall in H. specialize (H _ E). cbn in H. apply existsb_exists in H as (w & _ & H). apply andb_true_iff in H as [H J]. apply andb_true_iff in H as [H1 H2].
  destruct (decode_instruction a w) as [j|] eqn:D; [|discriminate J]. apply inst_eqb_ok in J. subst j. eapply decoded_word; [|exact D]. unfold u32. lia.
Qed.
Lemma few_reads (l : list (Z * Z * list Z)) : (length l <= 1)%nat -> no_stall l.
Proof.
  intros L. split.
  - intros k c a d c' a' d' _ E. apply lookup_lt_Some in E. lia.
  - intros _ c a d c' a' d' E1 E2 E. destruct l as [|x [|y l]]; [discriminate E1| |cbn in L; lia]. cbn in E1, E2. congruence.
Qed.
Lemma prove_good : good_program prove_prog.
Proof.
  constructor.
  - unfold u32; cbn; lia.
  - apply small_bytes. repeat (apply List.Forall_cons; [unfold u32, u8; cbn; lia|]); apply List.Forall_nil.
  - apply small_bytes. repeat (apply List.Forall_cons; [unfold u32, u8; cbn; lia|]); apply List.Forall_nil.
  - apply map_Forall_to_list. change (map_to_list (ro_code prove_prog)) with (ltac:(let v := eval vm_compute in (map_to_list (ro_code prove_prog)) in exact v)).
    repeat (apply List.Forall_cons; [unfold instruction_ok, is_reg, u32 in *; cbn; lia|]); apply List.Forall_nil.
Qed.
Definition prove_check (rec : record) : bool :=
  let rows := run_rows rec in
  (length (executed rec) =? 24)%nat && forallb (fun '(s, i, _) => provable_stepb s i) rows && forallb (fun o => (length (tape_reads o rows) <=? 1)%nat) tape_order &&
  forallb (fun o => forallb (fun '(_, _, d) => (length d =? 32)%nat) (tape_reads o rows)) [StoreEventsCommitmentTape; StoreCastListCommitmentTape] &&
  (length (tape_reads StorePublic rows) =? 1)%nat && (length (tape_reads StoreEventsCommitmentTape rows) =? 1)%nat &&
  forallb (fun '(_, a, o, m) => (a + Z.of_nat (length m) <? 2 ^ 32) && (o + 32 <=? 2 ^ 32)) (hash_calls rows) && (length (hash_calls rows) =? 1)%nat.
Example C79_ex : exists rec T, prove_run = Ok rec /\ length (executed rec) = 24%nat /\ length (hash_calls (run_rows rec)) = 1%nat /\
  length (tape_reads StorePublic (run_rows rec)) = 1%nat /\ length (tape_reads StoreEventsCommitmentTape (run_rows rec)) = 1%nat /\
  generate_traces toyK prove_prog rec = Ok T /\ constraints_hold toyK prove_prog T /\ lookups_hold T /\ publics_hold (state_new prove_prog demo_tapes) T.
Proof.
  assert (H : match prove_run with Ok rec => prove_check rec | _ => false end = true) by (vm_compute; reflexivity).
  destruct prove_run as [rec| |] eqn:R; try discriminate H. unfold prove_check in H. cbv zeta in H. rewrite !andb_true_iff in H. destruct H as (((((((H1 & H2) & H3) & H4) & H5) & H6) & H7) & H8).
  rewrite forallb_forall in H2, H3, H4, H7. apply Nat.eqb_eq in H1, H5, H6, H8.
  destruct (C79_generated_partial toyK (fun _ => true) None prove_prog 40 demo_tapes rec) as (T & G & C & L & Q).
  - cbn. lia.
  - exact prove_good.
  - apply (decodedb_ok _ (map RvSpec.encode (prove_rvs ++ [AluI iADDI 10 0 0; Ecall 0 0]))). vm_compute. reflexivity.
  - apply map_disjoint_spec. intros a x y E1 E2. cbn [prove_prog program_create ro_memory rw_memory] in E1, E2. rewrite collect_map_lookup in E1, E2. cbn [last_at] in E1, E2. clear - E1 E2. destruct (Z.eqb_spec 100 a), (Z.eqb_spec 514 a); try discriminate; lia.
  - exact demo_tapes_good.
  - reflexivity.
  - reflexivity.
  - exact R.
  - rewrite H1. vm_compute. discriminate.
  - intros s i a I. apply provable_stepb_ok. exact (H2 _ I).
  - intros o I. apply few_reads, Nat.leb_le, H3, I.
  - intros o c a d O I. assert (J : In o [StoreEventsCommitmentTape; StoreCastListCommitmentTape]) by (destruct O as [-> | ->]; cbn; auto). specialize (H4 o J). rewrite forallb_forall in H4. apply Nat.eqb_eq. exact (H4 _ I).
  - intros c a o m I. specialize (H7 _ I). cbn beta iota in H7. clear - H7. lia.
  - exists rec, T. auto 12.
Qed.
(** The machine runs programs whose tables cannot even be generated: hashing a message that ends at 2^32. *)
Theorem C79_generated_refuted : exists K p t fuel rec, (0 < k_half K)%nat /\ good_program p /\ decoded_code p /\ ro_memory p ##ₘ rw_memory p /\ good_tapes t /\
  step (poseidon2_permutation K) (fun _ => true) None p fuel (state_new p t) = Ok rec /\ halted (last_state rec) = true /\ generate_traces K p rec = Panic POverflow.
Proof.
  assert (H : match hash_run 4294967288 8 400 with Ok rec => halted (last_state rec) && match generate_traces toyK (hash_prog 4294967288 8 400) rec with Panic POverflow => true | _ => false end | _ => false end = true) by (vm_compute; reflexivity).
  destruct (hash_run 4294967288 8 400) as [rec| |] eqn:R; try discriminate H. apply andb_true_iff in H as [H1 H2]. destruct (generate_traces _ _ _) as [| |e] eqn:G; try discriminate H2. destruct e; try discriminate H2.
  exists toyK, (hash_prog 4294967288 8 400), demo_tapes, 8%nat, rec. split; [cbn; lia|]. split; [apply hash_prog_good; unfold u32; lia|]. split.
  { apply (decodedb_ok _ (map RvSpec.encode [AluI iADDI 10 0 3; AluI iADDI 11 0 (-8); AluI iADDI 12 0 8; AluI iADDI 13 0 400; AluI iADDI 10 0 0; Ecall 0 0])). vm_compute. reflexivity. }
  split; [apply map_disjoint_empty_l|]. split; [exact demo_tapes_good|]. auto.
Qed.

Print Assumptions C79_loaded.
Print Assumptions C79_generated_partial.
Print Assumptions C79_elf_partial.
Print Assumptions C79_generated_refuted.
