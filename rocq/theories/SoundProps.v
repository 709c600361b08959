(** C80: accepted tables describe an execution, once the named gaps are closed. *)
From Verif Require Import SoundSpec ProofGenSpec ProofGenTables ProofGenRun ProofGenProps RegGenLook RegGenRun RegGenProps MemGenProofs MemGenProps StateSpec DeviceSpec DeviceProofs WordProps StateProps PoseidonSpec PoseidonProps DeviceProps CircuitProps RunProofs RunnerProps LoadModel LoadProofs SoundSpec RomProofs StateModel WordProps RunProofs RunnerProps CpuTrace ProofGenTables ProofGenProps PoseidonProps ProofGenRun SoundRun.
Open Scope Z_scope.

(** * C80 A proof shows an execution *)
(** For every program, all tables that the verifier accepts for it, and all tapes: if the gaps that the findings name are
    closed and the tables show no environment call but HALT, then the machine halts on that program, and the tables describe
    its run: the skeleton lists clock and pc of its steps, in order, and nothing else; every running row of the CPU, ADD and
    BLTU tables shows a step with its instruction, the register values read and the value written; and every load and store
    of the memory table shows a byte of memory before or after the step of its clock.
    Missing from the full claim: the other environment calls. *)
Theorem C80_execution_partial : forall K p events casts T,
  proof_accepted K p events casts T -> tables_typed T -> gaps_closed p T -> no_devices T ->
  good_program p -> decoded_code p -> code_placed p ->
  forall permute utf8_ok t, good_tapes t ->
  exists fuel rec, step permute utf8_ok None p fuel (state_new p t) = Ok rec /\ halted (last_state rec) = true /\ describes T rec.
Proof.
  intros K p events casts T PA TY GC FR GP DC CP permute utf8_ok t GT. destruct (accepted_run K p events casts T PA TY GC FR GP DC CP permute utf8_ok t GT) as (fuel & rec & R & D).
  exists fuel, rec. split; [exact R|]. split; [|exact D]. eapply run_record; [apply (state_new_ok p t GP GT)|apply good_program_ok, GP|exact R].
Qed.

(** ** A case that meets the hypotheses *)
Definition sound_rvs : list rv32 :=
  [ AluI iADDI 5 0 3; Alu rMUL 6 5 5; Alu rSUB 7 6 5; Alu rXOR 8 7 6; Branch cLTU 5 6 8; Alu rDIV 9 5 6; Alu rSLT 9 7 5; Jal 1 8; AluI iADDI 2 0 1; Alu rDIVU 9 6 7;
    Load wB false 11 5 97; Load wH true 12 5 197; Store wW 5 11 205; Store wB 5 12 206; Load wW false 13 5 205; Store wH 5 13 200; Load wH false 14 5 205; Load wB true 15 5 (-3) ].
Definition sound_prog : program := program_create [(100, 135)] [(200, 7); (201, 140)] (exec_code (imap (fun k => lower (4 * Z.of_nat k)) sound_rvs)).
Definition sound_run := step (poseidon2_permutation toyK) (fun _ => true) None sound_prog 40 (state_new sound_prog demo_tapes).
Definition canonb (x : Z) : bool := (0 <=? x) && (x <? P).
Definition u32b (x : Z) : bool := (0 <=? x) && (x <? 2 ^ 32).
Definition bitb (x : Z) : bool := (x =? 0) || (x =? 1).
Definition lenb {A} (l : list A) : bool := Z.of_nat (length l) <=? 2 ^ 32.
Definition fieldsb (i : args) : bool := (0 <=? rs1 i) && (rs1 i <? 32) && (0 <=? rs2 i) && (rs2 i <? 32) && (0 <=? rd i) && (rd i <? 32) && u32b (imm i).
Definition typedb (T : tables) : bool :=
  forallb (fun r => forallb canonb (cpu_columns r)) (t_cpu T) && lenb (t_cpu T) &&
  forallb (fun r => canonb (sk_clk r) && canonb (sk_pc r) && canonb (sk_running r)) (t_skel T) && lenb (t_skel T) &&
  forallb (fun r => forallb canonb [ad_pc r; ad_rs1 r; ad_rs2 r; ad_rd r; ad_imm r; ad_clk r; ad_op1 r; ad_op2 r; ad_dst r; ad_running r]) (t_add T) && lenb (t_add T) &&
  forallb (fun r => forallb canonb [bl_pc r; bl_rs1 r; bl_rs2 r; bl_imm r; bl_clk r; bl_op1 r; bl_op2 r; bl_running r]) (t_blt T) && lenb (t_blt T) &&
  forallb (fun r => (length (xl_a r) =? 32)%nat && (length (xl_b r) =? 32)%nat && (length (xl_out r) =? 32)%nat && forallb canonb (x_exec r :: x_a r :: x_b r :: x_out r :: xl_a r ++ xl_b r ++ xl_out r)) (t_xor T) &&
  forallb (fun r => canonb (s_amount r) && canonb (s_multiplier r)) (t_shift T) && lenb (t_shift T) && lenb (t_mult T) &&
  forallb (fun r => canonb (g_addr r) && canonb (g_value r) && canonb (g_clk r) && canonb (g_init r) && canonb (g_read r) && canonb (g_write r)) (t_reg T) && lenb (t_reg T) &&
  forallb (fun r => (length (w_addrs r) =? 2)%nat && (length (w_limbs r) =? 2)%nat && forallb canonb ([w_clk r; w_store r; w_load r] ++ w_addrs r ++ w_limbs r)) (t_half T) && lenb (t_half T) &&
  forallb (fun r => (length (w_addrs r) =? 4)%nat && (length (w_limbs r) =? 4)%nat && forallb canonb ([w_clk r; w_store r; w_load r] ++ w_addrs r ++ w_limbs r)) (t_full T) && lenb (t_full T) &&
  lenb (t_elf T) && forallb (fun r => canonb (zi_addr r) && canonb (zi_filter r)) (t_zero T) && lenb (t_zero T) &&
  forallb (fun r => canonb (m_writable r) && canonb (m_addr r) && canonb (m_clk r) && canonb (m_store r) && canonb (m_load r) && canonb (m_init r) && canonb (m_value r)) (t_mem T) && lenb (t_mem T) &&
  forallb (fun r => (length (rc_limbs r) =? 4)%nat && forallb canonb (rc_mult r :: rc_limbs r)) (t_rc T) &&
  forallb (fun r => canonb (u8_value r)) (t_u8 T) && lenb (t_u8 T).
Lemma canonb_ok x : canonb x = true -> canon x.
Proof. unfold canonb, canon. lia. Qed.
Lemma canonsb_ok l : forallb canonb l = true -> Forall canon l.
Proof. rewrite forallb_forall, List.Forall_forall. intros H x I. apply canonb_ok, H, I. Qed.
Lemma lenb_ok {A} (l : list A) : lenb l = true -> max_rows l.
Proof. unfold lenb, max_rows. lia. Qed.
Lemma forallb_ok {A} (f : A -> bool) (Q : A -> Prop) l : forallb f l = true -> (forall x, f x = true -> Q x) -> Forall Q l.
Proof. rewrite forallb_forall, List.Forall_forall. auto. Qed.
Lemma typedb_ok T : typedb T = true -> tables_typed T.
Proof.
  unfold typedb. rewrite !andb_true_iff. intros H. decompose [and] H. clear H.
  constructor; try split; try (apply lenb_ok; assumption); (eapply forallb_ok; [eassumption|]); cbv beta; intros x; rewrite ?andb_true_iff; intros Q; try (apply canonsb_ok; exact Q); try (apply canonb_ok; exact Q).
  - decompose [and] Q. auto using canonb_ok.
  - decompose [and] Q. constructor; [repeat split; apply Nat.eqb_eq; assumption|apply canonsb_ok; assumption].
  - decompose [and] Q. split; auto using canonb_ok.
  - decompose [and] Q. repeat split; apply canonb_ok; assumption.
  - decompose [and] Q. split; [apply Nat.eqb_eq; assumption|split; [apply Nat.eqb_eq; assumption|apply canonsb_ok; assumption]].
  - decompose [and] Q. split; [apply Nat.eqb_eq; assumption|split; [apply Nat.eqb_eq; assumption|apply canonsb_ok; assumption]].
  - decompose [and] Q. split; apply canonb_ok; assumption.
  - decompose [and] Q. repeat split; apply canonb_ok; assumption.
  - decompose [and] Q. split; [apply Nat.eqb_eq; assumption|apply canonsb_ok; assumption].
Qed.
Definition reg_firstb (l : list regrow) : bool :=
  match l with r :: _ => g_init r =? 1 | [] => true end &&
  forallb (fun '(i, r) => forallb (fun '(j, r') => implb ((g_rw r =? 1) && (g_init r' =? 1) && (g_addr r =? g_addr r')) (j <? i)%nat) (imap pair l)) (imap pair l).
Definition accessb (p : program) (r : cpu) : bool :=
  implb ((c_op r o_lb =? 1) || (c_op r o_lh =? 1)) match ro_code p !! c_pc r with Some (inl i) => i_dst_signed (c_inst r) =? b2z (dst_signed (iop i)) | _ => true end &&
  implb ((c_op r o_lb =? 1) && (i_dst_signed (c_inst r) =? 1)) (c_dst_sign_bit r =? b2z (2 ^ 7 <=? c_mem_value_raw r)) &&
  implb ((c_op r o_lh =? 1) && (i_dst_signed (c_inst r) =? 1)) (c_dst_sign_bit r =? b2z (2 ^ 15 <=? c_mem_value_raw r)) &&
  implb (c_op r o_lw =? 1) (c_dst_value r =? c_mem_value_raw r) && implb (c_op r o_sw =? 1) (c_mem_value_raw r =? c_op1_value r) &&
  implb ((c_op r o_sb =? 1) || (c_op r o_sh =? 1)) ((c_xor_out r =? Z.lxor (c_xor_a r) (c_xor_b r)) && u32b (c_xor_b r)).
Definition gapsb (p : program) (T : tables) : bool :=
  forallb (fun r => bitb (ad_running r) && implb (ad_running r =? 1) (fieldsb (mkArgs (ad_rd r) (ad_rs1 r) (ad_rs2 r) (ad_imm r)))) (t_add T) &&
  forallb (fun r => bitb (bl_running r) && implb (bl_running r =? 1) (fieldsb (mkArgs 0 (bl_rs1 r) (bl_rs2 r) (bl_imm r)) && u32b ((bl_op2 r - bl_op1 r - 1) mod P))) (t_blt T) &&
  forallb (fun r => accessb p r && implb (c_op r o_slt =? 1) (u32b (c_abs_diff r)) && implb ((1 - c_skip_quotient_sign r) mod P =? 0) (bitb (c_quotient_sign r)) &&
                    implb (c_op r o_jalr =? 1) (u32b (c_new_pc r) && (c_new_pc r mod 2 =? 0))) (t_cpu T) &&
  (is_running (List.last (t_cpu T) pad_row) =? 0) && reg_firstb (t_reg T) &&
  (mult_total (mem_rc_looking (t_mem T) ++ cpu_rc_looking (t_cpu T) ++ add_rc_looking (t_add T) ++ reg_rc_looking (t_reg T)) <? P) &&
  (mult_total (rc_u8_looking (t_rc T) ++ mem_u8_looking (t_mem T)) <? P).
Definition devicesb (T : tables) : bool :=
  forallb (fun r => implb (c_op r o_ecall =? 1) (c_ecall r e_halt =? 1)) (t_cpu T) &&
  forallb (fun e => snd e =? 0) (all_sd_reg_looking (t_tape T) ++ sp_reg_looking (t_sponge T)) &&
  forallb (fun e => snd e =? 0) (all_sd_mem_looking (t_tape T) ++ sp_mem_looking (t_sponge T) ++ ob_mem_looking (t_ob T)).
Lemma imap_pair_in {A} (l : list A) k x : l !! k = Some x -> In (k, x) (imap pair l).
Proof. intros E. apply (lookup_In _ k). rewrite list_lookup_imap, E. reflexivity. Qed.
Lemma reg_firstb_ok l : reg_firstb l = true -> reg_init_first l.
Proof.
  unfold reg_firstb. rewrite andb_true_iff. intros [A B]. constructor.
  - intros r E. destruct l; [discriminate E|]. injection E as ->. lia.
  - intros i j r r' E E' G I' AD. rewrite forallb_forall in B. specialize (B _ (imap_pair_in _ _ _ E)). cbn beta iota in B. rewrite forallb_forall in B. specialize (B _ (imap_pair_in _ _ _ E')). cbn beta iota in B.
    rewrite G, I', AD, !Z.eqb_refl in B. cbn in B. apply Nat.ltb_lt in B. exact B.
Qed.
Lemma fieldsb_ok i : fieldsb (iargs i) = true -> inst_fields_ok i.
Proof. unfold fieldsb, inst_fields_ok, u32b, u32. lia. Qed.
#[local] Opaque is_running.
Lemma gapsb_ok p T rows : t_cpu T = generate_cpu_trace rows -> forallb (fun '(_, i, _) => fieldsb (iargs i)) rows = true -> gapsb p T = true -> gaps_closed p T.
Proof.
  intros GT FI. unfold gapsb. rewrite !andb_true_iff. intros ((((((A & B) & C) & D) & E) & F) & G). rewrite forallb_forall in A, B, C, FI.
  assert (IM : forall (x y : bool), implb x y = true -> x = true -> y = true) by (intros [] []; auto).
  assert (AC : forall r, In r (t_cpu T) -> implb ((c_op r o_lb =? 1) || (c_op r o_lh =? 1)) match ro_code p !! c_pc r with Some (inl i) => i_dst_signed (c_inst r) =? b2z (dst_signed (iop i)) | _ => true end = true /\
    implb ((c_op r o_lb =? 1) && (i_dst_signed (c_inst r) =? 1)) (c_dst_sign_bit r =? b2z (2 ^ 7 <=? c_mem_value_raw r)) = true /\
    implb ((c_op r o_lh =? 1) && (i_dst_signed (c_inst r) =? 1)) (c_dst_sign_bit r =? b2z (2 ^ 15 <=? c_mem_value_raw r)) = true /\
    implb (c_op r o_lw =? 1) (c_dst_value r =? c_mem_value_raw r) = true /\ implb (c_op r o_sw =? 1) (c_mem_value_raw r =? c_op1_value r) = true /\
    implb ((c_op r o_sb =? 1) || (c_op r o_sh =? 1)) ((c_xor_out r =? Z.lxor (c_xor_a r) (c_xor_b r)) && u32b (c_xor_b r)) = true).
  { intros r I. specialize (C r I). rewrite !andb_true_iff in C. destruct C as (((C & _) & _) & _). unfold accessb in C. rewrite !andb_true_iff in C. destruct C as (((((C1 & C2) & C3) & C4) & C5) & C6). auto 8. }
  constructor.
  - split; apply List.Forall_forall; intros r I; [specialize (A r I)|specialize (B r I)]; rewrite andb_true_iff in *; unfold bitb, bit in *; lia.
  - intros r I R. rewrite GT in I. unfold generate_cpu_trace in I. apply RegGenRun.in_pad in I as [I| ->].
    + apply in_map_iff in I as ([[s i] a] & <- & I). apply filter_In in I as [I _]. exists i. split; [apply fieldsb_ok, (FI _ I)|]. unfold gen_row. destruct (gen_product _ _) as [[? ?] ?]. destruct (gen_div _ _ _ _ _) as [[[[[? ?] ?] ?] ?] ?]. reflexivity.
    + exfalso. vm_compute in R. discriminate R.
  - intros r I R. specialize (A r I). rewrite R in A. rewrite andb_true_iff in A. destruct A as [_ A]. apply fieldsb_ok. exact A.
  - intros r I R. specialize (B r I). rewrite R in B. rewrite andb_true_iff in B. destruct B as [_ B]. cbn [implb Z.eqb Pos.eqb] in B. apply andb_true_iff in B as [B _]. apply fieldsb_ok. exact B.
  - intros r i I O CO. destruct (AC r I) as (C1 & _). rewrite CO in C1. apply Z.eqb_eq, (IM _ _ C1). rewrite orb_true_iff, !Z.eqb_eq. exact O.
  - intros r I O S. destruct (AC r I) as (_ & C1 & _). apply Z.eqb_eq, (IM _ _ C1). rewrite andb_true_iff, !Z.eqb_eq. auto.
  - intros r I O S. destruct (AC r I) as (_ & _ & C1 & _). apply Z.eqb_eq, (IM _ _ C1). rewrite andb_true_iff, !Z.eqb_eq. auto.
  - intros r I O. destruct (AC r I) as (_ & _ & _ & C1 & _). apply Z.eqb_eq, (IM _ _ C1), Z.eqb_eq, O.
  - intros r I O. destruct (AC r I) as (_ & _ & _ & _ & C1 & _). apply Z.eqb_eq, (IM _ _ C1), Z.eqb_eq, O.
  - intros r I O. destruct (AC r I) as (_ & _ & _ & _ & _ & C1). assert (X := IM _ _ C1). rewrite orb_true_iff, !Z.eqb_eq, andb_true_iff, Z.eqb_eq in X. destruct (X O) as [X1 X2]. split; [exact X1|]. unfold u32b in X2. unfold u32. lia.
  - intros r I O. specialize (C r I). rewrite !andb_true_iff, O in C. destruct C as (((_ & C) & _) & _). unfold u32b in C. cbn in C. clear - C. unfold u32. lia.
  - intros r I O. specialize (C r I). rewrite !andb_true_iff in C. destruct C as ((_ & C) & _). pose proof (IM _ _ C (proj2 (Z.eqb_eq _ _) O)) as C'. clear - C'. unfold bitb, bit in *. lia.
  - intros r I R. apply In_lookup in I as (k & Ek). exists k. destruct (t_cpu T !! S k) as [r'|] eqn:E'; [eauto|]. exfalso. apply lookup_ge_None in E'. pose proof (lookup_lt_Some _ _ _ Ek) as L. apply Z.eqb_eq in D.
    assert (Q : List.last (t_cpu T) pad_row = r). { destruct (exists_last (l := t_cpu T)) as (l0 & x & QE); [intros N; rewrite N in L; cbn in L; lia|]. rewrite QE in *. rewrite List.last_last. rewrite app_length in E', L. cbn in E', L. assert (k = length l0) by lia. subst k. rewrite list_lookup_middle in Ek by reflexivity. congruence. }
    rewrite Q in D. congruence.
  - intros r I O. specialize (C r I). rewrite !andb_true_iff, O in C. destruct C as (_ & C). pose proof (IM _ _ C eq_refl) as C'. apply andb_true_iff in C' as [C1 C2]. unfold u32b in C1. unfold u32. lia.
  - apply reg_firstb_ok, E.
  - split; apply Z.ltb_lt; assumption.
  - intros r I R. specialize (B r I). rewrite R in B. rewrite andb_true_iff in B. destruct B as [_ B]. cbn [implb Z.eqb Pos.eqb] in B. apply andb_true_iff in B as [_ B]. unfold u32b in B. unfold u32. lia.
Qed.
Lemma devicesb_ok T : devicesb T = true -> no_devices T.
Proof.
  unfold devicesb. rewrite !andb_true_iff, !forallb_forall. intros [[A B] C]. constructor.
  - intros r I O. specialize (A r I). rewrite O in A. cbn [implb Z.eqb Pos.eqb] in A. lia.
  - apply List.Forall_forall. intros e I. apply Z.eqb_eq, B, I.
  - apply List.Forall_forall. intros e I. apply Z.eqb_eq, C, I.
Qed.

Definition sound_check (rec : record) (T : tables) : bool :=
  let rows := run_rows rec in
  (length (executed rec) =? 18)%nat && forallb (fun '(s, i, _) => provable_stepb s i) rows && forallb (fun o => (length (tape_reads o rows) =? 0)%nat) tape_order && (length (hash_calls rows) =? 0)%nat &&
  bool_decide (map (fun r => (ri_addr r, ri_value r)) (generate_reginit_trace rec) = map (fun r => (ri_addr r, ri_value r)) (pad_last (mkRegInit 0 0) (map (fun k => mkRegInit (Z.of_nat k) 0) (seq 1 31)))) &&
  forallb (fun '(_, i, _) => fieldsb (iargs i)) rows && typedb T && gapsb sound_prog T && devicesb T.
Lemma sound_good : good_program sound_prog.
Proof.
  constructor.
  - unfold u32; cbn; lia.
  - apply small_bytes. repeat (apply List.Forall_cons; [unfold u32, u8; cbn; lia|]); apply List.Forall_nil.
  - apply small_bytes. repeat (apply List.Forall_cons; [unfold u32, u8; cbn; lia|]); apply List.Forall_nil.
  - apply map_Forall_to_list. change (map_to_list (ro_code sound_prog)) with (ltac:(let v := eval vm_compute in (map_to_list (ro_code sound_prog)) in exact v)).
    repeat (apply List.Forall_cons; [unfold instruction_ok, is_reg, u32 in *; cbn; lia|]); apply List.Forall_nil.
Qed.
Lemma sound_disjoint : ro_memory sound_prog ##ₘ rw_memory sound_prog.
Proof.
  apply map_disjoint_spec. intros a b c E F. apply elem_of_map_to_list, elem_of_list_In in E, F. assert (H : forallb (fun '(a, _) => forallb (fun '(a', _) => negb (a =? a')) (map_to_list (rw_memory sound_prog))) (map_to_list (ro_memory sound_prog)) = true) by (vm_compute; reflexivity).
  rewrite forallb_forall in H. specialize (H _ E). cbn beta iota in H. rewrite forallb_forall in H. specialize (H _ F). cbn beta iota in H. rewrite Z.eqb_refl in H. discriminate H.
Qed.
Lemma sound_decoded : decoded_code sound_prog.
Proof. apply (decodedb_ok _ (map RvSpec.encode (sound_rvs ++ [AluI iADDI 10 0 0; Ecall 0 0]))). vm_compute. reflexivity. Qed.
Lemma sound_placed : code_placed sound_prog.
Proof.
  intros a d E. apply elem_of_map_to_list, elem_of_list_In in E. assert (H : forallb (fun '(a, _) => (0 <=? a) && (a <? 2 ^ 32 - 4) && (a mod 4 =? 0)) (map_to_list (ro_code sound_prog)) = true) by (vm_compute; reflexivity).
  rewrite forallb_forall in H. specialize (H _ E). cbn beta iota in H. lia.
Qed.
Example C80_ex : exists T, proof_accepted toyK sound_prog (repeat 0 32) (repeat 0 32) T /\ tables_typed T /\ gaps_closed sound_prog T /\ no_devices T /\
  good_program sound_prog /\ decoded_code sound_prog /\ code_placed sound_prog /\ good_tapes demo_tapes /\ length (t_cpu T) = 16%nat /\ length (t_skel T) = 32%nat /\ length (t_half T) = 8%nat /\ length (t_full T) = 8%nat.
Proof.
  assert (H : match sound_run with Ok rec => match generate_traces toyK sound_prog rec with Ok T => sound_check rec T && (length (t_cpu T) =? 16)%nat && (length (t_skel T) =? 32)%nat && (length (t_half T) =? 8)%nat && (length (t_full T) =? 8)%nat | _ => false end | _ => false end = true) by (vm_compute; reflexivity).
  destruct sound_run as [rec| |] eqn:R; try discriminate H. destruct (generate_traces toyK sound_prog rec) as [T| |] eqn:G; try discriminate H.
  apply andb_true_iff in H as [H LF]. apply andb_true_iff in H as [H LH]. apply andb_true_iff in H as [H LK]. apply andb_true_iff in H as [H LC]. unfold sound_check in H. cbv zeta in H. rewrite !andb_true_iff in H. destruct H as ((((((((H1 & H2) & H3) & H4) & H5) & H6) & H7) & H8) & H9).
  rewrite forallb_forall in H2, H3. apply Nat.eqb_eq in H1, H4. apply bool_decide_eq_true in H5.
  assert (NR : forall o, In o tape_order -> tape_reads o (run_rows rec) = []) by (intros o I; apply length_zero_iff_nil, Nat.eqb_eq, H3, I).
  destruct (C79_generated_partial toyK (fun _ => true) None sound_prog 40 demo_tapes rec) as (T' & G' & C & L & [Q1 Q2]).
  - cbn. lia.
  - apply sound_good.
  - apply sound_decoded.
  - apply sound_disjoint.
  - exact demo_tapes_good.
  - reflexivity.
  - reflexivity.
  - exact R.
  - rewrite H1. vm_compute. discriminate.
  - intros s i a I. apply provable_stepb_ok. exact (H2 _ I).
  - intros o I. apply few_reads. rewrite (NR o I). cbn. lia.
  - intros o c a d O I. rewrite NR in I by (destruct O as [-> | ->]; cbn; auto 10). destruct I.
  - intros c a o m I. apply length_zero_iff_nil in H4. rewrite H4 in I. destruct I.
  - assert (T' = T) as -> by congruence. clear G'. apply Nat.eqb_eq in LC, LK, LH, LF.
    assert (GT : t_cpu T = generate_cpu_trace (run_rows rec) /\ generate_program_rom_trace sound_prog = Ok (t_rom T) /\ t_elf T = generate_memory_init_trace sound_prog /\ t_reginit T = generate_reginit_trace rec).
    { clear - G. unfold generate_traces in G. cbv zeta in G. destruct (generate_add_trace _) as [adds| |]; try discriminate G. cbn [rbind] in G. destruct (generate_blt_trace _) as [blts| |]; try discriminate G. cbn [rbind] in G.
      destruct (generate_program_rom_trace sound_prog) as [rom| |] eqn:ROM; try discriminate G. cbn [rbind] in G. destruct (generate_sponge_trace _) as [sp| |]; try discriminate G. cbn [rbind] in G.
      destruct (generate_register_trace _) as [[[zr zw] regs]| |]; try discriminate G. cbn [rbind] in G. destruct (generate_rangecheck_trace _) as [rc| |]; try discriminate G. cbn [rbind] in G. destruct (generate_rangecheck_u8_trace _ _) as [u8s| |]; try discriminate G. cbn [rbind] in G.
      injection G as <-. cbn [t_cpu t_rom t_elf t_reginit]. auto. }
    destruct GT as (GC & GR & GE & GI). exists T. split; [|split; [apply typedb_ok, H7|split; [eapply gapsb_ok; eauto|split; [apply devicesb_ok, H9|]]]].
    + constructor; auto. rewrite GI. revert H5. generalize (pad_last (mkRegInit 0 0) (map (fun k => mkRegInit (Z.of_nat k) 0) (seq 1 31))). generalize (generate_reginit_trace rec). clear.
      induction l as [|[x y] l IH]; intros [|[x' y'] l'] E; cbn in E; try discriminate E; [reflexivity|]. injection E as -> -> E. f_equal. apply IH, E.
    + auto 15 using sound_good, sound_decoded, sound_placed, demo_tapes_good.
Qed.
Print Assumptions C80_execution_partial.
