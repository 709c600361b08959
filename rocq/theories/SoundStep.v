(** C80: one step of accepted tables is one step of the instruction set. *)
From Verif Require Import SoundSpec StateProofs TableProofs CpuProofs CpuTrace WordProofs WordProps StateProps CircuitProps RunSpec RomProofs MemGenProofs ProofGenTables SoundRows SoundRegs.
Open Scope Z_scope.
#[local] Opaque is_running inst_data.

Lemma rom_in p rom q : generate_program_rom_trace p = Ok rom -> In q rom -> exists a i, ro_code p !! a = Some (inl i) /\ q = mkRom a (inst_data (inst_cols a i)).
Proof.
  intros G I. apply rom_rows. rewrite <- (sort_in (fun x y : romrow => ro_pc x <=? ro_pc y) (rom_of p) q). unfold generate_program_rom_trace in G. revert G.
  match goal with |- context[sort_by ?f ?l] => destruct (sort_by f l) as [|d l'] eqn:E end; [discriminate|]. intros [= <-].
  unfold pad_last in I. apply RegGenRun.in_pad in I as [I| ->]; [exact I|]. destruct (exists_last (l := d :: l')) as (l0 & x & Q); [discriminate|]. rewrite Q, List.last_last. apply in_or_app. right. left. reflexivity.
Qed.

Section step.
Context (K : p2consts) (p : program) (events casts : list Z) (T : tables).
Context (PA : proof_accepted K p events casts T) (TY : tables_typed T) (GC : gaps_closed p T) (GP : good_program p) (CP : code_placed p).

(** the instruction a row claims to execute *)
Definition row_inst (x : arow) (i : instruction) : Prop :=
  match x with
  | Rc r => c_inst r = inst_cols (c_pc r) i
  | Ra r => i = mkInst ADD (mkArgs (ad_rd r) (ad_rs1 r) (ad_rs2 r) (ad_imm r))
  | Rb r => i = mkInst BLTU (mkArgs 0 (bl_rs1 r) (bl_rs2 r) (bl_imm r))
  end.
Definition row_data (x : arow) : Z :=
  match x with
  | Rc r => inst_data (c_inst r)
  | Ra r => reduce_with_powers [0; 0; 0; ad_rs1 r; ad_rs2 r; ad_rd r; ad_imm r] (2 ^ 5)
  | Rb r => reduce_with_powers [22; 0; 0; bl_rs1 r; bl_rs2 r; 0; bl_imm r] (2 ^ 5)
  end.
Lemma rom_sent x : In x (a_rows T) -> a_run x = 1 -> In ([a_pc x; row_data x], 1) (add_rom_looking (t_add T) ++ blt_rom_looking (t_blt T) ++ cpu_rom_looking (t_cpu T)).
Proof.
  unfold a_rows, add_rom_looking, blt_rom_looking, cpu_rom_looking. rewrite !in_app_iff, !in_map_iff.
  intros [(r & <- & I)|[(r & <- & I)|(r & <- & I)]] R; cbn [a_run a_pc row_data] in *; [right; right|left|right; left]; exists r; rewrite R; auto.
Qed.
Lemma row_fetch x : In x (a_rows T) -> a_run x = 1 -> exists i, ro_code p !! a_pc x = Some (inl i) /\ feq (row_data x) (inst_data (inst_cols (a_pc x) i)).
Proof.
  intros I R. destruct (rom_fetch (add_rom_looking (t_add T) ++ blt_rom_looking (t_blt T) ++ cpu_rom_looking (t_cpu T)) (t_mult T) (t_rom T) (a_pc x) (row_data x)) as (q & Q & E1 & E2).
  - apply (lh_program _ (pa_lookups _ _ _ _ _ PA)).
  - apply (lh_rom _ (pa_lookups _ _ _ _ _ PA)).
  - pose proof (run_bits _ _ _ _ _ PA TY GC) as B. unfold a_rows in B. rewrite !List.Forall_app in B. destruct B as (B1 & B2 & B3). rewrite List.Forall_forall in B1, B2, B3.
    rewrite !List.Forall_app. repeat split; apply List.Forall_forall; intros e J; apply in_map_iff in J as (r & <- & J); cbn [snd]; [apply (B2 (Ra r))|apply (B3 (Rb r))|apply (B1 (Rc r))]; apply in_map, J.
  - unfold add_rom_looking, blt_rom_looking, cpu_rom_looking. rewrite !app_length, !map_length. destruct (ty_cpu _ TY) as [_ A], (ty_add _ TY) as [_ B], (ty_blt _ TY) as [_ C]. unfold max_rows, P in *. lia.
  - pose proof (ty_mult _ TY) as A. unfold max_rows, P in *. lia.
  - apply rom_sent; auto.
  - destruct (rom_in _ _ _ (pa_rom _ _ _ _ _ PA) Q) as (a & i & CO & ->). cbn [ro_pc ro_data] in *. destruct (CP a _ CO) as [UA _].
    assert (a = a_pc x). { apply canon_mod; [unfold canon, P; lia|apply (row_canon _ TY x I)|exact E1]. } subst a. exists i. split; auto. unfold feq in *. auto.
Qed.
Lemma code_fields a i : ro_code p !! a = Some (inl i) -> inst_fields_ok i.
Proof. intros E. pose proof (gp_code _ GP a _ E) as (A & B & C & D). unfold is_reg in *. unfold inst_fields_ok. auto. Qed.
Lemma row_instruction x : In x (a_rows T) -> a_run x = 1 -> exists i, ro_code p !! a_pc x = Some (inl i) /\ row_inst x i.
Proof.
  intros I R. destruct (row_fetch x I R) as (i & CO & D). exists i. split; auto. pose proof (code_fields _ _ CO) as FI. unfold a_rows in I. rewrite !in_app_iff, !in_map_iff in I.
  destruct I as [(r & <- & I)|[(r & <- & I)|(r & <- & I)]]; cbn [a_run a_pc row_data row_inst] in *.
  - destruct (gc_inst _ _ GC r I R) as (j & FJ & EJ). rewrite EJ in D. rewrite EJ. destruct (inst_data_inj _ _ _ _ FJ FI D) as (A1 & A2 & A3 & A4).
    assert (A5 : dst_signed (iop j) = dst_signed (iop i)).
    { pose proof (gc_signed _ _ GC r i I) as S. rewrite EJ in S. unfold c_op in S. rewrite EJ in S. cbn [inst_cols i_ops i_dst_signed] in S.
      destruct (iop j) eqn:OJ, (iop i) eqn:OI; cbn [sel_of] in A2; try discriminate A2; try reflexivity; try discriminate A3; try discriminate A4; try (exfalso; specialize (S ltac:(first [left; reflexivity|right; reflexivity]) CO); discriminate S). }
    f_equal. destruct i as [oi ai], j as [oj aj]. cbn [iop iargs] in *. subst aj. f_equal. apply same_selector; auto.
  - assert (E : inst_data (inst_cols (ad_pc r) (mkInst ADD (mkArgs (ad_rd r) (ad_rs1 r) (ad_rs2 r) (ad_imm r)))) = reduce_with_powers [0; 0; 0; ad_rs1 r; ad_rs2 r; ad_rd r; ad_imm r] (2 ^ 5)).
    { with_strategy transparent [inst_data] unfold inst_data. rewrite ops_code. reflexivity. }
    rewrite <- E in D. destruct (inst_data_inj _ _ _ _ (gc_add_inst _ _ GC r I R) FI D) as (A1 & A2 & A3 & A4). destruct i as [oi ai]. cbn [iop iargs] in *. subst ai. f_equal. destruct oi; cbn [sel_of] in A2; try discriminate A2; reflexivity.
  - assert (E : inst_data (inst_cols (bl_pc r) (mkInst BLTU (mkArgs 0 (bl_rs1 r) (bl_rs2 r) (bl_imm r)))) = reduce_with_powers [22; 0; 0; bl_rs1 r; bl_rs2 r; 0; bl_imm r] (2 ^ 5)).
    { with_strategy transparent [inst_data] unfold inst_data. rewrite ops_code. reflexivity. }
    rewrite <- E in D. destruct (inst_data_inj _ _ _ _ (gc_blt_inst _ _ GC r I R) FI D) as (A1 & A2 & A3 & A4). destruct i as [oi ai]. cbn [iop iargs] in *. subst ai. f_equal. destruct oi; cbn [sel_of] in A2; try discriminate A2; try discriminate A3; reflexivity.
Qed.
Lemma row_fields x i : row_inst x i -> a_rs1 x = rs1 (iargs i) /\ a_rs2 x = rs2 (iargs i) /\ a_rd x = rd (iargs i).
Proof. destruct x as [r|r|r]; cbn [row_inst a_rs1 a_rs2 a_rd]; [intros ->|intros ->..]; repeat split. Qed.

(** ** Values and next pc of a row *)
Definition rv_write (a : Z) (rv : rv32) (x1 x2 : Z) : option Z :=
  match rv with
  | Alu rADD _ _ _ | AluI iADDI _ _ _ | Lui _ _ | Auipc _ _ => Some (add_value a rv x1 x2)
  | _ => rv_value a rv x1 x2
  end.
Lemma cpu_effect r rv x1 x2 : In r (t_cpu T) -> is_running r = 1 -> carries r (c_pc r) rv x1 x2 -> c_pc r + 4 < 2 ^ 32 -> memory_class rv = false -> is_ecall rv = false ->
  c_new_pc r = rv_next (c_pc r) rv x1 x2 /\ (forall v, rv_write (c_pc r) rv x1 x2 = Some v -> c_dst_value r = v).
Proof.
  intros I R CA PC M EC. pose proof (cpu_acc _ _ _ _ _ PA TY GC) as AC. pose proof (gc_last _ _ GC r I R) as IN. pose proof (ca_inst _ _ _ _ _ CA) as CI.
  assert (NA : iop (lower (c_pc r) rv) <> ADD).
  { intros O. destruct (accepted_always _ _ AC I) as [_ Z0]. unfold all_zero, cpu_always in Z0. rewrite !List.Forall_app in Z0. destruct Z0 as (_ & _ & Z0 & _). apply List.Forall_inv in Z0. unfold c_op in Z0. rewrite CI in Z0. cbn [inst_cols i_ops] in Z0. rewrite O in Z0. cbn [sel_of] in Z0. rewrite decide_True in Z0 by reflexivity. vm_compute in Z0. discriminate Z0. }
  assert (SEL : forall o, sel_of (iop (lower (c_pc r) rv)) = o -> c_op r o = 1) by (intros o <-; unfold c_op; rewrite CI; cbn [inst_cols i_ops]; rewrite decide_True by reflexivity; reflexivity).
  destruct (bitwise_class rv) eqn:C1; [|destruct (slt_class rv) eqn:C2; [|destruct (mul_class rv) eqn:C3; [|destruct (div_class rv) eqn:C4; [|destruct (branch_class rv) eqn:C5; [|destruct (jump_class rv) eqn:C6]]]]].
  - split; [apply (C24_straight_partial _ _ _ _ _ _ AC IN CA); [rewrite C1; reflexivity|exact PC]|]. intros v V. eapply C21_bitwise; eauto. destruct rv as [[]|[]| | | | | | | | | | | | |]; try discriminate C1; exact V.
  - split; [apply (C24_straight_partial _ _ _ _ _ _ AC IN CA); [rewrite C2, orb_true_r; reflexivity|exact PC]|]. intros v V. eapply C21_slt_partial; eauto; [|destruct rv as [[]|[]| | | | | | | | | | | | |]; try discriminate C2; exact V].
    apply (gc_slt _ _ GC r I). apply SEL. destruct rv as [[]|[]| | | | | | | | | | | | |]; try discriminate C2; reflexivity.
  - split; [apply (C24_straight_partial _ _ _ _ _ _ AC IN CA); [rewrite C3, !orb_true_r; reflexivity|exact PC]|]. intros v V. eapply C22_mul; eauto. destruct rv as [[]|[]|[]| | | | | | | | | | | |]; try discriminate C3; exact V.
  - split; [apply (C24_straight_partial _ _ _ _ _ _ AC IN CA); [rewrite C4, !orb_true_r; reflexivity|exact PC]|]. intros v V. eapply C23_div_partial; eauto; [apply (gc_div _ _ GC r I)|]. destruct rv as [[]|[]|[]| | | | | | | | | | | |]; try discriminate C4; exact V.
  - split; [apply (C24_branch _ _ _ _ _ _ AC I CA C5 PC)|]. intros v V. destruct rv; try discriminate C5. discriminate V.
  - assert (J : c_op r o_jalr = 1) by (apply SEL; destruct rv; try discriminate C6; reflexivity). destruct (gc_jump _ _ GC r I J) as [G1 G2].
    destruct (C24_jump_partial _ _ _ _ _ _ AC IN CA C6 G1 G2) as [E1 E2]. split; auto. intros v V. assert (V' : rv_value (c_pc r) rv x1 x2 = Some v) by (destruct rv; try discriminate C6; exact V). rewrite E2 in V'. injection V' as ->. reflexivity.
  - exfalso. destruct rv as [[]|[]|[]| | | | | | | | | | | |]; try discriminate; apply NA; reflexivity.
Qed.
Lemma add_effect r rv x1 x2 : In r (t_add T) -> ad_running r = 1 -> add_carries r (ad_pc r) rv x1 x2 -> ad_pc r + 4 < 2 ^ 32 ->
  ad_pc r + 4 = rv_next (ad_pc r) rv x1 x2 /\ (forall v, rv_write (ad_pc r) rv x1 x2 = Some v -> ad_dst r = v).
Proof.
  intros I R CA PC. pose proof (aa_op _ _ _ _ _ CA) as O. pose proof (aa_pc _ _ _ _ _ CA) as UA.
  assert (D : ad_dst r = add_value (ad_pc r) rv x1 x2).
  { apply (C20_add_sound (t_add T)); auto; [apply (ch_add _ _ _ (pa_constraints _ _ _ _ _ PA))| |].
    - destruct (ty_add _ TY) as [C _]. rewrite List.Forall_forall in C. specialize (C r I). rewrite !List.Forall_cons_iff in C. intuition.
    - intros NZ. assert (X : u32 (ad_dst r mod P)). { apply (rc_u32' _ _ _ _ _ PA TY GC) with (f := ad_running r); auto. unfold rc_all. apply in_or_app; right. apply in_or_app; right. apply in_or_app; left. unfold add_rc_looking. apply in_map_iff. exists r. auto. }
      destruct (ty_add _ TY) as [C _]. rewrite List.Forall_forall in C. specialize (C r I). rewrite !List.Forall_cons_iff in C. rewrite Z.mod_small in X; [exact X|]. unfold canon in C. tauto. }
  split.
  - assert (N : rv_next (ad_pc r) rv x1 x2 = word (ad_pc r + 4)) by (destruct rv as [[]|[]|[]|[] []|[]|[]| | | | | | | | |]; try discriminate O; reflexivity). rewrite N. unfold word, M32. rewrite Z.mod_small; [reflexivity|]. unfold u32 in UA. lia.
  - intros v V. rewrite D. destruct rv as [[]|[]|[]|[] []|[]|[]| | | | | | | | |]; try discriminate O; try discriminate V; injection V as <-; reflexivity.
Qed.
Lemma blt_effect r c s1 s2 off x1 x2 : In r (t_blt T) -> bl_running r = 1 -> lower (bl_pc r) (Branch c s1 s2 off) = mkInst BLTU (mkArgs 0 (bl_rs1 r) (bl_rs2 r) (bl_imm r)) ->
  bl_op1 r = x1 -> bl_op2 r = x2 -> u32 x1 -> u32 x2 -> bl_imm r = rv_next (bl_pc r) (Branch c s1 s2 off) x1 x2.
Proof.
  intros I R L <- <- U1 U2. pose proof (C35_bltu_taken_partial r U1 U2 (gc_blt _ _ GC r I R)) as B. cbn [lower] in L. injection L as LO L1 L2 L3. destruct c; try discriminate LO. cbn [rv_next cond_sem]. rewrite <- L3. destruct (Z.ltb_spec (bl_op1 r) (bl_op2 r)); [reflexivity|lia].
Qed.
(** ** The same, for the machine of the specification *)
Definition row_effect (x : arow) (m m' : machine) : Prop :=
  m_pc m' = a_new x /\ (forall r, m_reg m' r = if (r =? a_rd x) && negb (a_rd x =? 0) then a_dst x else m_reg m r).
Lemma exec_effect rv m v : memory_class rv = false -> is_ecall rv = false -> m_reg m 0 = 0 ->
  let i := iargs (lower (m_pc m) rv) in
  m_pc (exec rv m) = rv_next (m_pc m) rv (m_reg m (rs1 i)) (m_reg m (rs2 i)) /\
  ((forall w, rv_write (m_pc m) rv (m_reg m (rs1 i)) (m_reg m (rs2 i)) = Some w -> v = w) -> forall r, m_reg (exec rv m) r = if (r =? rd i) && negb (rd i =? 0) then v else m_reg m r).
Proof.
  intros M E Z0. destruct rv as [o|o|[]|[] []|[]|c| | | | | | | | |]; try discriminate M; try discriminate E; cbv zeta;
    cbn [lower iargs RunnerModel.rs1 RunnerModel.rs2 RunnerModel.rd exec m_pc m_reg rv_next rv_write rv_value NOP];
    (split; [reflexivity|]); intros V r; unfold wr; rewrite ?andb_false_r; try reflexivity; try (rewrite (V _ eq_refl); reflexivity).
  - destruct o; rewrite (V _ eq_refl); reflexivity.
  - destruct o; rewrite (V _ eq_refl); reflexivity.
Qed.
Lemma row_exec x i m : In x (a_rows T) -> a_run x = 1 -> ro_code p !! a_pc x = Some (inl i) -> row_inst x i -> forall rv, rv_ok rv -> i = lower (a_pc x) rv -> memory_class rv = false -> is_ecall rv = false ->
  m_pc m = a_pc x -> m_reg m 0 = 0 -> m_reg m (a_rs1 x) = a_v1 x -> m_reg m (a_rs2 x) = a_v2 x -> u32 (a_v1 x) -> u32 (a_v2 x) -> row_effect x m (exec rv m).
Proof.
  intros I R CO RI rv RO LO MC EC PC R0 R1 R2 U1 U2. destruct (CP _ _ CO) as [UA AL]. destruct (exec_effect rv m (a_dst x) MC EC R0) as [E1 E2]. cbv zeta in E1, E2. rewrite PC, <- LO in E1, E2.
  destruct (row_fields _ _ RI) as (F1 & F2 & F3). rewrite <- F1, <- F2, <- ?F3 in *. rewrite R1, R2 in E1, E2.
  assert (H : a_new x = rv_next (a_pc x) rv (a_v1 x) (a_v2 x) /\ (forall v, rv_write (a_pc x) rv (a_v1 x) (a_v2 x) = Some v -> a_dst x = v)).
  { unfold a_rows in I. rewrite !in_app_iff, !in_map_iff in I. destruct I as [(r & <- & I)|[(r & <- & I)|(r & <- & I)]]; cbn [a_run a_pc row_inst a_new a_dst a_v1 a_v2 a_rs1 a_rs2 a_rd] in *.
    - apply cpu_effect; auto; [|lia]. constructor; auto; [rewrite <- LO; exact RI|unfold u32; lia| |]; rewrite <- LO; intros Z0; [rewrite <- F1 in Z0; rewrite Z0 in R1|rewrite <- F2 in Z0; rewrite Z0 in R2]; congruence.
    - apply add_effect; auto; [|lia]. constructor; auto; try (rewrite <- LO, RI; reflexivity); [unfold u32; lia| |]; intros Z0; [rewrite Z0 in R1|rewrite Z0 in R2]; congruence.
    - assert (BR : exists c s1 s2 off, rv = Branch c s1 s2 off). { rewrite RI in LO. destruct rv as [[]|[]|[]|[] []|[]|c| | | | | | | | |]; try discriminate LO. eauto. }
      destruct BR as (c & s1 & s2 & off & ->). split; [apply blt_effect; auto; rewrite <- LO; exact RI|]. intros v V. discriminate V. }
  destruct H as [H1 H2]. split; [congruence|]. intros q. apply E2, H2.
Qed.
End step.
