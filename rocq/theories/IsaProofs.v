(** One VM step refines the ISA specification. *)
From Verif Require Import RunnerSpec DecodeProofs ExecProofs.
Open Scope Z_scope.
Ltac Zify.zify_post_hook ::= Z.div_mod_to_equations.
Arguments Z.mul : simpl never.
Arguments Z.add : simpl never.
Arguments Z.sub : simpl never.
Arguments Z.pow : simpl never.
Arguments Z.modulo : simpl never.
Arguments Z.div : simpl never.
Arguments wrap32 : simpl never.
Arguments word : simpl never.

Lemma same_refl s : same_devices s s.
Proof. unfold same_devices; auto 20. Qed.
Lemma same_trans s1 s2 s3 : same_devices s1 s2 -> same_devices s2 s3 -> same_devices s1 s3.
Proof. unfold same_devices; intuition congruence. Qed.

(** result of a register-writing instruction *)
Lemma register_op_ok s a f : state_ok s -> is_reg (rd a) -> is_reg (rs1 a) -> is_reg (rs2 a) ->
  let d := f (reg s (rs1 a)) (wadd (reg s (rs2 a)) (imm a)) in
  register_op s a f = Ok (aux_dst d, bump_pc (wreg s (rd a) d)).
Proof.
  intros OK Hd H1 H2. unfold register_op. rewrite !get_reg_ok by auto. cbn [rbind].
  rewrite set_reg_ok by auto. reflexivity.
Qed.

Lemma rep_write s m d v n :
  state_ok s -> represents s m -> is_reg d -> n = word (m_pc m + 4) ->
  represents (bump_clock (bump_pc (wreg s d v))) (mkMachine n (wr (m_reg m) d v) (m_mem m)).
Proof.
  intros OK (Hp & Hr & Hm) Hd ->. destruct (wreg_fields s d v) as (Ep & Em & Ec & _).
  split; [|split].
  - cbn. rewrite Ep, Hp. reflexivity.
  - intros r R. cbn [m_reg]. unfold wr. change (reg (bump_clock (bump_pc (wreg s d v))) r) with (reg (wreg s d v) r).
    rewrite reg_wreg by (auto; apply (ok_len _ OK)). unfold wr. rewrite Hr by auto. reflexivity.
  - intros a A. cbn. unfold load_u8 in *. cbn. rewrite Em. apply Hm; auto.
Qed.

Lemma same_write s d v : same_devices s (bump_clock (bump_pc (wreg s d v))).
Proof. destruct (wreg_fields s d v) as (_ & _ & _ & H). exact H. Qed.

Lemma imm12_word_add x i : word (x + word i) = word (x + i).
Proof. apply word_add_r. Qed.

Lemma sg_imm12 i : is_imm12 i -> sg (word i) = i.
Proof.
  unfold is_imm12, sg, word, M32. intros. change (2^31) with 2147483648. change (2^32) with 4294967296.
  destruct (Z.ltb_spec (i mod 4294967296) 2147483648); lia.
Qed.

Definition outcome_ok (s : state) (m : machine) (r : rv32) (res : res (aux * instruction * state)) : Prop :=
  exists a i s', res = Ok (a, i, s') /\ represents s' (exec r m) /\ same_devices s s' /\
                 clk s' = clk s + 1 /\ state_ok s' /\ new_pc a = pc s'.

Section Step.
  Variable permute : list Z -> list Z.
  Variable utf8_ok : list Z -> bool.
  Variables (s : state) (p : program) (m : machine).
  Hypothesis OK : state_ok s.
  Hypothesis REP : represents s m.
  Notation ex := (execute_instruction permute utf8_ok s p).

  Lemma exec_unfold i : ro_code p !! pc s = Some (inl i) -> is_reg (rs1 (iargs i)) -> is_reg (rs2 (iargs i)) ->
    ex = (r <-- dispatch permute utf8_ok s i ;;
          Ok (mkAux (dst_val (fst r)) (pc (snd r)) (amem (fst r)) (mem_addresses_used (fst r)) (will_halt (fst r))
            (reg s (rs1 (iargs i))) (op2_of i (reg s (rs2 (iargs i)))) (reg s (rs2 (iargs i)))
            (poseidon2 (fst r)) (storage_device_entry (fst r)), i, bump_clock (snd r))).
  Proof.
    intros E H1 H2. unfold execute_instruction.
    replace (current_instruction s p) with (Some (inl i : decode_result)) by (symmetry; exact E).
    rewrite !get_reg_ok by auto. cbn [rbind]. destruct (dispatch _ _ _ _) as [[? ?]| |]; reflexivity.
  Qed.

  (** an instruction that writes one register *)
  Lemma step_write i r f v :
    ro_code p !! pc s = Some (inl i) -> is_reg (rd (iargs i)) -> is_reg (rs1 (iargs i)) -> is_reg (rs2 (iargs i)) ->
    dispatch permute utf8_ok s i = register_op s (iargs i) f ->
    f (reg s (rs1 (iargs i))) (wadd (reg s (rs2 (iargs i))) (imm (iargs i))) = v -> u32 v ->
    exec r m = mkMachine (word (m_pc m + 4)) (wr (m_reg m) (rd (iargs i)) v) (m_mem m) ->
    outcome_ok s m r ex.
  Proof.
    intros E Hd H1 H2 Hf Hv Hu Hx. rewrite (exec_unfold i E H1 H2), Hf.
    rewrite register_op_ok by auto. rewrite Hv. cbn [rbind fst snd].
    eexists _, _, _. split; [reflexivity|]. rewrite Hx. split; [apply rep_write; auto|].
    split; [apply same_write|]. split; [cbn; destruct (wreg_fields s (rd (iargs i)) v) as (_ & _ & -> & _); reflexivity|].
    split; [|reflexivity]. apply bump_clock_ok, bump_pc_ok, wreg_ok; auto.
  Qed.

  Lemma reg_m r : is_reg r -> m_reg m r = reg s r.
  Proof. intros. symmetry. apply REP; auto. Qed.
  Lemma reg0_wadd v : u32 v -> wadd (reg s 0) v = v.
  Proof. intros. rewrite reg_0 by auto. apply wadd_0_l; auto. Qed.
  Lemma m_x0 : m_reg m 0 = 0.
  Proof. rewrite reg_m by (unfold is_reg; lia). apply reg_0; auto. Qed.
  Lemma is_reg_0 : is_reg 0.
  Proof. unfold is_reg; lia. Qed.

  Lemma step_alu o d r1 r2 : is_reg d -> is_reg r1 -> is_reg r2 ->
    ro_code p !! pc s = Some (inl (lower (pc s) (Alu o d r1 r2))) -> outcome_ok s m (Alu o d r1 r2) ex.
  Proof.
    intros Hd H1 H2 E. 
    destruct (alu_fun (op_of_alu o)) as [f|] eqn:Ef; [|destruct o; discriminate].
    assert (Hv : f (reg s r1) (wadd (reg s r2) 0) = alu_sem o (m_reg m r1) (m_reg m r2)).
    { rewrite wadd_0_r by (apply reg_u32; auto). rewrite !reg_m by auto. apply alu_sem_ok; auto; apply reg_u32; auto. }
    eapply (step_write _ _ f); eauto; cbn [lower iargs rd rs1 rs2 imm]; eauto.
    - destruct o; cbn in Ef; injection Ef as <-; reflexivity.
    - rewrite <- Hv. eapply alu_fun_u32; eauto using reg_u32. rewrite wadd_0_r by (apply reg_u32; auto). apply reg_u32; auto.
  Qed.

  Lemma alui_ok o f a i : alu_fun (op_of_alui o) = Some f -> is_imm12 i -> u32 a -> f a (word i) = alui_sem o a i.
  Proof.
    intros E Hi Ha. destruct o; cbn in E; injection E as <-; cbn [alui_sem]; try reflexivity.
    - unfold wadd. apply word_add_r.
    - change as_i32 with sg. rewrite (sg_imm12 i) by auto. reflexivity.
  Qed.
  Lemma step_alui o d r1 i : is_reg d -> is_reg r1 -> is_imm12 i ->
    ro_code p !! pc s = Some (inl (lower (pc s) (AluI o d r1 i))) -> outcome_ok s m (AluI o d r1 i) ex.
  Proof.
    intros Hd H1 Hi E. pose proof is_reg_0 as H0.
    destruct (alu_fun (op_of_alui o)) as [f|] eqn:Ef; [|destruct o; discriminate].
    assert (Hv : f (reg s r1) (wadd (reg s 0) (word i)) = alui_sem o (m_reg m r1) i).
    { rewrite reg_0 by auto. rewrite wadd_0_l by apply word_u32. rewrite reg_m by auto. apply alui_ok; auto; apply reg_u32; auto. }
    eapply (step_write _ _ f); eauto; cbn [lower iargs rd rs1 rs2 imm]; eauto.
    - destruct o; cbn in Ef; injection Ef as <-; reflexivity.
    - rewrite <- Hv. eapply alu_fun_u32; eauto using reg_u32, wrap32_u32.
  Qed.

  Lemma pow_u32 sh : 0 <= sh < 32 -> u32 (2 ^ sh).
  Proof. intros. split; [apply Z.pow_nonneg; lia|]. change 4294967296 with (2^32). apply Z.pow_lt_mono_r; lia. Qed.

  Lemma step_shifti o d r1 sh : is_reg d -> is_reg r1 -> 0 <= sh < 32 ->
    ro_code p !! pc s = Some (inl (lower (pc s) (ShiftI o d r1 sh))) -> outcome_ok s m (ShiftI o d r1 sh) ex.
  Proof.
    intros Hd H1 Hs E. pose proof is_reg_0 as H0. pose proof (pow_u32 sh Hs) as Hp.
    pose proof (reg_u32 s r1 OK H1) as Hu. 
    assert (Hpos : 0 < 2 ^ sh) by (apply Z.pow_pos_nonneg; lia).
    destruct o.
    - eapply (step_write _ _ wmul); eauto; cbn [lower iargs rd rs1 rs2 imm]; eauto.
      + apply wrap32_u32.
      + rewrite reg0_wadd by auto. cbn [exec shifti_sem]. rewrite reg_m by auto. reflexivity.
    - eapply (step_write _ _ divu); eauto; cbn [lower iargs rd rs1 rs2 imm]; eauto.
      + rewrite reg0_wadd by auto. eapply (alu_fun_u32 DIVU); eauto; reflexivity.
      + rewrite reg0_wadd by auto. cbn [exec shifti_sem]. rewrite reg_m by auto.
        unfold divu. destruct (Z.eqb_spec (2 ^ sh) 0); [lia|]. reflexivity.
    - eapply (step_write _ _ (fun x y => wrap32 (Z.shiftr (as_i32 x) (Z.land y 31)))); eauto; cbn [lower iargs rd rs1 rs2 imm]; eauto.
      + cbv beta. apply wrap32_u32.
      + cbv beta. assert (u32 sh) by (unfold u32; lia). rewrite reg0_wadd by auto. cbn [exec shifti_sem]. rewrite reg_m by auto.
        rewrite land31, (Z.mod_small sh 32), Z.shiftr_div_pow2 by lia. reflexivity.
  Qed.

  Lemma step_lui d i : is_reg d -> 0 <= i < 1048576 ->
    ro_code p !! pc s = Some (inl (lower (pc s) (Lui d i))) -> outcome_ok s m (Lui d i) ex.
  Proof.
    intros Hd Hi E. pose proof is_reg_0 as H0.
    assert (u32 (i * 2^12)) by (unfold u32; change (2^12) with 4096; lia).
    eapply (step_write _ _ wadd); eauto; cbn [lower iargs rd rs1 rs2 imm]; eauto.
    - apply wrap32_u32.
    - rewrite !reg0_wadd by (rewrite ?reg0_wadd; auto). reflexivity.
  Qed.
  Lemma step_auipc d i : is_reg d -> 0 <= i < 1048576 ->
    ro_code p !! pc s = Some (inl (lower (pc s) (Auipc d i))) -> outcome_ok s m (Auipc d i) ex.
  Proof.
    intros Hd Hi E. pose proof is_reg_0 as H0. pose proof (word_u32 (pc s + i * 2^12)).
    eapply (step_write _ _ wadd); eauto; cbn [lower iargs rd rs1 rs2 imm]; eauto.
    - apply wrap32_u32.
    - rewrite !reg0_wadd by (rewrite ?reg0_wadd; auto). cbn [exec]. replace (m_pc m) with (pc s) by apply REP. reflexivity.
  Qed.

  (** no-ops: add x0, x0, x0 *)
  Lemma wr0 (x : Z -> Z) v r : wr x 0 v r = x r.
  Proof. unfold wr. rewrite andb_false_r. reflexivity. Qed.
  Lemma step_nop r : ro_code p !! pc s = Some (inl NOP) ->
    exec r m = mkMachine (word (m_pc m + 4)) (m_reg m) (m_mem m) -> outcome_ok s m r ex.
  Proof.
    intros E Hx. pose proof is_reg_0 as H0.
    rewrite (exec_unfold NOP E H0 H0). cbn [dispatch NOP iop iargs].
    rewrite register_op_ok by auto. cbn [rbind fst snd].
    eexists _, _, _. split; [reflexivity|]. rewrite Hx. cbn [rd NOP iargs]. 
    split.
    { unfold wreg. cbn [Z.eqb]. destruct REP as (Hp & Hr & Hm). repeat split; auto. cbn. rewrite Hp. reflexivity. }
    split; [apply same_write|]. split; [reflexivity|].
    split; [|reflexivity]. apply bump_clock_ok, bump_pc_ok. exact OK.
  Qed.

  (** branches *)
  Definition branch_fun (c : cond) : Z -> Z -> bool :=
    match c with
    | cEQ => fun x y => x =? y | cNE => fun x y => negb (x =? y)
    | cLT => fun x y => as_i32 x <? as_i32 y | cGE => fun x y => as_i32 y <=? as_i32 x
    | cLTU => fun x y => x <? y | cGEU => fun x y => y <=? x
    end.
  Lemma branch_fun_ok c a b : branch_fun c a b = cond_sem c a b.
  Proof. destruct c; cbn; try reflexivity. - change as_i32 with sg. apply Z.leb_antisym. - apply Z.leb_antisym. Qed.
  Lemma step_branch c r1 r2 off : is_reg r1 -> is_reg r2 ->
    ro_code p !! pc s = Some (inl (lower (pc s) (Branch c r1 r2 off))) -> outcome_ok s m (Branch c r1 r2 off) ex.
  Proof.
    intros H1 H2 E. rewrite (exec_unfold _ E H1 H2).
    assert (dispatch permute utf8_ok s (lower (pc s) (Branch c r1 r2 off))
            = branch_op s (mkArgs 0 r1 r2 (word (pc s + off))) (branch_fun c)) as -> by (destruct c; reflexivity).
    unfold branch_op. cbn [rs1 rs2 imm]. rewrite !get_reg_ok by auto. cbn [rbind fst snd].
    rewrite branch_fun_ok.
    eexists _, _, _. split; [reflexivity|].
    destruct REP as (Hp & Hr & Hm). cbn [exec]. rewrite <- !Hr by auto.
    destruct (cond_sem c (reg s r1) (reg s r2)).
    - split; [|split; [exact (same_refl s)|split; [reflexivity|split; [|reflexivity]]]].
      + repeat split; auto. cbn. rewrite Hp. reflexivity.
      + apply bump_clock_ok, set_pc_ok; auto. apply word_u32.
    - split; [|split; [exact (same_refl s)|split; [reflexivity|split; [|reflexivity]]]].
      + repeat split; auto. cbn. rewrite Hp. reflexivity.
      + apply bump_clock_ok, bump_pc_ok; auto.
  Qed.

  (** jumps *)
  Lemma jalr_ok a : is_reg (rd a) -> is_reg (rs1 a) ->
    jalr s a = Ok (aux_dst (wadd (pc s) 4), wreg (set_pc s (Z.land (wadd (reg s (rs1 a)) (imm a)) 4294967294)) (rd a) (wadd (pc s) 4)).
  Proof.
    intros Hd H1. unfold jalr. rewrite get_reg_ok by auto. cbn [rbind].
    rewrite set_reg_len by (auto; apply (ok_len _ OK)). reflexivity.
  Qed.
  Lemma clear_low x : u32 x -> Z.land x 4294967294 = 2 * (x / 2).
  Proof. intros. rewrite (land_clear x 1) by (auto; try lia; reflexivity). change (2^1) with 2. lia. Qed.
  Lemma clear_u32 x : u32 x -> u32 (2 * (x / 2)).
  Proof. unfold u32; lia. Qed.

  Lemma step_jump i r t d r1 im : i = mkInst JALR (mkArgs d r1 0 im) ->
    ro_code p !! pc s = Some (inl i) -> is_reg d -> is_reg r1 ->
    Z.land (wadd (reg s r1) im) 4294967294 = t -> u32 t ->
    exec r m = mkMachine t (wr (m_reg m) d (word (m_pc m + 4))) (m_mem m) ->
    outcome_ok s m r ex.
  Proof.
    intros -> E Hd H1 Ht Hu Hx. rewrite (exec_unfold _ E H1 is_reg_0). cbn [dispatch iop iargs].
    rewrite jalr_ok by auto. cbn [rd rs1 imm iargs rbind fst snd]. rewrite Ht. set (v := wadd (pc s) 4).
    eexists _, _, _. split; [reflexivity|].
    rewrite Hx. destruct REP as (Hp & Hr & Hm). 
    destruct (wreg_fields (set_pc s t) d v) as (Ep & Em & Ec & Es).
    split; [split; [|split]|].
    - cbn. rewrite Ep. reflexivity.
    - intros x X. cbn [m_reg]. change (reg (bump_clock ?q) x) with (reg q x).
      rewrite reg_wreg by (auto; apply (ok_len _ OK)). unfold wr. unfold v. rewrite Hp.
      change (reg (set_pc s t) x) with (reg s x). rewrite Hr by auto. reflexivity.
    - intros a A. unfold load_u8 in *. cbn. rewrite Em. apply Hm; auto.
    - split; [exact Es|]. split; [cbn; rewrite Ec; reflexivity|]. split; [|cbn; rewrite Ep; reflexivity].
      apply bump_clock_ok, wreg_ok; auto. apply set_pc_ok; auto. apply wrap32_u32.
  Qed.
  Lemma step_jal d off : is_reg d -> off mod 2 = 0 -> pc s mod 4 = 0 ->
    ro_code p !! pc s = Some (inl (lower (pc s) (Jal d off))) -> outcome_ok s m (Jal d off) ex.
  Proof.
    intros Hd Ho Hpc E. 
    eapply (step_jump _ _ _ d 0 (word (pc s + off)) eq_refl E Hd is_reg_0); [|apply (word_u32 (pc s + off))|].
    - rewrite reg0_wadd by (auto using word_u32). rewrite clear_low by apply word_u32.
      unfold word, M32. change (2^32) with 4294967296. lia.
    - cbn [exec]. destruct REP as (<- & _). reflexivity.
  Qed.
  Lemma step_jalr d r1 i : is_reg d -> is_reg r1 ->
    ro_code p !! pc s = Some (inl (lower (pc s) (Jalr d r1 i))) -> outcome_ok s m (Jalr d r1 i) ex.
  Proof.
    intros Hd H1 E.
    eapply (step_jump _ _ _ d r1 (word i) eq_refl E Hd H1); [reflexivity| |].
    - rewrite clear_low by apply wrap32_u32. apply clear_u32, wrap32_u32.
    - cbn [exec]. rewrite clear_low by apply wrap32_u32. unfold wadd. change wrap32 with word. rewrite word_add_r, reg_m by auto. reflexivity.
  Qed.

  (** loads *)
  Lemma load_m a : u32 a -> load_u8 s a = m_mem m a.
  Proof. apply REP. Qed.
  Lemma wadd_word x i k : wadd (wadd x (word i)) k = word (x + i + k).
  Proof.
    unfold wadd. change wrap32 with word. rewrite word_add_l.
    replace (x + word i + k) with (x + k + word i) by ring. rewrite word_add_r. f_equal. ring.
  Qed.
  Definition load_fun (w : width) (us : bool) : list Z -> Z * Z :=
    match w, us with wB, false => lb | wB, true => lbu | wH, false => lh | wH, true => lhu | wW, _ => lw end.
  Lemma load_fun_ok w us x i : (w = wW -> us = false) ->
    snd (load_fun w us (map (load_u8 s) (addr_range (wadd x (word i)) 4)))
    = (let v := mem_value (m_mem m) (x + i) (nbytes w) in if us then v else sext (nbytes w) v).
  Proof.
    intros Hw. 
    assert (B : forall k, load_u8 s (wadd (wadd x (word i)) k) = m_mem m (word (x + i + k))).
    { intros k. rewrite wadd_word. apply load_m, word_u32. }
    assert (U : forall k, u8 (m_mem m (word k))).
    { intros k. rewrite <- load_m by apply word_u32. apply load_u8_u8; auto. }
    unfold addr_range. cbn [seq map]. rewrite !B. change (Z.of_nat 0) with 0. change (Z.of_nat 1) with 1.
    change (Z.of_nat 2) with 2. change (Z.of_nat 3) with 3. rewrite Z.add_0_r.
    pose proof (U (x + i)) as U0. pose proof (U (x + i + 1)) as U1. pose proof (U (x + i + 2)) as U2. pose proof (U (x + i + 3)) as U3.
    unfold u8 in *.
    destruct w; cbn [nbytes mem_value]; rewrite <- ?Z.add_assoc in *; change (1 + 1) with 2 in *; change (1 + 2) with 3 in *; 
      rewrite ?Z.mul_0_r, ?Z.add_0_r.
    - destruct us; unfold load_fun, lb, lbu, lbu_raw; cbn [snd nth]; [lia|].
      unfold as_i8, wrap32, sext, word, M32 in *. change (2 ^ (8 * Z.of_nat 1 - 1)) with 128. change (2 ^ (8 * Z.of_nat 1)) with 256.
      change (2 ^ 32) with 4294967296 in *. rewrite !Z.mod_small with (b := 256) by lia.
      destruct (_ <? _) eqn:L; [apply Z.ltb_lt in L|apply Z.ltb_ge in L]; lia.
    - destruct us; unfold load_fun, lh, lhu, lhu_raw; cbn [snd nth]; [lia|].
      unfold as_i16, wrap32, sext, lhu_raw, word, M32 in *. cbn [nth]. change (2 ^ (8 * Z.of_nat 2 - 1)) with 32768. change (2 ^ (8 * Z.of_nat 2)) with 65536.
      change (2 ^ 32) with 4294967296 in *. rewrite !Z.mod_small with (b := 65536) by lia.
      destruct (_ <? _) eqn:L; [apply Z.ltb_lt in L|apply Z.ltb_ge in L]; lia.
    - rewrite (Hw eq_refl). cbn [load_fun snd lw nth]. unfold from_le_bytes32, sext. 
      change (2 ^ (8 * Z.of_nat 4 - 1)) with 2147483648. change (2 ^ (8 * Z.of_nat 4)) with 4294967296.
      match goal with |- ?l = _ => replace l with (mem_value (m_mem m) (x + i) 4) end.
      2:{ cbn [mem_value]. rewrite <- ?Z.add_assoc; change (1 + 1) with 2; change (1 + 2) with 3. lia. }
      cbn [mem_value]. rewrite <- ?Z.add_assoc; change (1 + 1) with 2; change (1 + 2) with 3.
      rewrite ?Z.mul_0_r, ?Z.add_0_r.
      match goal with |- ?l = _ => set (V := l) end.
      assert (0 <= V < 4294967296) by (unfold V; lia).
      destruct (V <? 2147483648); [reflexivity|]. unfold word, M32. change (2^32) with 4294967296. lia.
  Qed.

  Lemma step_load w us d r1 i : is_reg d -> is_reg r1 -> is_imm12 i -> (w = wW -> us = false) ->
    ro_code p !! pc s = Some (inl (lower (pc s) (Load w us d r1 i))) -> outcome_ok s m (Load w us d r1 i) ex.
  Proof.
    intros Hd H1 Hi Hw E. rewrite (exec_unfold _ E is_reg_0 H1).
    assert (dispatch permute utf8_ok s (lower (pc s) (Load w us d r1 i))
            = memory_load s (mkArgs d 0 r1 (word i)) (nbytes w) (load_fun w us)) as -> by (destruct w, us; reflexivity).
    unfold memory_load. cbn [rd rs2 imm]. rewrite get_reg_ok by auto. cbn [rbind].
    pose proof (load_fun_ok w us (reg s r1) i Hw) as L.
    assert (U : u32 (snd (load_fun w us (map (load_u8 s) (addr_range (wadd (reg s r1) (word i)) 4))))).
    { unfold addr_range. cbn [seq map].
      set (b0 := load_u8 s _). set (b1 := load_u8 s _). set (b2 := load_u8 s _). set (b3 := load_u8 s _).
      pose proof (load_u8_u8 s (wadd (wadd (reg s r1) (word i)) (Z.of_nat 0)) OK) as B0. fold b0 in B0.
      pose proof (load_u8_u8 s (wadd (wadd (reg s r1) (word i)) (Z.of_nat 1)) OK) as B1. fold b1 in B1.
      pose proof (load_u8_u8 s (wadd (wadd (reg s r1) (word i)) (Z.of_nat 2)) OK) as B2. fold b2 in B2.
      pose proof (load_u8_u8 s (wadd (wadd (reg s r1) (word i)) (Z.of_nat 3)) OK) as B3. fold b3 in B3.
      clearbody b0 b1 b2 b3. unfold u8 in *.
      destruct w, us; unfold load_fun, lb, lbu, lbu_raw, lh, lhu, lhu_raw, lw, from_le_bytes32; cbn [snd nth];
        try apply wrap32_u32; unfold u32; lia. }
    destruct (load_fun w us _) as [raw v]. cbn [snd] in L, U. rewrite L in *. clear L. cbv zeta in *.
    rewrite set_reg_ok by auto. cbn [rbind fst snd].
    eexists _, _, _. split; [reflexivity|]. cbn [exec]. rewrite reg_m by auto. split; [apply rep_write; auto|].
    split; [apply same_write|]. match goal with |- context [wreg s d ?v] => set (v' := v) in * end. 
    split; [cbn; destruct (wreg_fields s d v') as (_ & _ & -> & _); reflexivity|].
    split; [|reflexivity]. apply bump_clock_ok, bump_pc_ok, wreg_ok; auto.
  Qed.

  (** stores *)
  Lemma mask_ok w x : u32 x -> Z.land x (Z.shiftr 4294967295 (32 - 8 * Z.of_nat (nbytes w))) = x mod 2 ^ (8 * Z.of_nat (nbytes w)).
  Proof.
    intros. destruct w; cbn [nbytes].
    - change (Z.shiftr 4294967295 (32 - 8 * Z.of_nat 1)) with (Z.ones 8). rewrite Z.land_ones by lia. reflexivity.
    - change (Z.shiftr 4294967295 (32 - 8 * Z.of_nat 2)) with (Z.ones 16). rewrite Z.land_ones by lia. reflexivity.
    - change (Z.shiftr 4294967295 (32 - 8 * Z.of_nat 4)) with (Z.ones 32). rewrite Z.land_ones by lia. reflexivity.
  Qed.
  (** the (address, byte) list a store writes *)
  Lemma store_list w x i v : u32 v ->
    combine (addr_range (wadd x (word i)) (nbytes w)) (to_le_bytes32 (v mod 2 ^ (8 * Z.of_nat (nbytes w)))) =
    map (fun k => (word (x + i + Z.of_nat k), (v / 2 ^ (8 * Z.of_nat k)) mod 256)) (seq 0 (nbytes w)).
  Proof.
    intros Hv. unfold u32 in Hv. unfold addr_range, to_le_bytes32.
    destruct w; cbn [nbytes seq map combine]; rewrite !wadd_word;
      repeat match goal with |- context [2 ^ ?k] => let v := eval vm_compute in (2 ^ k) in change (2 ^ k) with v end;
      repeat (apply (f_equal2 cons); [apply f_equal2; [reflexivity|lia]|]); reflexivity.
  Qed.
  Lemma puts_mem_store s0 f x i v n k0 :
    (forall a, u32 a -> load_u8 s0 a = f a) ->
    forall a, u32 a ->
    load_u8 (puts s0 (map (fun k => (word (x + i + Z.of_nat k), (v / 2 ^ (8 * Z.of_nat k)) mod 256)) (seq k0 n))) a
    = mem_store f (x + i + Z.of_nat k0) n (v / 2 ^ (8 * Z.of_nat k0)) a.
  Proof.
    revert s0 f k0. induction n as [|n IH]; intros s0 f k0 Hf a Ha; cbn [seq map puts mem_store]; auto.
    rewrite (IH _ (fun y => if y =? word (x + i + Z.of_nat k0) then (v / 2 ^ (8 * Z.of_nat k0)) mod 256 else f y)).
    - replace (x + i + Z.of_nat k0 + 1) with (x + i + Z.of_nat (S k0)) by lia.
      rewrite Z.div_div by (try lia; apply Z.pow_nonzero; lia).
      replace (2 ^ (8 * Z.of_nat k0) * 256) with (2 ^ (8 * Z.of_nat (S k0))). { reflexivity. }
      replace (8 * Z.of_nat (S k0)) with (8 * Z.of_nat k0 + 8) by lia. rewrite Z.pow_add_r by lia. reflexivity.
    - intros b Hb. rewrite load_put. destruct (b =? _); auto.
    - exact Ha.
  Qed.

  Lemma step_store w r1 r2 i : is_reg r1 -> is_reg r2 -> is_imm12 i ->
    ro_code p !! pc s = Some (inl (lower (pc s) (Store w r1 r2 i))) ->
    (exists a, a ∈ writes (Store w r1 r2 i) m /\ a ∈ is_read_only (smem s) /\ ex = Panic (PReadOnly a)) \/
    (Forall (fun a => a ∉ is_read_only (smem s)) (writes (Store w r1 r2 i) m) /\ outcome_ok s m (Store w r1 r2 i) ex).
  Proof.
    intros H1 H2 Hi E. rewrite (exec_unfold _ E H2 H1).
    assert (dispatch permute utf8_ok s (lower (pc s) (Store w r1 r2 i))
            = store s (mkArgs 0 r2 r1 (word i)) (nbytes w)) as -> by (destruct w; reflexivity).
    unfold store. cbn [rs1 rs2 imm]. rewrite !get_reg_ok by auto. cbn [rbind].
    rewrite mask_ok by (apply reg_u32; auto). rewrite store_list by (apply reg_u32; auto).
    set (l := map _ _).
    assert (Hw : writes (Store w r1 r2 i) m = map fst l).
    { unfold writes, l. rewrite map_map. rewrite reg_m by auto. reflexivity. }
    rewrite Hw. destruct (store_bytes_spec l s) as [(a & Ha & Hro & ->)|(Hf & ->)].
    - left. exists a. auto.
    - right. split; auto. cbn [rbind fst snd]. eexists _, _, _. split; [reflexivity|].
      destruct (puts_same l s) as (Ep & Er & Ec & Es). destruct REP as (Hp & Hr & Hm).
      split; [split; [|split]|].
      + cbn. rewrite Ep, Hp. reflexivity.
      + intros x X. unfold reg. cbn. rewrite Er. apply Hr; auto.
      + intros a A. cbn [exec m_mem]. change (load_u8 (bump_clock (bump_pc ?q)) a) with (load_u8 q a).
        unfold l. rewrite (puts_mem_store s (m_mem m) (reg s r1) i (reg s r2) _ 0 Hm a A).
        change (Z.of_nat 0) with 0. rewrite Z.add_0_r. change (2 ^ (8 * 0)) with 1. rewrite Z.div_1_r, <- !Hr by auto. reflexivity.
      + split; [exact Es|]. split; [cbn; rewrite Ec; reflexivity|]. split; [|reflexivity].
        apply bump_clock_ok, bump_pc_ok, puts_ok; auto.
        unfold l. apply Forall_forall. intros [a b] Hab. apply in_map_iff in Hab as (k & [= <- <-] & _).
        split; [apply word_u32|]. cbn. unfold u8. lia.
  Qed.

  (** Everything together *)
  Lemma step_isa r : rv_ok r -> is_ecall r = false -> pc s mod 4 = 0 ->
    ro_code p !! pc s = Some (inl (lower (pc s) r)) ->
    (exists a, a ∈ writes r m /\ a ∈ is_read_only (smem s) /\ ex = Panic (PReadOnly a)) \/
    (Forall (fun a => a ∉ is_read_only (smem s)) (writes r m) /\ outcome_ok s m r ex).
  Proof.
    intros Hr He Hpc E. destruct r; cbn [rv_ok] in Hr; try (apply step_store; tauto); try discriminate; right; (split; [constructor|]).
    - apply step_alu; tauto.
    - apply step_alui; tauto.
    - apply step_shifti; tauto.
    - apply step_load; tauto.
    - apply step_branch; tauto.
    - apply step_lui; tauto.
    - apply step_auipc; tauto.
    - apply step_jal; tauto.
    - apply step_jalr; tauto.
    - apply step_nop; auto.
    - apply step_nop; auto.
    - apply step_nop; auto.
    - apply step_nop; auto.
  Qed.
End Step.
