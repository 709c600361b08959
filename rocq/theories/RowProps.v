(** C64: what the rows of an execution record say about their steps. *)
From Verif Require Import RunSpec DecodeProofs ExecProofs IsaProofs StepProofs LoadProofs RunProofs EcallProofs RunnerProps.
Import RvSpec.
Open Scope Z_scope.

(** ** Specification *)
Definition is_branch (o : op) : bool := match o with BEQ | BNE | BLT | BLTU | BGE | BGEU => true | _ => false end.
Definition is_shift (o : op) : bool := match o with SRL | SLL | SRA => true | _ => false end.
(** loads and stores, with their number of bytes *)
Definition load_width (o : op) : option nat := match o with LB | LBU => Some 1%nat | LH | LHU => Some 2%nat | LW => Some 4%nat | _ => None end.
Definition store_width (o : op) : option nat := match o with SB => Some 1%nat | SH => Some 2%nat | SW => Some 4%nat | _ => None end.
Definition mem_width (o : op) : option nat := match load_width o with Some n => Some n | None => store_width o end.
(** instructions that write their destination register: all but branches, stores and ECALL *)
Definition has_dst (o : op) : bool := negb (is_branch o) && match store_width o with Some _ => false | None => true end && negb (bool_decide (o = ECALL)).
Definition op2_spec (i : instruction) (x : Z) : Z :=
  if is_branch (iop i) then x
  else if is_shift (iop i) then 2 ^ ((x + imm (iargs i)) mod 32)
  else word (x + imm (iargs i)).

(** [row_says s i a s']: the values [a] recorded for executing [i] in [s], giving [s'] *)
Record row_says (s : state) (i : instruction) (a : aux) (s' : state) : Prop := {
  rs_op1 : op1 a = reg s (rs1 (iargs i));
  rs_op2_raw : op2_raw a = reg s (rs2 (iargs i));
  rs_op2 : op2 a = op2_spec i (reg s (rs2 (iargs i)));
  rs_pc : new_pc a = pc s';
  rs_halt : will_halt a = halted s';
  rs_dst : forall x, is_reg x -> reg s' x = if has_dst (iop i) && (x =? rd (iargs i)) && negb (x =? 0) then dst_val a else reg s x;
  rs_mem : forall n, mem_width (iop i) = Some n ->
    let addr := word (reg s (rs2 (iargs i)) + imm (iargs i)) in
    amem a = Some (mkMemEntry addr (mem_value (load_u8 s') addr n)) /\
    mem_addresses_used a = map (fun k => word (addr + Z.of_nat k)) (seq 0 n);
  rs_store : forall n, store_width (iop i) = Some n -> dst_val a = mem_value (load_u8 s') (reg s (rs2 (iargs i)) + imm (iargs i)) n;
  rs_nomem : mem_width (iop i) = None -> amem a = None;
  rs_frame : forall x, load_u8 s' x <> load_u8 s x -> x ∈ mem_addresses_used a;
  rs_load : mem_width (iop i) = load_width (iop i) -> iop i <> ECALL -> forall x, load_u8 s' x = load_u8 s x }.

(** ** Proof *)
Section Rows.
  Variable permute : list Z -> list Z.
  Variable utf8_ok : list Z -> bool.
  Notation exec1 := (execute_instruction permute utf8_ok).

  Lemma op2_of_spec i x : u32 x -> op2_of i x = op2_spec i x.
  Proof.
    intros U. unfold op2_of, op2_spec, is_branch, is_shift. destruct (iop i); try reflexivity;
      rewrite land31, Z.shiftl_1_l; unfold wadd, wrap32; f_equal; lia.
  Qed.
  Lemma reg_bump s x : reg (bump_pc s) x = reg s x. Proof. reflexivity. Qed.
  Lemma reg_regs s s' x : registers s' = registers s -> reg s' x = reg s x. Proof. unfold reg. intros ->. reflexivity. Qed.
  Lemma load_mem s s' x : smem s' = smem s -> load_u8 s' x = load_u8 s x. Proof. unfold load_u8. intros ->. reflexivity. Qed.

  (** what a dispatch does, without the fields [execute_instruction] adds *)
  Record does (s : state) (i : instruction) (a : aux) (s' : state) : Prop := {
    do_dst : forall x, is_reg x -> reg s' x = if has_dst (iop i) && (x =? rd (iargs i)) && negb (x =? 0) then dst_val a else reg s x;
    do_mem : forall n, mem_width (iop i) = Some n ->
      let addr := word (reg s (rs2 (iargs i)) + imm (iargs i)) in
      amem a = Some (mkMemEntry addr (mem_value (load_u8 s') addr n)) /\
      mem_addresses_used a = map (fun k => word (addr + Z.of_nat k)) (seq 0 n);
    do_store : forall n, store_width (iop i) = Some n -> dst_val a = mem_value (load_u8 s') (reg s (rs2 (iargs i)) + imm (iargs i)) n;
    do_nomem : mem_width (iop i) = None -> amem a = None;
    do_frame : forall x, load_u8 s' x <> load_u8 s x -> x ∈ mem_addresses_used a;
    do_load : mem_width (iop i) = load_width (iop i) -> iop i <> ECALL -> forall x, load_u8 s' x = load_u8 s x }.

  Lemma wreg_reg s d v x : state_ok s -> is_reg d -> is_reg x ->
    reg (wreg s d v) x = if (x =? d) && negb (x =? 0) then v else reg s x.
  Proof.
    intros OK Hd Hx. rewrite reg_wreg by (auto; apply OK). unfold wr.
    destruct (Z.eqb_spec x d) as [->|]; [|destruct (_ =? _); reflexivity].
    destruct (Z.eqb_spec d 0) as [->|]; reflexivity.
  Qed.

  Lemma mem_value_sum mem a n : mem_value mem (word a) n = mem_value mem a n. Proof. apply mem_value_word. Qed.
  Lemma used_range addr n : addr_range addr n = map (fun k => word (addr + Z.of_nat k)) (seq 0 n).
  Proof. unfold addr_range, wadd. apply map_ext. intros k. apply wrap32_word. Qed.

  Lemma load_does s i a s' f n : state_ok s -> is_reg (rd (iargs i)) -> is_reg (rs2 (iargs i)) -> load_width (iop i) = Some n ->
    (forall m : Z -> Z, forall addr, fst (f (map m (addr_range addr 4))) = mem_value m addr n) -> (n <= 4)%nat ->
    memory_load s (iargs i) n f = Ok (a, s') -> does s i a s'.
  Proof.
    clear permute utf8_ok.
    intros OK Hd H2 W Hf Hn. unfold memory_load. rewrite get_reg_ok by auto. cbn [rbind].
    specialize (Hf (load_u8 s) (wadd (reg s (rs2 (iargs i))) (imm (iargs i)))).
    destruct (f _) as [raw v]. cbn [fst] in Hf. subst raw. rewrite set_reg_ok by auto. cbn [rbind]. intros [= <- <-].
    assert (Hh : has_dst (iop i) = true) by (destruct (iop i); try discriminate; reflexivity).
    assert (Hs : store_width (iop i) = None) by (destruct (iop i); try discriminate; reflexivity).
    assert (L : forall x, load_u8 (bump_pc (wreg s (rd (iargs i)) v)) x = load_u8 s x).
    { intros x. apply load_mem. cbn. apply (wreg_fields s (rd (iargs i)) v). }
    constructor; try rewrite Hh; try rewrite Hs.
    - intros x Hx. rewrite reg_bump. cbn [dst_val andb]. apply wreg_reg; auto.
    - unfold mem_width. rewrite W. intros n' [= <-]. cbn [amem mem_addresses_used]. unfold wadd. rewrite !wrap32_word. split.
      + do 2 f_equal. apply mem_value_ext. intros. rewrite L. reflexivity.
      + rewrite used_range. destruct n as [|[|[|[|[|]]]]]; try lia; reflexivity.
    - discriminate.
    - unfold mem_width. rewrite W. discriminate.
    - intros x E. rewrite L in E. congruence.
    - intros _ _ x. apply L.
  Qed.

  Lemma alu_does s i a s' f : state_ok s -> instruction_ok i -> alu_fun (iop i) = Some f ->
    register_op s (iargs i) f = Ok (a, s') -> does s i a s'.
  Proof.
    clear permute utf8_ok.
    intros OK (Hd & H1 & H2 & Hi) Ef. rewrite register_op_ok by auto. cbn zeta. set (v := f _ _). intros [= <- <-].
    assert (Hh : has_dst (iop i) = true) by (destruct (iop i); try discriminate; reflexivity).
    assert (Hs : store_width (iop i) = None) by (destruct (iop i); try discriminate; reflexivity).
    assert (Hl : load_width (iop i) = None) by (destruct (iop i); try discriminate; reflexivity).
    assert (L : forall x, load_u8 (bump_pc (wreg s (rd (iargs i)) v)) x = load_u8 s x).
    { intros x. apply load_mem. cbn. apply (wreg_fields s (rd (iargs i)) v). }
    constructor; unfold mem_width; rewrite ?Hh, ?Hs, ?Hl; try discriminate; auto.
    - intros x Hx. rewrite reg_bump. cbn [aux_dst dst_val andb]. apply wreg_reg; auto.
    - intros x E. rewrite L in E. congruence.
  Qed.
  Lemma jalr_does s i a s' : state_ok s -> instruction_ok i -> iop i = JALR -> jalr s (iargs i) = Ok (a, s') -> does s i a s'.
  Proof.
    clear permute utf8_ok.
    intros OK (Hd & H1 & H2 & Hi) Eo. rewrite jalr_ok by auto. set (t := set_pc s _). set (v := wadd _ 4). intros [= <- <-].
    assert (OKt : state_ok t). { apply set_pc_ok; auto. apply land_u32; [apply wrap32_u32|unfold u32; lia]. }
    assert (L : forall x, load_u8 (wreg t (rd (iargs i)) v) x = load_u8 s x).
    { intros x. rewrite (load_mem t (wreg t (rd (iargs i)) v)); [reflexivity|]. apply (wreg_fields t (rd (iargs i)) v). }
    constructor; unfold mem_width; rewrite ?Eo; cbn [has_dst load_width store_width]; try discriminate; auto.
    - intros x Hx. cbn [is_branch negb andb aux_dst dst_val]. rewrite wreg_reg by auto. reflexivity.
    - intros x E. rewrite L in E. congruence.
  Qed.
  Lemma branch_does s i a s' f : state_ok s -> instruction_ok i -> is_branch (iop i) = true -> branch_op s (iargs i) f = Ok (a, s') -> does s i a s'.
  Proof.
    clear permute utf8_ok.
    intros OK (Hd & H1 & H2 & Hi) Eb. unfold branch_op. rewrite !get_reg_ok by auto. cbn [rbind]. intros [= <- <-].
    assert (L : forall x, load_u8 (if f (reg s (rs1 (iargs i))) (reg s (rs2 (iargs i))) then set_pc s (imm (iargs i)) else bump_pc s) x = load_u8 s x) by (intros x; destruct (f _ _); reflexivity).
    assert (Hh : has_dst (iop i) = false) by (destruct (iop i); try discriminate; reflexivity).
    assert (Hs : store_width (iop i) = None) by (destruct (iop i); try discriminate; reflexivity).
    assert (Hl : load_width (iop i) = None) by (destruct (iop i); try discriminate; reflexivity).
    constructor; unfold mem_width; rewrite ?Hh, ?Hs, ?Hl; cbn [andb]; try discriminate; auto.
    - intros x Hx. destruct (f _ _); reflexivity.
    - intros x E. rewrite L in E. congruence.
  Qed.
  Lemma store_does s i a s' n : state_ok s -> instruction_ok i -> store_width (iop i) = Some n -> store s (iargs i) n = Ok (a, s') -> does s i a s'.
  Proof.
    clear permute utf8_ok.
    intros OK (Hd & H1 & H2 & Hi) W. unfold store. rewrite !get_reg_ok by auto. cbn [rbind].
    set (v := Z.land _ _). set (addr := wadd _ _). assert (Ea : addr = word (reg s (rs2 (iargs i)) + imm (iargs i))) by apply wrap32_word.
    assert (Hn : (n = 1 \/ n = 2 \/ n = 4)%nat) by (destruct (iop i); cbn in W; try discriminate; injection W as <-; auto).
    assert (Uv : 0 <= v < 256 ^ Z.of_nat n).
    { unfold v. pose proof (reg_u32 s _ OK H1) as U. unfold u32 in U.
      destruct Hn as [->|[->| ->]]; [change (Z.shiftr _ _) with (Z.ones 8)|change (Z.shiftr _ _) with (Z.ones 16)|change (Z.shiftr _ _) with (Z.ones 32)];
        rewrite Z.land_ones by lia; apply Z.mod_pos_bound; lia. }
    assert (U32 : 0 <= v < 4294967296) by (destruct Hn as [->|[->| ->]]; cbn in Uv; lia).
    set (data := take n (to_le_bytes32 v)).
    assert (Ld : length data = n) by (unfold data, to_le_bytes32; destruct Hn as [->|[->| ->]]; reflexivity).
    assert (Ec : combine (addr_range addr n) (to_le_bytes32 v) = combine (addr_range addr (length data)) data).
    { rewrite Ld. unfold data, to_le_bytes32, addr_range. destruct Hn as [->|[->| ->]]; reflexivity. }
    rewrite Ec. destruct (store_bytes_spec (combine (addr_range addr (length data)) data) s) as [(x & _ & _ & ->)|(_ & ->)]; [discriminate|].
    cbn [rbind]. intros [= <- <-].
    assert (Hh : has_dst (iop i) = false) by (destruct (iop i); try discriminate; reflexivity).
    assert (Hl : load_width (iop i) = None) by (destruct (iop i); try discriminate; reflexivity).
    set (t := puts s _).
    assert (V : mem_value (load_u8 (bump_pc t)) addr n = v).
    { rewrite (mem_value_bytes n (load_u8 (bump_pc t)) addr v).
      - apply Z.mod_small. rewrite ?Z.pow_mul_r by lia. exact Uv.
      - intros k Hk. change (load_u8 (bump_pc t)) with (load_u8 t). unfold t.
        rewrite (puts_range s addr data k ((v / 256 ^ Z.of_nat k) mod 256)); [reflexivity|rewrite Ld; lia|].
        unfold data, to_le_bytes32.
        destruct Hn as [->|[->| ->]]; destruct k as [|[|[|[|]]]]; try lia; cbn -[Z.div Z.modulo]; rewrite ?Z.div_1_r; reflexivity. }
    constructor; unfold mem_width; rewrite ?Hh, ?W, ?Hl; cbn [andb]; try discriminate.
    - intros x Hx. apply reg_regs. cbn. apply puts_same.
    - intros n' [= <-]. cbn [amem mem_addresses_used]. rewrite <- Ea, V, used_range. auto.
    - intros n' [= <-]. cbn [dst_val]. rewrite <- mem_value_sum, <- Ea, V. reflexivity.
    - intros x E. destruct (decide (x ∈ addr_range addr n)) as [I|N]; [exact I|]. destruct E.
      change (load_u8 (bump_pc t) x) with (load_u8 t x). unfold t. apply puts_load_notin. rewrite combine_fst by apply addr_range_length. rewrite Ld. exact N.
  Qed.
  Lemma ecall_does s i a s' : state_ok s -> iop i = ECALL -> ecall permute utf8_ok s = Ok (a, s') -> does s i a s'.
  Proof.
    intros OK Eo E.
    assert (R : registers s' = registers s /\ amem a = None /\ forall x, load_u8 s' x <> load_u8 s x -> x ∈ mem_addresses_used a).
    { revert E. rewrite ecall_cases by auto. cbv zeta.
      destruct (Z.eqb_spec (reg s REG_A0) 0). { intros [= <- <-]. split; [reflexivity|]. split; [reflexivity|]. intros x N. destruct N. reflexivity. }
      repeat match goal with |- (if ?c then ecall_read s ?o else _) = _ -> _ => destruct c;
        [ intros E; destruct (ecall_read_frame s o OK ltac:(discriminate)) as [(x & E')|(data & s0 & _ & Fo & E' & _ & F)];
          rewrite E in E'; [discriminate|]; injection E' as -> ->; cbn [amem mem_addresses_used];
          split; [cbn; destruct (puts_same (combine (addr_range (reg s REG_A1) (length data)) data) s0) as (_ & -> & _); exact (f_regs _ _ _ _ _ Fo)|];
          split; [reflexivity|]; intros x N;
          destruct (decide (x ∈ addr_range (reg s REG_A1) (length data))) as [I|I]; [exact I|]; destruct N;
          rewrite (load_mem (puts s0 (combine (addr_range (reg s REG_A1) (length data)) data))) by reflexivity;
          rewrite puts_load_notin by (rewrite combine_fst by apply addr_range_length; exact I);
          apply load_mem; exact (f_mem _ _ _ _ _ Fo) |] end.
      destruct (_ =? 1). { intros E. apply ecall_panic_not_ok in E. destruct E. }
      destruct (_ =? 3).
      { intros E. destruct (ecall_poseidon2_frame permute s OK) as [(q & E')|(h & sp & _ & _ & E' & _ & _)];
          rewrite E in E'; [discriminate|]; injection E' as -> ->; cbn [amem mem_addresses_used].
        split; [exact (proj1 (proj2 (puts_same (combine (addr_range (reg s REG_A3) 32) (hash_to_bytes h)) s)))|].
        split; [reflexivity|]. intros x N. apply elem_of_app. right. destruct (decide (x ∈ addr_range (reg s REG_A3) 32)) as [I|I]; [exact I|]. destruct N.
        rewrite (load_mem (puts s (combine (addr_range (reg s REG_A3) 32) (hash_to_bytes h)))) by reflexivity. apply puts_load_notin.
        intros I2. apply I. apply elem_of_list_In, in_map_iff in I2 as ([? ?] & <- & I2). apply in_combine_l in I2. apply elem_of_list_In, I2. }
      destruct (_ =? 10). { intros E. apply ecall_trace_log_ok in E as [-> ->]. split; [reflexivity|]. split; [reflexivity|]. intros x N. destruct N. reflexivity. }
      intros [= <- <-]. split; [reflexivity|]. split; [reflexivity|]. intros x N. destruct N. reflexivity. }
    destruct R as (R1 & R2 & R3). constructor; rewrite ?Eo; cbn; try discriminate; auto; try congruence.
    intros x _. apply reg_regs, R1.
  Qed.
End Rows.

Section Props.
  Variable permute : list Z -> list Z.
  Variable utf8_ok : list Z -> bool.
  Notation exec1 := (execute_instruction permute utf8_ok).
  Notation run := (step permute utf8_ok).

  Lemma dispatch_does s i a s' : state_ok s -> instruction_ok i -> dispatch permute utf8_ok s i = Ok (a, s') -> does s i a s'.
  Proof.
    intros OK I E. pose proof I as (Hd & H1 & H2 & Hi).
    destruct (alu_fun (iop i)) as [f|] eqn:Ef.
    - apply (alu_does s i a s' f OK I Ef). unfold dispatch in E. destruct (iop i); cbn in Ef; try discriminate; injection Ef as <-; exact E.
    - unfold dispatch in E. destruct (iop i) eqn:Eo; cbn in Ef; try discriminate;
        first [ eapply ecall_does; eassumption
              | eapply jalr_does; eassumption
              | eapply branch_does; [exact OK|exact I|rewrite Eo; reflexivity|exact E]
              | eapply store_does; [exact OK|exact I|rewrite Eo; reflexivity|exact E]
              | eapply load_does; [exact OK|exact Hd|exact H2|rewrite Eo; reflexivity| |lia|exact E]; intros m addr; unfold addr_range; cbn [seq map mem_value];
                unfold lb, lbu, lh, lhu, lw, lbu_raw, lhu_raw, from_le_bytes32, wadd; cbn [fst nth]; change (Z.of_nat 0) with 0; change (Z.of_nat 1) with 1;
                change (Z.of_nat 2) with 2; change (Z.of_nat 3) with 3; change wrap32 with word; rewrite ?Z.add_0_r, <- ?Z.add_assoc; change (1 + (1 + 1)) with 3; change (1 + 1) with 2; lia ].
  Qed.

  (** ** C64: rows record what happened *)
  (** Whatever the instruction, what the VM records about a step is what the step did. *)
  Theorem C64_step_values : forall s p a i s', state_ok s -> good_program p -> halted s = false ->
    exec1 s p = Ok (a, i, s') -> ro_code p !! pc s = Some (inl i) /\ row_says s i a s'.
  Proof.
    intros s p a i s' OK HP Hh E. destruct (execute_inv permute utf8_ok s p a i s' OK (good_program_ok _ HP) E) as (C & I & a0 & s0 & D & F & Es & W & ->).
    split; [exact C|]. pose proof I as (Hd & H1 & H2 & Hi). destruct (dispatch_does s i a0 s0 OK I D) as [d1 d2 d3 d4 d5 d6]. subst s'.
    constructor; auto.
    - cbn [op2]. apply op2_of_spec, reg_u32; auto.
    - cbn. rewrite (fr_halt _ _ _ F), Hh. destruct (will_halt a0); reflexivity.
  Qed.
  (** So it is for every row of an execution record. *)
  Theorem C64_record_values : forall limit p fuel s rec k r, state_ok s -> good_program p -> run limit p fuel s = Ok rec ->
    executed rec !! k = Some r -> exists s', state_at rec (S k) = Some s' /\ row_says (rstate r) (rinst r) (raux r) s'.
  Proof.
    intros limit p fuel s rec k r OK HP R Hk.
    destruct (run_record permute utf8_ok limit p fuel s rec OK (good_program_ok _ HP) R) as (_ & A & _).
    destruct (A k r Hk) as (Hh & _ & s' & Es & Ex). exists s'. split; [exact Es|].
    assert (OKr : state_ok (rstate r)).
    { eapply reach_ok; [exact OK|apply good_program_ok; exact HP|].
      destruct (run_reach permute utf8_ok limit p fuel s s rec ltac:(constructor) R) as [X _]. rewrite List.Forall_forall in X. apply X. apply elem_of_list_In, elem_of_list_lookup. eauto. }
    exact (proj2 (C64_step_values _ _ _ _ _ OKr HP Hh Ex)).
  Qed.
End Props.

(** In the demo run, row 5 is the store of -7 at address -2 and row 6 the load of the halfword at -1 (so the addresses wrap). *)
Example C64_ex : exists rec r5 r6, demo_run 11 = Ok rec /\ state_ok (state_new demo demo_tapes) /\ good_program demo /\
  executed rec !! 5%nat = Some r5 /\ executed rec !! 6%nat = Some r6 /\
  (iop (rinst r5), amem (raux r5), mem_addresses_used (raux r5)) =
    (SW, Some (mkMemEntry 4294967294 4294967289), [4294967294; 4294967295; 0; 1]) /\
  (iop (rinst r6), amem (raux r6), mem_addresses_used (raux r6), dst_val (raux r6)) =
    (LH, Some (mkMemEntry 4294967295 65535), [4294967295; 0], 4294967295).
Proof.
  destruct (demo_run 11) as [rec| |] eqn:E; [|exfalso; revert E; vm_compute; discriminate|exfalso; revert E; vm_compute; discriminate].
  destruct (executed rec !! 5%nat) as [r5|] eqn:E5; [|exfalso; revert E E5; vm_compute; intros [= <-]; discriminate].
  destruct (executed rec !! 6%nat) as [r6|] eqn:E6; [|exfalso; revert E E6; vm_compute; intros [= <-]; discriminate].
  exists rec, r5, r6. split; [reflexivity|]. split; [exact demo_state_ok|]. split; [exact demo_good|]. split; [exact E5|]. split; [exact E6|].
  revert E E5 E6. vm_compute. intros [= <-] [= <-] [= <-]. split; reflexivity.
Qed.

Print Assumptions C64_step_values.
Print Assumptions C64_record_values.
