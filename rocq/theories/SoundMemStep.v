(** C80: a row of a load or store does what the instruction set says. *)
From Verif Require Import SoundSpec StateProofs TableProofs CpuProofs CpuTrace WordProofs WordProps StateProps CircuitProps RunSpec RomProofs EcallProofs ProofGenTables SoundRows SoundRegs SoundStep SoundMem.
Open Scope Z_scope.
#[local] Opaque is_running inst_data.

Lemma word_shift x y i : word (word (x + word y) + i) = word (x + y + i).
Proof. unfold word, M32. rewrite Zplus_mod_idemp_r, Zplus_mod_idemp_l. reflexivity. Qed.
Lemma word_id v : 0 <= v < 2 ^ 32 -> word v = v.
Proof. intros U. unfold word, M32. apply Z.mod_small. lia. Qed.
Lemma sext_4 v : 0 <= v < 2 ^ 32 -> sext 4 v = v.
Proof. intros U. unfold sext. change (8 * Z.of_nat 4) with 32. destruct (Z.ltb_spec v (2 ^ (32 - 1))); auto. unfold word, M32. replace (v - 2 ^ 32) with (v + (-1) * 2 ^ 32) by lia. rewrite Z_mod_plus_full. apply Z.mod_small. lia. Qed.
Lemma row_op r i o : c_inst r = inst_cols (c_pc r) i -> c_op r o = if decide (sel_of (iop i) = o) then 1 else 0.
Proof. intros E. unfold c_op. rewrite E. cbn [inst_cols i_ops]. destruct (decide (o = sel_of (iop i))), (decide (sel_of (iop i) = o)); congruence. Qed.
Lemma pow_8 w : 2 ^ (8 * Z.of_nat (nbytes w)) = 256 ^ Z.of_nat (nbytes w).
Proof. destruct w; reflexivity. Qed.

Section memstep.
Context (K : p2consts) (p : program) (events casts : list Z) (T : tables).
Context (PA : proof_accepted K p events casts T) (TY : tables_typed T) (GC : gaps_closed p T) (FR : no_devices T) (GP : good_program p) (CP : code_placed p).
Context (n : nat) (SF : skel_facts p T n) (xs : list arow) (ST : steps T n xs).

(** what a step does to memory *)
Definition mem_effect (x : arow) (m m' : machine) : Prop := forall a, u32 a -> stored x a (m_mem m' a) \/ ((forall v, ~ stored x a v) /\ m_mem m' a = m_mem m a).
Lemma not_stored x i : row_inst x i -> (forall w, sel_of (iop i) <> store_sel w) -> forall a v, ~ stored x a v.
Proof.
  destruct x as [r|r|r]; intros RI N a v S; [|destruct S..]. destruct S as (w & j & O & _). cbn [row_inst] in RI. rewrite (row_op r i _ RI), decide_False in O by apply N. discriminate O.
Qed.
Lemma quiet x i rv m : row_inst x i -> i = lower (a_pc x) rv -> memory_class rv = false -> mem_effect x m (exec rv m).
Proof.
  intros RI LO MC a U. right. split.
  - intros v. apply (not_stored x i RI). subst i. intros w. destruct rv as [[]|[]|[]|[] []|[]|[]| | | | | | | | |]; try discriminate MC; destruct w; discriminate.
  - destruct rv; try discriminate MC; reflexivity.
Qed.
Lemma mem_exec k r rv m : xs !! k = Some (Rc r) -> c_inst r = inst_cols (c_pc r) (lower (c_pc r) rv) -> rv_ok rv -> memory_class rv = true -> mem_now p xs k (m_mem m) ->
  u32 (c_pc r) -> c_pc r + 4 < 2 ^ 32 ->
  m_pc m = c_pc r -> m_reg m 0 = 0 -> m_reg m (a_rs1 (Rc r)) = c_op1_value r -> m_reg m (a_rs2 (Rc r)) = c_op2_value_raw r -> u32 (c_op1_value r) -> u32 (c_op2_value_raw r) ->
  row_effect (Rc r) m (exec rv m) /\ mem_effect (Rc r) m (exec rv m) /\ (forall a, a ∈ writes rv m -> exists v, stored (Rc r) a v).
Proof.
  intros E RI RO MC MN UP PL PC R0 R1 R2 U1 U2. pose proof ST as [_ SS]. destruct (SS k _ E) as (I & RR & CX). pose proof (rc_row _ _ I r eq_refl) as Ir. cbn [a_run a_rs1 a_rs2] in *.
  pose proof (mem_sys _ _ _ _ _ PA TY GC FR GP n SF) as MS. pose proof (cpu_acc _ _ _ _ _ PA TY GC) as AC. pose proof (gc_last _ _ GC r Ir RR) as IN.
  assert (CA : carries r (c_pc r) rv (c_op1_value r) (c_op2_value_raw r)).
  { constructor; auto; intros Z0; rewrite RI in R1, R2; cbn [inst_cols i_rs1 i_rs2] in R1, R2; [rewrite Z0 in R1|rewrite Z0 in R2]; congruence. }
  pose proof (C36_address _ _ _ _ _ _ _ _ _ _ MS Ir CA MC) as AD. rewrite (C36_offset _ _ MC) in AD.
  assert (NP : c_new_pc r = rv_next (c_pc r) rv (c_op1_value r) (c_op2_value_raw r)) by (apply (C24_straight_partial _ _ _ _ _ _ AC IN CA); [rewrite MC, !orb_true_r; reflexivity|exact PL]).
  destruct rv as [| | |w us d s1 k0|w b s2 k0| | | | | | | | | |]; try discriminate MC.
  - assert (OL : c_op r (load_sel w) = 1) by (rewrite (row_op r _ _ RI); destruct w, us; reflexivity).
    assert (OS : c_op r (store_sel w) = 0) by (rewrite (row_op r _ _ RI); destruct w, us; reflexivity).
    destruct (C33_cpu_bytes _ _ _ _ _ w r MS Ir ltac:(lia)) as (_ & UV & _). rewrite RI in R2. cbn [inst_cols i_rs2 lower iargs RunnerModel.rs2] in R2.
    assert (V : mem_value (m_mem m) (m_reg m s1 + k0) (nbytes w) = c_mem_value_raw r).
    { rewrite (mem_value_bytes _ _ _ (c_mem_value_raw r)); [apply Z.mod_small; rewrite <- pow_8; exact UV|]. intros j Lj. symmetry. apply (step_load _ _ _ _ _ PA TY GC FR GP n SF xs ST k (Rc r)); auto.
      exists w, j. split; auto. split; auto. split; auto. rewrite AD, word_shift, R2. reflexivity. }
    split.
    + split.
      * cbn [exec m_pc a_new]. rewrite NP, PC. reflexivity.
      * intros q. cbn [exec m_reg a_rd a_dst]. rewrite V, RI. cbn [inst_cols i_rd lower iargs RunnerModel.rd]. unfold wr. assert (D : c_dst_value r = if us then c_mem_value_raw r else sext (nbytes w) (c_mem_value_raw r)); [|rewrite D; reflexivity].
        destruct us; [eapply C36_load_unsigned; eauto|].
        destruct w.
        -- apply (C36_load_signed_partial _ _ _ _ _ _ _ _ _ _ _ _ _ MS Ir CA); [discriminate|]. apply (gc_lb _ _ GC r Ir OL). rewrite RI. reflexivity.
        -- apply (C36_load_signed_partial _ _ _ _ _ _ _ _ _ _ _ _ _ MS Ir CA); [discriminate|]. apply (gc_lh _ _ GC r Ir OL). rewrite RI. reflexivity.
        -- rewrite (gc_lw _ _ GC r Ir OL). symmetry. apply sext_4. exact UV.
    + split; [|intros a IW; cbn [writes] in IW; apply elem_of_nil in IW; destruct IW].
      intros a U. right. split; [|reflexivity]. intros v. apply (not_stored (Rc r) _ RI). intros w'. destruct w, us, w'; discriminate.
  - assert (OS : c_op r (store_sel w) = 1) by (rewrite (row_op r _ _ RI); destruct w; reflexivity).
    assert (OL : c_op r (load_sel w) = 0) by (rewrite (row_op r _ _ RI); destruct w; reflexivity).
    destruct (C33_cpu_bytes _ _ _ _ _ w r MS Ir ltac:(lia)) as (_ & UV & _). rewrite RI in R1, R2. cbn [inst_cols i_rs1 i_rs2 lower iargs RunnerModel.rs1 RunnerModel.rs2] in R1, R2.
    assert (V : c_mem_value_raw r = m_reg m s2 mod 256 ^ Z.of_nat (nbytes w)).
    { rewrite R1. rewrite <- pow_8. destruct w.
      - destruct (gc_store _ _ GC r Ir (or_introl OS)) as [X1 X2]. apply (C36_store_partial _ _ _ _ _ _ _ _ _ _ _ _ _ MS Ir CA); auto; discriminate.
      - destruct (gc_store _ _ GC r Ir (or_intror OS)) as [X1 X2]. apply (C36_store_partial _ _ _ _ _ _ _ _ _ _ _ _ _ MS Ir CA); auto; discriminate.
      - rewrite (gc_sw _ _ GC r Ir OS). symmetry. apply Z.mod_small. exact U1. }
    split.
    + split.
      * cbn [exec m_pc a_new]. rewrite NP, PC. reflexivity.
      * intros q. cbn [exec m_reg a_rd a_dst]. rewrite RI. cbn [inst_cols i_rd lower iargs RunnerModel.rd]. rewrite andb_false_r. reflexivity.
    + assert (AJ : forall j : nat, word (c_mem_addr r + Z.of_nat j) = word (m_reg m b + k0 + Z.of_nat j)) by (intros j; rewrite AD, word_shift, R2; reflexivity).
      split; [|intros a IW; cbn [writes] in IW; apply elem_of_list_In, in_map_iff in IW as (j & <- & IJ); apply in_seq in IJ; eexists; exists w, j; split; [exact OS|]; split; [lia|]; split; [symmetry; apply AJ|reflexivity]].
      intros a U. cbn [exec m_mem].
      assert (DEC : (exists j, (j < nbytes w)%nat /\ a = word (m_reg m b + k0 + Z.of_nat j)) \/ (forall j, (j < nbytes w)%nat -> a <> word (m_reg m b + k0 + Z.of_nat j))).
      { clear. induction (nbytes w) as [|N IH]; [right; intros; lia|]. destruct IH as [(j & L & ->)|H]; [left; exists j; split; auto|]. destruct (Z.eq_dec a (word (m_reg m b + k0 + Z.of_nat N))) as [->|NE]; [left; exists N; auto|].
        right. intros j L. destruct (Nat.eq_dec j N) as [->|]; auto. apply H. lia. }
      destruct DEC as [(j & L & ->)|H].
      * left. exists w, j. split; auto. split; auto. split; [symmetry; apply AJ|]. rewrite mem_store_in; [|exact L|destruct w; cbn; lia]. rewrite V. clear - L.
        assert (Q : 256 ^ Z.of_nat (nbytes w) = 256 ^ Z.of_nat j * (256 * 256 ^ Z.of_nat (nbytes w - S j))).
        { rewrite <- Z.pow_succ_r by lia. rewrite <- Z.pow_add_r by lia. f_equal. lia. }
        rewrite Q. rewrite Z.rem_mul_r by (try apply Z.pow_nonzero; try apply Z.mul_pos_pos; try apply Z.pow_pos_nonneg; lia).
        rewrite (Z.mul_comm (256 ^ Z.of_nat j)), Z_div_plus_full by (apply Z.pow_nonzero; lia). rewrite (Z.div_small (_ mod _)) by (apply Z.mod_pos_bound, Z.pow_pos_nonneg; lia). rewrite Z.add_0_l.
        rewrite Z.rem_mul_r by (try apply Z.pow_pos_nonneg; lia). rewrite (Z.mul_comm 256), Z_mod_plus_full, Zmod_mod. reflexivity.
      * right. split; [|apply mem_store_out, H]. intros v (w' & j & O & L & A & _). assert (w' = w) as -> by (apply (width_same _ _ _ _ _ PA TY GC r w' w store_sel Ir); auto). apply (H j L). rewrite A. apply AJ.
Qed.
End memstep.
