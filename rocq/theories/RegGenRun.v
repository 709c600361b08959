(** The register tables of a whole execution. *)
From Verif Require Import RegGenModel RegGenProofs RegGenLook MemGenModel MemGenProofs MemGenSteps MemGenAccs MemGenRun StateSpec DeviceSpec DeviceProofs TableProofs CpuTrace StateProofs StateWitness WordProofs StepProofs ExecProofs EcallProofs RunProofs CpuProofs CpuComplete CpuGen WordProps PoseidonSpec PoseidonPerm PoseidonGen PoseidonLook DeviceProps.
Open Scope Z_scope.

(** ** What a step does to the registers *)
Definition has_dest (o : op) : bool := match o with BEQ | BNE | BLT | BGE | BLTU | BGEU | SB | SH | SW | ECALL => false | _ => true end.
(** instructions that do not write a register name x0 as their destination *)
Definition no_dest (i : instruction) : Prop := has_dest (iop i) = false -> rd (iargs i) = 0.
Section Steps.
Variable permute : list Z -> list Z.
Variable utf8_ok : list Z -> bool.
Lemma ecall_regs s a s' : state_ok s -> ecall permute utf8_ok s = Ok (a, s') -> registers s' = registers s.
Proof.
  intros OK. rewrite ecall_cases by auto. cbv zeta.
  assert (RD : forall o, o <> SdNone -> ecall_read s o = Ok (a, s') -> registers s' = registers s).
  { intros o Ho E. destruct (ecall_read_frame s o OK Ho) as [(x & Q)|(data & s0 & _ & F & Q & _)]; rewrite Q in E; [discriminate E|]. injection E as _ <-. cbn [bump_pc set_pc upd_pc registers].
    match goal with |- context [puts s0 ?l] => destruct (puts_same l s0) as (_ & -> & _) end. exact (f_regs _ _ _ _ _ F). }
  repeat match goal with |- context [if ?b then _ else _] => destruct b end; try (apply RD; discriminate).
  - unfold ecall_halt. intros [= _ <-]. reflexivity.
  - intros E. exfalso. exact (ecall_panic_not_ok _ _ _ E).
  - intros E. destruct (ecall_poseidon2_frame permute s OK) as [(x & Q)|(hash & sp & H)]; [rewrite Q in E; discriminate E|]. cbv zeta in H. match type of H with context [ecall_poseidon2 permute s = ?r] => assert (Q : ecall_poseidon2 permute s = r) by tauto end. rewrite Q in E. injection E as _ <-. cbn [bump_pc set_pc upd_pc registers].
    match goal with |- context [puts s ?l] => destruct (puts_same l s) as (_ & -> & _) end. reflexivity.
  - intros E. apply ecall_trace_log_ok in E as [_ ->]. reflexivity.
  - intros [= _ <-]. reflexivity.
Qed.
Lemma step_regs s p a i s' : state_ok s -> program_ok p -> execute_instruction permute utf8_ok s p = Ok (a, i, s') ->
  (has_dest (iop i) = true -> forall r, is_reg r -> reg s' r = wr (reg s) (rd (iargs i)) (dst_val a) r) /\
  (has_dest (iop i) = false -> registers s' = registers s).
Proof.
  intros OK PO E. destruct (execute_inv _ _ s p a i s' OK PO E) as (_ & IO & a0 & s0 & D & _ & -> & _ & ->). cbn [dst_val]. pose proof IO as (R0 & R1 & R2 & RI).
  change (registers (bump_clock s0)) with (registers s0). change (reg (bump_clock s0)) with (reg s0).
  destruct (alu_fun (iop i)) as [f|] eqn:Ef.
  - assert (E' : register_op s (iargs i) f = Ok (a0, s0)) by (unfold dispatch in D; destruct (iop i); cbn in Ef; try discriminate; injection Ef as <-; exact D).
    split; [|destruct (iop i); discriminate]. intros _ r Hr. unfold register_op in E'. rewrite !get_reg_ok in E' by auto. cbn [rbind] in E'. rewrite set_reg_ok in E' by auto. cbn [rbind] in E'. injection E' as <- <-.
    cbn [aux_dst dst_val]. change (reg (bump_pc (wreg s (rd (iargs i)) (f (reg s (rs1 (iargs i))) (wadd (reg s (rs2 (iargs i))) (imm (iargs i)))))) r) with (reg (wreg s (rd (iargs i)) (f (reg s (rs1 (iargs i))) (wadd (reg s (rs2 (iargs i))) (imm (iargs i))))) r). apply reg_wreg; auto. apply OK.
  - assert (LD : forall n g, memory_load s (iargs i) n g = Ok (a0, s0) -> forall r, is_reg r -> reg s0 r = wr (reg s) (rd (iargs i)) (dst_val a0) r).
    { intros n g Q r Hr. unfold memory_load in Q. rewrite get_reg_ok in Q by auto. cbn [rbind] in Q. destruct (g _) as [raw v]. rewrite set_reg_ok in Q by auto. cbn [rbind] in Q. injection Q as <- <-. cbn [dst_val].
      change (reg (bump_pc (wreg s (rd (iargs i)) v)) r) with (reg (wreg s (rd (iargs i)) v) r). apply reg_wreg; auto. apply OK. }
    assert (ST : forall n, store s (iargs i) n = Ok (a0, s0) -> registers s0 = registers s).
    { intros n Q. unfold store in Q. rewrite !get_reg_ok in Q by auto. cbn [rbind] in Q. match type of Q with context [store_bytes s ?l] => destruct (store_bytes_spec l s) as [(? & _ & _ & K)|[_ K]]; rewrite K in Q end; cbn [rbind] in Q; [discriminate Q|].
      injection Q as _ <-. cbn [bump_pc set_pc upd_pc registers]. match goal with |- context [puts s ?l] => destruct (puts_same l s) as (_ & -> & _) end. reflexivity. }
    assert (BR : forall g, branch_op s (iargs i) g = Ok (a0, s0) -> registers s0 = registers s).
    { intros g Q. unfold branch_op in Q. rewrite !get_reg_ok in Q by auto. cbn [rbind] in Q. injection Q as _ <-. destruct (g _ _); reflexivity. }
    unfold dispatch in D. destruct (iop i) eqn:O; try discriminate Ef; (split; intros HD; try discriminate HD); try (eapply LD; exact D); try (eapply ST; exact D); try (eapply BR; exact D).
    + intros r Hr. unfold jalr in D. rewrite !get_reg_ok in D by auto. cbn [rbind] in D. rewrite set_reg_len in D by (auto; apply OK). cbn [rbind] in D. injection D as <- <-. cbn [aux_dst dst_val]. rewrite reg_wreg by (auto; apply OK). reflexivity.
    + eapply ecall_regs; eauto.
Qed.
End Steps.
(** ** Rows of the looking tables *)
Lemma gen_fields s i a : let r := gen_row s i a in c_clk r = clk s mod P /\ c_inst r = inst_cols (pc s) i /\ c_op1_value r = op1 a /\ c_op2_value_raw r = op2_raw a /\ c_dst_value r = dst_val a /\ is_running r = 1.
Proof.
  cbv zeta. assert (R : is_running (gen_row s i a) = 1) by (unfold is_running; cbn [map all_osel]; rewrite !gen_ops; cbn [inst_cols i_ops]; destruct (iop i); reflexivity).
  unfold gen_row in *. destruct (gen_product _ _) as [[? ?] ?]. destruct (gen_div _ _ _ _ _) as [[[[[? ?] ?] ?] ?] ?]. auto 10.
Qed.
Lemma in_pad {R} (d : R) t x : In x (pad_with d t) -> In x t \/ x = d.
Proof. unfold pad_with. rewrite in_app_iff. intros [I|I]; [auto|]. apply repeat_spec in I. auto. Qed.
Lemma pad_keeps {R} (d : R) t x : In x t -> In x (pad_with d t).
Proof. intros I. unfold pad_with. apply in_or_app. left. exact I. Qed.
Lemma cpu_rows rows r : In r (generate_cpu_trace rows) -> r = pad_row \/ exists s i a, In (s, i, a) rows /\ handled_elsewhere s i = false /\ r = gen_row s i a.
Proof.
  intros I. apply in_pad in I as [I|I]; [|auto]. right. apply in_map_iff in I as ([[s i] a] & <- & I). apply filter_In in I as [I H]. apply negb_true_iff in H. eauto 10.
Qed.
Lemma cpu_rows_in rows s i a : In (s, i, a) rows -> handled_elsewhere s i = false -> In (gen_row s i a) (generate_cpu_trace rows).
Proof. intros I H. apply pad_keeps, in_map_iff. exists (s, i, a). split; [reflexivity|]. apply filter_In. split; [exact I|]. rewrite H. reflexivity. Qed.
Definition small_clk (rows : list exec_row) : Prop := forall s i a, In (s, i, a) rows -> clk s < 2 ^ 32.
Definition add_row_of (s : state) (i : instruction) (a : aux) : add_row :=
  mkAdd (pc s) (rs1 (iargs i)) (rs2 (iargs i)) (rd (iargs i)) (imm (iargs i)) (clk s) (freg s (rs1 (iargs i))) (freg s (rs2 (iargs i))) (dst_val a) 1.
Definition add_rows (rows : list exec_row) : list add_row := pad_with add_default (flat_map (fun '(s, i, a) => match iop i with ADD => [add_row_of s i a] | _ => [] end) rows).
Lemma add_generated rows : small_clk rows -> generate_add_trace rows = Ok (add_rows rows).
Proof.
  intros H. unfold generate_add_trace. rewrite (collect_res_map _ (fun '(s, i, a) => match iop i with ADD => [add_row_of s i a] | _ => [] end)); [reflexivity|].
  intros [[s i] a] I. unfold gen_add_row. rewrite (proj2 (Z.ltb_lt _ _) (H s i a I)). destruct (iop i); reflexivity.
Qed.
Lemma add_rows_in rows r : In r (add_rows rows) -> r = add_default \/ exists s i a, In (s, i, a) rows /\ iop i = ADD /\ r = add_row_of s i a.
Proof.
  intros I. apply in_pad in I as [I|I]; [|auto]. right. apply in_flat_map in I as ([[s i] a] & I & J). destruct (iop i) eqn:O; try (exfalso; exact J). destruct J as [<-|[]]. eauto 10.
Qed.
Lemma add_keeps rows s i a : In (s, i, a) rows -> iop i = ADD -> In (add_row_of s i a) (add_rows rows).
Proof. intros I O. apply pad_keeps, in_flat_map. exists (s, i, a). split; [exact I|]. rewrite O. left. reflexivity. Qed.
Definition blt_row_of (s : state) (i : instruction) : blt_row :=
  mkBlt (pc s) (rs1 (iargs i)) (rs2 (iargs i)) (imm (iargs i)) (clk s) (freg s (rs1 (iargs i))) (freg s (rs2 (iargs i))) 1.
Definition blt_test (s : state) (i : instruction) : bool := (freg s (rs1 (iargs i)) <? freg s (rs2 (iargs i))) && match iop i with BLTU => true | _ => false end.
Definition blt_rows (rows : list exec_row) : list blt_row := pad_with blt_default (flat_map (fun '(s, i, a) => if blt_test s i then [blt_row_of s i] else []) rows).
Lemma blt_generated rows : small_clk rows -> generate_blt_trace rows = Ok (blt_rows rows).
Proof.
  intros H. unfold generate_blt_trace. rewrite (collect_res_map _ (fun '(s, i, a) => if blt_test s i then [blt_row_of s i] else [])); [reflexivity|].
  intros [[s i] a] I. unfold gen_blt_row. rewrite (proj2 (Z.ltb_lt _ _) (H s i a I)). fold (blt_test s i). destruct (blt_test s i); reflexivity.
Qed.
Lemma blt_rows_in rows r : In r (blt_rows rows) -> r = blt_default \/ exists s i a, In (s, i, a) rows /\ r = blt_row_of s i.
Proof.
  intros I. apply in_pad in I as [I|I]; [|auto]. right. apply in_flat_map in I as ([[s i] a] & I & J). destruct (blt_test s i); [|destruct J]. destruct J as [<-|[]]. eauto 10.
Qed.

(** ** Accesses *)
Section WithHash.
Variable permute : list Z -> list Z.
Hypothesis permute12 : forall l, state12 (permute l).
Variable utf8_ok : list Z -> bool.
Notation step_ok := (step_ok permute utf8_ok).
Variables (limit : option Z) (p : program) (fuel : nat) (t : raw_tapes) (rec : record).
Hypothesis GP : good_program p.
Hypothesis GT : good_tapes t.
Hypothesis ND : forall a i, ro_code p !! a = Some (inl i) -> no_dest i.
Hypothesis RUN : step permute utf8_ok limit p fuel (state_new p t) = Ok rec.
Let rows := run_rows rec.
Hypothesis SHORT : Z.of_nat (length rows) <= 2 ^ 31 - 2.
Variable sponge : list sprow.
Hypothesis SP : generate_sponge_trace rows = Ok sponge.
Let init := generate_reginit_trace rec.
Let looking := register_looking (generate_cpu_trace rows) (add_rows rows) (blt_rows rows) (fun o => generate_sd_trace o rows) sponge init.
(** an access during a step of the execution *)
Definition step_access (e : list Z * Z) : Prop :=
  exists s i a s' k c o x v, In (s, i, a) rows /\ clk s = 2 + Z.of_nat k /\ (k < length rows)%nat /\ state_at rec k = Some s /\ state_at rec (S k) = Some s' /\
    fst e = [c; o; x; v] /\ c mod P = clk s /\ is_reg x /\ ((o = 1 /\ v mod P = reg s x) \/ (o = 2 /\ (x <> 0 -> v mod P = reg s' x))).
Definition access (e : list Z * Z) : Prop := bit (snd e) /\ (exists c o x v, fst e = [c; o; x; v] /\ (o = 1 \/ o = 2)) /\ (snd e = 1 -> step_access e).
Lemma clk_small s i a : In (s, i, a) rows -> clk s mod P = clk s /\ clk s < 2 ^ 32.
Proof. intros I. destruct (row_facts _ _ _ _ _ _ _ GP GT RUN s i a I) as (k & s' & _ & C & L & _). fold rows in L. split; [apply Z.mod_small; unfold P; lia|lia]. Qed.
Lemma u32_mod x : u32 x -> x mod P = x. Proof. intros H. apply Z.mod_small. unfold u32, P in *. lia. Qed.
Lemma read_access s i a c x v w : In (s, i, a) rows -> bit w -> c mod P = clk s -> is_reg x -> v mod P = reg s x -> access ([c; 1; x; v], w).
Proof.
  intros I B C X V. split; [exact B|]. split; [cbn; eauto 10|]. intros _. destruct (row_facts _ _ _ _ _ _ _ GP GT RUN s i a I) as (k & s' & _ & Ck & L & SA & SB & _).
  exists s, i, a, s', k, c, 1, x, v. auto 20.
Qed.
Lemma idle_access c o x v : o = 1 \/ o = 2 -> access ([c; o; x; v], 0).
Proof. intros O. split; [left; reflexivity|]. split; [cbn; eauto 10|]. intros Q. discriminate Q. Qed.
Lemma write_access s i a c : In (s, i, a) rows -> c mod P = clk s -> access ([c; 2; rd (iargs i); dst_val a], 1).
Proof.
  intros I C. split; [right; reflexivity|]. split; [cbn; eauto 10|]. intros _. destruct (row_facts _ _ _ _ _ _ _ GP GT RUN s i a I) as (k & s' & _ & Ck & L & SA & SB & X & OK & _).
  pose proof (good_program_ok _ GP) as PO. destruct (execute_inv _ _ s p a i s' OK PO X) as (Q & (R0 & _) & _). destruct (step_regs _ _ s p a i s' OK PO X) as [W1 W2].
  exists s, i, a, s', k, c, 2, (rd (iargs i)), (dst_val a). do 7 (split; [auto|]). split; [exact R0|]. right. split; [reflexivity|]. intros NZ.
  destruct (has_dest (iop i)) eqn:HD; [|exfalso; apply NZ, (ND _ _ Q HD)]. rewrite (W1 eq_refl _ R0). unfold wr. rewrite Z.eqb_refl. destruct (Z.eqb_spec (rd (iargs i)) 0) as [Z0|Z0]; [congruence|]. cbn [negb andb].
  assert (U : u32 (reg s' (rd (iargs i)))). { apply reg_u32; [|exact R0]. eapply exec_ok; eauto. }
  rewrite (W1 eq_refl _ R0) in U. unfold wr in U. rewrite Z.eqb_refl in U. destruct (Z.eqb_spec (rd (iargs i)) 0) as [Z1|Z1]; [congruence|]. cbn [negb andb] in U. apply u32_mod, U.
Qed.
Lemma row_values s i a : In (s, i, a) rows -> is_reg (rs1 (iargs i)) /\ is_reg (rs2 (iargs i)) /\ op1 a = reg s (rs1 (iargs i)) /\ op2_raw a = reg s (rs2 (iargs i)) /\ state_ok s.
Proof.
  intros I. destruct (row_facts _ _ _ _ _ _ _ GP GT RUN s i a I) as (k & s' & _ & _ & _ & _ & _ & X & OK & _). destruct (exec_facts _ _ s p a i s' OK (good_program_ok _ GP) X) as ((_ & R1 & R2 & _) & O1 & O2 & _). auto.
Qed.
Lemma reg_mod s r : state_ok s -> is_reg r -> reg s r mod P = reg s r.
Proof. intros OK R. apply u32_mod, reg_u32; auto. Qed.
Lemma mod_twice x : (x mod P) mod P = x mod P. Proof. apply Z.mod_mod. discriminate. Qed.
Lemma pad_idle : is_running pad_row = 0. Proof. reflexivity. Qed.
Lemma cpu_accesses : Forall access (cpu_reg_looking (generate_cpu_trace rows)).
Proof.
  apply List.Forall_forall. intros e I. unfold cpu_reg_looking in I. rewrite !in_app_iff in I. destruct I as [I|[I|I]]; apply in_map_iff in I as (r & <- & I); apply cpu_rows in I as [-> |(s & i & a & I & _ & ->)];
    try (rewrite pad_idle; apply idle_access; auto; fail);
    destruct (gen_fields s i a) as (G1 & G2 & G3 & G4 & G5 & G6); rewrite ?G1, ?G2, ?G3, ?G4, ?G5, ?G6; cbn [inst_cols i_rs1 i_rs2 i_rd]; destruct (row_values s i a I) as (R1 & R2 & O1 & O2 & OK).
  - eapply read_access; eauto; [right; reflexivity|rewrite mod_twice; apply (clk_small s i a I)|rewrite O1; apply reg_mod; auto].
  - eapply read_access; eauto; [right; reflexivity|rewrite mod_twice; apply (clk_small s i a I)|rewrite O2; apply reg_mod; auto].
  - eapply write_access; eauto. rewrite mod_twice. apply (clk_small s i a I).
Qed.
Lemma add_accesses : Forall access (add_reg_looking (add_rows rows)).
Proof.
  apply List.Forall_forall. intros e I. unfold add_reg_looking in I. rewrite !in_app_iff in I. destruct I as [I|[I|I]]; apply in_map_iff in I as (r & <- & I); apply add_rows_in in I as [-> |(s & i & a & I & _ & ->)];
    try (apply idle_access; auto; fail); destruct (row_values s i a I) as (R1 & R2 & O1 & O2 & OK); cbn [add_row_of ad_clk ad_rs1 ad_rs2 ad_rd ad_op1 ad_op2 ad_dst ad_running].
  - eapply read_access; eauto; [right; reflexivity|apply (clk_small s i a I)|apply (reg_mod s); auto].
  - eapply read_access; eauto; [right; reflexivity|apply (clk_small s i a I)|apply (reg_mod s); auto].
  - eapply write_access; eauto. apply (clk_small s i a I).
Qed.
Lemma blt_accesses : Forall access (blt_reg_looking (blt_rows rows)).
Proof.
  apply List.Forall_forall. intros e I. unfold blt_reg_looking in I. rewrite !in_app_iff in I. destruct I as [I|I]; apply in_map_iff in I as (r & <- & I); apply blt_rows_in in I as [-> |(s & i & a & I & ->)];
    try (apply idle_access; auto; fail); destruct (row_values s i a I) as (R1 & R2 & O1 & O2 & OK); cbn [blt_row_of bl_clk bl_rs1 bl_rs2 bl_op1 bl_op2 bl_running];
    (eapply read_access; eauto; [right; reflexivity|apply (clk_small s i a I)|apply (reg_mod s); auto]).
Qed.
Lemma rows_step : Forall (step_ok p) rows. Proof. exact (rows_ok _ _ _ _ _ _ _ GP GT RUN). Qed.
Lemma a_regs : is_reg 11 /\ is_reg 12 /\ is_reg 13. Proof. unfold is_reg. lia. Qed.
Lemma sd_accesses : Forall access (all_sd_reg_looking (fun o => generate_sd_trace o rows)).
Proof.
  apply List.Forall_forall. intros e I. unfold all_sd_reg_looking in I. apply in_flat_map in I as (o & Io & I). assert (Ho : o <> SdNone) by (cbn in Io; intuition congruence). clear Io.
  unfold sd_reg_looking in I. apply in_map_iff in I as (r & <- & I). cbv beta in I. rewrite (generated_blocks permute utf8_ok p o rows (good_program_ok _ GP) rows_step Ho) in I. apply in_pad in I as [I| ->]; [|apply idle_access; auto].
  unfold blocks in I. apply in_flat_map in I as ([[c a] d] & J & I). apply in_map_iff in J as ([[c0 a0] d0] & Q & J). injection Q as <- -> ->. unfold tape_reads in J. apply in_omap in J as ([[s i] x] & J & Q). cbn [tape_read] in Q. destruct (_ && _) in Q; [|discriminate Q]. injection Q as <- <- <-.
  destruct (row_values s i x J) as (_ & _ & _ & _ & OK). destruct I as [<-|I].
  - cbn [d_clk d_addr d_dev]. eapply read_access; eauto; [right; reflexivity|rewrite mod_twice; apply (clk_small s i x J)|apply a_regs|apply reg_mod; [exact OK|apply a_regs]].
  - apply in_map_iff in I as ([k b] & <- & _). apply idle_access. auto.
Qed.
Lemma forall2_in {A B} (R : A -> B -> Prop) l l' y : Forall2 R l l' -> In y l' -> exists x, In x l /\ R x y.
Proof. induction 1 as [|a b l l' H F IH]; [intros []|]. intros [<-|I]; [exists a; split; [left; reflexivity|exact H]|]. destruct (IH I) as (x & J & K). exists x. split; [right; exact J|exact K]. Qed.
Lemma sponge_accesses : Forall access (sp_reg_looking sponge).
Proof.
  pose proof (good_program_ok _ GP) as PO. destruct (sponge_shape _ permute12 utf8_ok p rows sponge PO rows_step SP) as [E _]. pose proof (entries_calls _ permute12 utf8_ok p rows PO rows_step) as EC.
  assert (G : forall r, In r sponge -> r = sp_default \/ exists s i x k, In (s, i, x) rows /\ s_clk r = clk s mod P /\ s_init r = b2z (k =? 0)%nat /\ (k = 0%nat -> s_in r = reg s 11 /\ s_len r = reg s 12 /\ s_out r = reg s 13)).
  { intros r I. rewrite E in I. apply in_pad in I as [I|I]; [|auto]. right. unfold sp_blocks in I. apply in_flat_map in I as ([c e] & J & I). destruct (forall2_in _ _ _ _ EC J) as ([[[c0 a] o] m] & K & H).
    unfold hash_calls in K. apply in_omap in K as ([[s i] x] & K & Q). cbn [hash_call] in Q. destruct (_ && _) in Q; [|discriminate Q]. injection Q as <- <- <- <-. destruct H as (Ec & _ & _ & _ & _ & sp & Ee & _). cbn [fst snd] in Ec, Ee. subst c e.
    unfold sp_rows in I. cbn [p2_addr p2_output_addr p2_len p2_sponge] in I. apply in_map_iff in I as ([k d] & <- & _). exists s, i, x, k. split; [exact K|]. cbn [sp_row s_clk s_init s_in s_len s_out]. split; [reflexivity|]. split; [reflexivity|]. intros ->.
    destruct (row_values s i x K) as (_ & _ & _ & _ & OK). change REG_A1 with 11. change REG_A3 with 13. split; [lia|]. split; [|reflexivity]. unfold message. rewrite map_length, seq_length. change REG_A2 with 12. pose proof (reg_u32 s 12 OK (proj1 (proj2 a_regs))) as U. unfold u32 in U. lia. }
  apply List.Forall_forall. intros e I. unfold sp_reg_looking in I. rewrite !in_app_iff in I. destruct I as [I|[I|I]]; apply in_map_iff in I as (r & <- & I); (destruct (G r I) as [-> |(s & i & x & k & K & C & Q & V)]; [apply idle_access; auto|]);
    rewrite Q; (destruct (Nat.eqb_spec k 0) as [K0|K0]; [|apply idle_access; auto]); destruct (V K0) as (V1 & V2 & V3); destruct (row_values s i x K) as (_ & _ & _ & _ & OK); rewrite C, ?V1, ?V2, ?V3;
    (eapply read_access; eauto; [right; reflexivity|rewrite mod_twice; apply (clk_small s i x K)|apply a_regs|apply reg_mod; [exact OK|apply a_regs]]).
Qed.
Lemma init_rows e : In e (reginit_looking init) <-> exists k, 1 <= k <= 31 /\ e = ([0; 0; k; reg (match executed rec with [] => last_state rec | r :: _ => rstate r end) k], 1).
Proof.
  unfold reginit_looking, init, generate_reginit_trace, pad_last. set (f := match executed rec with [] => last_state rec | r :: _ => rstate r end). rewrite in_map_iff. split.
  - intros (r & <- & I). assert (J : In r (map (fun k => mkRegInit (Z.of_nat k) (freg f (Z.of_nat k))) (seq 1 31))). { apply in_pad in I as [I|I]; [exact I|]. rewrite I. change (seq 1 31) with (seq 1 30 ++ [31%nat]). rewrite map_app. cbn [map]. rewrite List.last_last. apply in_or_app. right. left. reflexivity. }
    apply in_map_iff in J as (k & <- & J). apply in_seq in J. exists (Z.of_nat k). split; [lia|reflexivity].
  - intros (k & K & ->). exists (mkRegInit k (freg f k)). split; [reflexivity|]. apply pad_keeps, in_map_iff. exists (Z.to_nat k). rewrite Z2Nat.id by lia. split; [reflexivity|]. apply in_seq. lia.
Qed.
(** ** The whole table *)
Definition val (c a : Z) : Z := match state_at rec (Z.to_nat (c - 2)) with Some s => reg s a | None => 0 end.
Lemma all_ok k s : state_at rec k = Some s -> state_ok s.
Proof.
  intros E. destruct (run_reach permute utf8_ok limit p fuel (state_new p t) (state_new p t) rec) as [FR FL]; [constructor|exact RUN|]. pose proof (good_program_ok _ GP) as PO.
  assert (OK0 : state_ok (state_new p t)) by (apply state_new_ok; auto).
  unfold state_at in E. destruct (executed rec !! k) as [r|] eqn:Ek.
  - injection E as <-. apply elem_of_list_lookup_2, elem_of_list_In in Ek. rewrite List.Forall_forall in FR. exact (reach_ok permute utf8_ok p _ _ OK0 PO (FR _ Ek)).
  - destruct (k =? _)%nat; [|discriminate E]. injection E as <-. exact (reach_ok permute utf8_ok p _ _ OK0 PO FL).
Qed.
Lemma val_at k s a : state_at rec k = Some s -> val (2 + Z.of_nat k) a = reg s a.
Proof. intros E. unfold val. replace (Z.to_nat (2 + Z.of_nat k - 2)) with k by lia. rewrite E. reflexivity. Qed.
Lemma first_at : state_at rec 0 = Some (match executed rec with [] => last_state rec | r :: _ => rstate r end).
Proof. unfold state_at. destruct (executed rec); reflexivity. Qed.
Lemma looking_cases e : In e looking -> access e \/ exists k, 1 <= k <= 31 /\ e = ([0; 0; k; val 2 k], 1).
Proof.
  unfold looking, register_looking. rewrite !in_app_iff. pose proof cpu_accesses as A1. pose proof add_accesses as A2. pose proof blt_accesses as A3. pose proof sd_accesses as A4. pose proof sponge_accesses as A5. rewrite List.Forall_forall in A1, A2, A3, A4, A5.
  intros [I|[I|[I|[I|[I|I]]]]]; auto. right. apply init_rows in I as (k & K & ->). exists k. split; [exact K|]. change 2 with (2 + Z.of_nat 0). rewrite (val_at _ _ k first_at). reflexivity.
Qed.
Lemma is_reg_mod x : is_reg x -> x mod P = x.
Proof. intros H. apply Z.mod_small. unfold is_reg, P in *. lia. Qed.
Lemma looking_ok : Forall access_ok looking.
Proof.
  apply List.Forall_forall. intros e I. destruct (looking_cases e I) as [(B & (c & o & x & v & E & O) & A)|(k & K & ->)].
  - split; [exact B|]. exists c, o, x, v. split; [exact E|]. split; [tauto|]. intros Q X. destruct O as [-> | ->]; [left|auto]. split; [reflexivity|].
    destruct (A Q) as (s & i & a & s' & n & c' & o' & x' & v' & J & _ & _ & SA & _ & E' & _ & R & H). rewrite E in E'. injection E' as <- <- <- <-. destruct H as [[_ V]|[F _]]; [|discriminate F].
    rewrite (is_reg_mod _ R) in X. rewrite V, X. apply reg_0, (all_ok _ _ SA).
  - split; [right; reflexivity|]. exists 0, 0, k, (val 2 k). split; [reflexivity|]. split; [auto|]. cbn [snd]. intros _ X. rewrite is_reg_mod in X by (unfold is_reg; lia). lia.
Qed.
Lemma looking_in e : In e (cpu_reg_looking (generate_cpu_trace rows)) \/ In e (add_reg_looking (add_rows rows)) \/ In e (reginit_looking init) -> In e looking.
Proof. unfold looking, register_looking. rewrite !in_app_iff. tauto. Qed.
Lemma val_u32 c a : 0 <= a <= 31 -> u32 (val c a).
Proof. intros H. unfold val. destruct (state_at _ _) as [s|] eqn:E; [|unfold u32; lia]. apply reg_u32; [eapply all_ok; eauto|unfold is_reg; lia]. Qed.
(** every change of a register is in the table as a write *)
Lemma change_written k s s' a : state_at rec k = Some s -> state_at rec (S k) = Some s' -> (k < length rows)%nat -> 1 <= a <= 31 -> reg s' a <> reg s a -> In (RegGenProofs.write_row val a (2 + Z.of_nat k)) (ops_of looking).
Proof.
  intros SA SB L A NE. assert (Ex : exists r, executed rec !! k = Some r). { apply lookup_lt_is_Some. unfold rows, run_rows in L. rewrite map_length in L. exact L. }
  destruct Ex as ([s0 x i] & Ek). assert (s0 = s) as -> by (unfold state_at in SA; rewrite Ek in SA; injection SA as <-; reflexivity).
  assert (I : In (s, i, x) rows). { apply in_map_iff. exists (mkRow s x i). split; [reflexivity|]. apply elem_of_list_In. eapply elem_of_list_lookup_2, Ek. }
  destruct (row_facts _ _ _ _ _ _ _ GP GT RUN s i x I) as (k' & s1 & Ek' & C & _ & SA' & SB' & X & OK & _).
  assert (k' = k) as ->. { destruct (run_record permute utf8_ok limit p fuel (state_new p t) rec) as (_ & HR & _); [apply state_new_ok; auto; exact (good_program_ok _ GP)|exact (good_program_ok _ GP)|exact RUN|]. destruct (HR k _ Ek) as (_ & C1 & _). destruct (HR k' _ Ek') as (_ & C2 & _). cbn [rstate] in *. lia. }
  assert (s1 = s') as -> by congruence. pose proof (good_program_ok _ GP) as PO. destruct (step_regs _ _ s p x i s' OK PO X) as [W1 W2].
  destruct (has_dest (iop i)) eqn:HD; [|exfalso; apply NE; unfold reg; rewrite (W2 eq_refl); reflexivity].
  assert (RA : is_reg a) by (unfold is_reg; lia). pose proof (W1 eq_refl a RA) as W. unfold wr in W. destruct (Z.eqb_spec a (rd (iargs i))) as [Ea|Na]; [|exfalso; apply NE; rewrite W; reflexivity].
  destruct (Z.eqb_spec (rd (iargs i)) 0) as [Z0|Z0]; [lia|]. cbn [negb andb] in W.
  apply in_ops. exists [2 + Z.of_nat k; 2; a; dst_val x]. assert (U : u32 (dst_val x)) by (rewrite <- W; apply reg_u32; [eapply exec_ok; eauto|exact RA]).
  destruct (clk_small s i x I) as [CM _]. rewrite C in CM. split.
  - apply looking_in. destruct (handled_elsewhere s i) eqn:HE.
    + right. left. unfold handled_elsewhere in HE. destruct (iop i) eqn:O; try discriminate HE; [|discriminate HD]. unfold add_reg_looking. rewrite !in_app_iff. right. right. apply in_map_iff. exists (add_row_of s i x). split; [|apply add_keeps; auto]. cbn [add_row_of ad_clk ad_rd ad_dst ad_running]. rewrite C, Ea. reflexivity.
    + left. unfold cpu_reg_looking. rewrite !in_app_iff. right. right. apply in_map_iff. exists (gen_row s i x). split; [|apply cpu_rows_in; auto]. destruct (gen_fields s i x) as (G1 & G2 & G3 & G4 & G5 & G6). rewrite G1, G2, G5, G6. cbn [inst_cols i_rd]. rewrite C, CM, Ea. reflexivity.
  - unfold row_of, RegGenProofs.write_row. rewrite CM, (is_reg_mod a RA), (u32_mod _ U). replace (2 + Z.of_nat k + 1) with (2 + Z.of_nat (S k)) by lia. rewrite (val_at _ _ a SB), W. reflexivity.
Qed.
Lemma reg_history : rhistory (ops_of looking) val (2 + Z.of_nat (length rows)).
Proof.
  constructor.
  - intros r I NZ. apply in_ops in I as (tt & I & ->). destruct (looking_cases _ I) as [(_ & _ & A)|(k & K & Q)].
    + destruct (A eq_refl) as (s & i & a & s' & n & c & o & x & v & J & Ck & L & SA & SB & E & C & R & H). cbn [fst] in E. subst tt. cbn [row_of g_addr g_clk] in *. rewrite (is_reg_mod _ R) in *. rewrite C, Ck. split; [unfold is_reg in R; lia|]. right. split; [lia|].
      destruct H as [[-> V]|[-> V]]; cbn [Z.eqb Pos.eqb b2z]; [left; unfold RegGenProofs.read_row; rewrite V, (val_at _ _ x SA); reflexivity|right]. unfold RegGenProofs.write_row. replace (2 + Z.of_nat n + 1) with (2 + Z.of_nat (S n)) by lia. rewrite (V NZ), (val_at _ _ x SB). reflexivity.
    + injection Q as ->. cbn [row_of g_addr g_clk] in *. rewrite (is_reg_mod k) in * by (unfold is_reg; lia). split; [exact K|]. left. unfold RegGenProofs.init_row. rewrite (u32_mod _ (val_u32 2 k ltac:(lia))). reflexivity.
  - intros a A. apply in_ops. exists [0; 0; a; val 2 a]. split.
    + apply looking_in. right. right. apply init_rows. exists a. split; [exact A|]. change 2 with (2 + Z.of_nat 0). rewrite (val_at _ _ a first_at). reflexivity.
    + unfold row_of, RegGenProofs.init_row. rewrite (is_reg_mod a) by (unfold is_reg; lia). rewrite (u32_mod _ (val_u32 2 a ltac:(lia))). reflexivity.
  - intros c a A C NE. replace c with (2 + Z.of_nat (Z.to_nat (c - 2))) in * by lia. set (k := Z.to_nat (c - 2)) in *. assert (L : (k < length rows)%nat) by lia.
    assert (Ex : exists r, executed rec !! k = Some r). { apply lookup_lt_is_Some. unfold rows, run_rows in L. rewrite map_length in L. exact L. } destruct Ex as (r & Ek).
    assert (SA : state_at rec k = Some (rstate r)) by (unfold state_at; rewrite Ek; reflexivity).
    destruct (run_record permute utf8_ok limit p fuel (state_new p t) rec) as (_ & HR & _); [apply state_new_ok; auto; exact (good_program_ok _ GP)|exact (good_program_ok _ GP)|exact RUN|]. destruct (HR k _ Ek) as (_ & _ & s' & SB & _).
    replace (2 + Z.of_nat k + 1) with (2 + Z.of_nat (S k)) in NE by lia. rewrite (val_at _ _ a SA), (val_at _ _ a SB) in NE. eapply change_written; eauto.
  - intros c a A. apply val_u32. lia.
  - lia.
Qed.
End WithHash.
