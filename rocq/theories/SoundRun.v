(** C80: accepted tables describe a run. *)
From Verif Require Import SoundSpec StateProofs TableProofs CpuProofs CpuTrace WordProofs WordProps CircuitProps RunSpec RunProofs RomProofs ExecProofs DecodeProofs EcallProofs StepProofs RunnerProps ProofGenTables SoundRows SoundRegs SoundStep SoundMem SoundMemStep.
Open Scope Z_scope.
#[local] Opaque is_running inst_data.

Lemma esel_zero (r : cpu) e : (forall e, bit (c_ecall r e)) -> fzero (sumZ (map (c_ecall r) all_esel)) -> In e all_esel -> c_ecall r e = 0.
Proof.
  intros B S I. assert (X : sumZ (map (c_ecall r) all_esel) = 0).
  { apply fzero_small in S; auto. clear S. unfold all_esel, sumZ. cbn [map fold_left].
    pose proof (B e_private); pose proof (B e_public); pose proof (B e_call); pose proof (B e_event); pose proof (B e_events_commitment); pose proof (B e_cast_list_commitment); pose proof (B e_halt); pose proof (B e_poseidon2); pose proof (B e_self_prog_id).
    unfold bit, P in *. lia. }
  unfold all_esel, sumZ in X. cbn [map fold_left] in X.
  pose proof (B e_private); pose proof (B e_public); pose proof (B e_call); pose proof (B e_event); pose proof (B e_events_commitment); pose proof (B e_cast_list_commitment); pose proof (B e_halt); pose proof (B e_poseidon2); pose proof (B e_self_prog_id).
  unfold bit in *. destruct e; lia.
Qed.
Lemma filter_prefix {A} (f : A -> bool) l n : (forall k x, l !! k = Some x -> f x = (k <? n)%nat) -> List.filter f l = take n l.
Proof.
  revert n. induction l as [|y l IH]; intros n H; [rewrite take_nil; reflexivity|]. cbn [List.filter]. rewrite (H 0%nat y eq_refl). destruct n as [|n].
  - cbn. rewrite (IH 0%nat); [apply take_0|]. intros k x E. apply (H (S k) x E).
  - change (0 <? S n)%nat with true. cbn [take firstn]. f_equal. apply IH. intros k x E. apply (H (S k) x E).
Qed.
Section run.
Context (K : p2consts) (p : program) (events casts : list Z) (T : tables).
Context (PA : proof_accepted K p events casts T) (TY : tables_typed T) (GC : gaps_closed p T) (FR : no_devices T) (GP : good_program p) (DC : decoded_code p) (CP : code_placed p).
Context (n : nat) (SF : skel_facts p T n) (xs : list arow) (ST : steps T n xs).
Context (permute : list Z -> list Z) (utf8_ok : list Z -> bool).
Notation exec1 := (execute_instruction permute utf8_ok).

Definition shown (k : nat) (s : state) : Prop :=
  state_ok s /\ clk s = 2 + Z.of_nat k /\ (forall a, is_reg a -> reg s a = regs_at xs k a) /\ halted s = negb (k <? n)%nat /\
  (forall lv, (k < n)%nat -> t_skel T !! k = Some lv -> pc s = sk_pc lv) /\ mem_now p xs k (load_u8 s) /\ is_read_only (smem s) = dom (ro_memory p).

Lemma cpu_ecall r : In r (t_cpu T) -> (forall e, bit (c_ecall r e)) /\ fzero (c_op r o_ecall - sumZ (map (c_ecall r) all_esel)) /\ fzero (c_ecall r e_halt * (c_op1_value r - 0)).
Proof.
  intros I. destruct (accepted_always _ _ (cpu_acc _ _ _ _ _ PA TY GC) I) as [CC Z0]. unfold all_zero, cpu_always in Z0. rewrite !List.Forall_app in Z0.
  destruct Z0 as (_ & _ & _ & _ & _ & _ & _ & _ & _ & _ & _ & _ & _ & _ & Z0). unfold ecall_constraints in Z0. rewrite !List.Forall_app in Z0. destruct Z0 as (Z1 & Z2 & Z3).
  split; [|split; [apply List.Forall_inv in Z2; exact Z2|apply List.Forall_inv in Z3; exact Z3]].
  intros e. rewrite List.Forall_forall in Z1. apply binary_canon.
  - apply (cpu_col _ TY r); auto. unfold cpu_columns. rewrite !in_app_iff. right. right. right. apply in_map. destruct e; cbn; auto 20.
  - apply Z1. apply in_map_iff. exists e. split; auto. destruct e; cbn; auto 20.
Qed.
Lemma step_row k x lv nv : xs !! k = Some x -> t_skel T !! k = Some lv -> t_skel T !! S k = Some nv -> (k < n)%nat ->
  In x (a_rows T) /\ a_run x = 1 /\ a_clk x = 2 + Z.of_nat k /\ a_pc x = sk_pc lv /\ feq (a_new x) (sk_pc nv) /\ feq (a_halt x) (1 - sk_running nv).
Proof.
  intros E A B L. destruct (row_of_step _ _ _ _ _ PA TY GC n SF k lv nv A B L) as (y & I & R & C & F). destruct ST as [_ S]. pose proof (S k x E) as IS.
  assert (y = x) as -> by (apply (step_same _ _ _ _ _ PA TY GC n SF k); [split; auto|exact IS]). auto.
Qed.
Lemma regs_next k x a : xs !! k = Some x -> regs_at xs (S k) a = if (a =? a_rd x) && negb (a_rd x =? 0) then a_dst x else regs_at xs k a.
Proof.
  intros E. unfold regs_at. rewrite (take_S_r _ _ _ E), lastw_snoc. destruct (Z.eqb_spec a (a_rd x)) as [->|N]; cbn [andb].
  - destruct (Z.eqb_spec (a_rd x) 0); cbn [negb]; [rewrite !decide_True by auto; reflexivity|]. rewrite decide_False by auto. rewrite decide_True by auto. reflexivity.
  - destruct (decide (a = 0)); auto. rewrite decide_False by congruence. reflexivity.
Qed.
Lemma shown_next k s : (k < n)%nat -> shown k s -> exists x a i s', xs !! k = Some x /\ row_inst x i /\ exec1 s p = Ok (a, i, s') /\ shown (S k) s'.
Proof.
  intros L (OK & CK & RG & HA & PC & MN & RD). destruct ST as [LEN _]. destruct (lookup_lt_is_Some_2 xs k) as [x E]; [lia|].
  pose proof SF as ((N0 & N1) & F1 & F2 & _). destruct (lookup_lt_is_Some_2 (t_skel T) k) as [lv A]; [lia|]. destruct (lookup_lt_is_Some_2 (t_skel T) (S k)) as [nv B]; [lia|].
  destruct (step_row k x lv nv E A B L) as (I & R & CX & PX & NX & HX). specialize (PC lv L A). destruct (row_instruction _ _ _ _ _ PA TY GC GP CP x I R) as (i & CO & RI).
  destruct (DC _ _ CO) as (rv & RO & LO). destruct (CP _ _ CO) as [UA AL]. destruct (row_fields _ _ RI) as (G1 & G2 & G3). pose proof (gp_code _ GP _ _ CO) as (IR1 & IR2 & IR3 & _).
  destruct (step_reads _ _ _ _ _ PA TY GC FR n SF xs k x ST E) as [V1 V2]. rewrite PX, <- PC in CO, LO, UA, AL.
  assert (HF : halted s = false) by (rewrite HA; destruct (Nat.ltb_spec k n); [reflexivity|lia]).
  exists x. destruct (is_ecall rv) eqn:EC.
  - assert (i = ECALL_INST) as -> by (destruct rv; try discriminate EC; exact LO). destruct x as [r|r|r]; cbn [row_inst] in RI; try discriminate RI.
    assert (OE : c_op r o_ecall = 1) by (rewrite (row_op r _ _ RI); reflexivity). assert (Ir : In r (t_cpu T)) by (unfold a_rows in I; rewrite !in_app_iff, !in_map_iff in I; destruct I as [(q & [= ->] & I)|[(q & Q & _)|(q & Q & _)]]; [exact I|discriminate Q..]).
    pose proof (fr_ecall _ FR r Ir OE) as EH. destruct (cpu_ecall r Ir) as (_ & _ & H0). rewrite EH in H0. rewrite Z.mul_1_l, Z.sub_0_r in H0. destruct (row_dst_canon _ TY _ I) as (_ & CV & _). cbn [a_v1] in *.
    apply fzero_small in H0; [|unfold canon in CV; lia]. cbn [a_rs1] in *. assert (R0 : reg s REG_A0 = 0) by (rewrite RG by (unfold is_reg, REG_A0; lia); rewrite <- H0, V1; f_equal; symmetry; exact G1).
    destruct (halt_exec permute utf8_ok s p OK CO R0) as (a & EX & _). exists a, ECALL_INST, (bump_clock (halt s)). split; [exact E|]. split; [exact RI|]. split; [exact EX|].
    cbn [a_halt] in HX. rewrite EH in HX. destruct (Nat.lt_ge_cases (S k) n) as [LT|GE]; [exfalso; destruct (F1 _ _ B LT) as [Q _]; rewrite Q in HX; vm_compute in HX; discriminate HX|].
    split; [eapply exec_ok; eauto using good_program_ok|]. split; [cbn; lia|]. split; [|split; [|split; [lia|split; [|exact RD]]]].
    + intros a' IA. rewrite (regs_next _ _ _ E). cbn [a_rd] in *. rewrite G3. cbn [ECALL_INST iargs RunnerModel.rd]. rewrite Z.eqb_refl, andb_false_r. rewrite <- RG by auto. reflexivity.
    + change (halted (bump_clock (halt s))) with true. destruct (Nat.ltb_spec (S k) n); [lia|reflexivity].
    + apply (mem_now_step p xs k (Rc r) (load_u8 s)); auto. intros b UB. right. split; [|reflexivity]. intros v. apply (not_stored (Rc r) ECALL_INST); [exact RI|]. intros []; discriminate.
  - set (m := mkMachine (pc s) (reg s) (load_u8 s)). assert (REP : represents s m) by (repeat split; auto).
    assert (ZA : a_v1 x = reg s (a_rs1 x)) by (rewrite V1, RG; [reflexivity|rewrite G1; exact IR1 || exact IR2 || exact IR3]).
    assert (ZB : a_v2 x = reg s (a_rs2 x)) by (rewrite V2, RG; [reflexivity|rewrite G2; exact IR1 || exact IR2 || exact IR3]).
    assert (UZA : u32 (a_v1 x)) by (rewrite ZA; apply reg_u32; auto; rewrite G1; assumption). assert (UZB : u32 (a_v2 x)) by (rewrite ZB; apply reg_u32; auto; rewrite G2; assumption).
    assert (EF : row_effect x m (exec rv m) /\ mem_effect x m (exec rv m) /\ (forall a, a ∈ writes rv m -> exists v, stored x a v)).
    { destruct (memory_class rv) eqn:MC.
      - assert (XR : exists r, x = Rc r) by (destruct x as [r|r|r]; [eauto| |]; cbn [row_inst] in RI; subst i; destruct rv as [| | |[] []|[]| | | | | | | | | |]; try discriminate MC; discriminate).
        destruct XR as [r ->]. cbn [a_pc row_inst a_v1 a_v2 a_rs1 a_rs2] in *. apply (mem_exec _ _ _ _ _ PA TY GC FR GP n SF xs ST k r rv m); auto; try (cbn [m m_pc m_reg m_mem]; congruence).
        + rewrite PX, <- PC. unfold u32. lia.
        + rewrite PX, <- PC. lia.
        + apply reg_0, OK.
      - split; [|split; [apply (quiet x i); auto; rewrite LO, PC, PX; reflexivity|intros a W; destruct rv; try discriminate MC; apply elem_of_nil in W; destruct W]].
        rewrite PC, <- PX in CO, LO. apply (row_exec _ _ _ _ _ PA TY GC CP) with (i := i); auto; try (cbn [m m_pc m_reg]; congruence). apply reg_0, OK. }
    destruct EF as ((EP & ER) & EM & EW).
    assert (DE : ro_code p !! pc s = Some (decode_instruction (pc s) (RvSpec.encode rv))) by (rewrite decode_encode_rv by auto; rewrite <- LO; exact CO).
    destruct (C03_step_implements_isa permute utf8_ok s p m rv OK REP RO EC AL DE) as [(a & W & RW & _)|(_ & a & i' & s' & EX & (P1 & P2 & P3) & SD & CK' & OK' & _)].
    { exfalso. destruct (EW a W) as (v & SV). pose proof (step_writable _ _ _ _ _ PA TY GC FR GP n SF xs ST k x a v E SV) as NR. rewrite RD in RW. apply elem_of_dom in RW as [c RW]. rewrite NR in RW. discriminate RW. }
    assert (i' = i) as ->. { destruct (execute_inv _ _ _ _ _ _ _ OK (good_program_ok _ GP) EX) as (C' & _). rewrite CO in C'. congruence. }
    exists a, i, s'. split; [exact E|]. split; [exact RI|]. split; [exact EX|].
    assert (LT : (S k < n)%nat).
    { destruct (Nat.lt_ge_cases (S k) n) as [|GE]; auto. exfalso. destruct (F2 _ _ B GE) as [Q _]. rewrite Q in HX. destruct x as [r|r|r]; cbn [a_halt] in HX; [|vm_compute in HX; discriminate HX..].
      assert (Ir : In r (t_cpu T)) by (unfold a_rows in I; rewrite !in_app_iff, !in_map_iff in I; destruct I as [(q & [= ->] & I)|[(q & Q' & _)|(q & Q' & _)]]; [exact I|discriminate Q'..]).
      destruct (cpu_ecall r Ir) as (BE & H0 & _). cbn [row_inst] in RI. rewrite (row_op r _ _ RI) in H0. rewrite decide_False in H0.
      - rewrite (esel_zero r e_halt BE) in HX; [vm_compute in HX; discriminate HX| |cbn; auto 20]. unfold fzero in *. rewrite <- (Z.opp_involutive (sumZ _)). apply Z_mod_zero_opp_full. exact H0.
      - subst i. destruct rv as [[]|[]|[]|[] []|[]|[]| | | | | | | | |]; try discriminate EC; discriminate. }
    split; [exact OK'|]. split; [lia|]. split; [|split; [|split; [|split]]].
    + intros b IB. rewrite P2 by auto. rewrite ER, (regs_next _ _ _ E). cbn [m m_reg]. rewrite RG by auto. reflexivity.
    + destruct SD as [-> _]. rewrite HF. destruct (Nat.ltb_spec (S k) n); [reflexivity|lia].
    + intros lv' _ B'. assert (lv' = nv) as -> by congruence. rewrite P1, EP. destruct (ty_skel _ TY) as [SK _]. rewrite List.Forall_forall in SK. destruct (SK nv (lookup_In _ _ _ B)) as (_ & D & _).
      apply mod_eq; auto. rewrite <- EP, <- P1. pose proof (ok_pc _ OK') as U. unfold u32 in U. unfold canon, P. lia.
    + apply (mem_now_step p xs k x (load_u8 s)); auto. intros b UB. rewrite (P3 b UB). apply (EM b UB).
    + destruct SD as (_ & -> & _). exact RD.
Qed.
Lemma shown_run : forall j k s, (j + k = n)%nat -> shown k s -> exists rec, step permute utf8_ok None p (S j) s = Ok rec /\ length (executed rec) = j /\
  (forall m w, executed rec !! m = Some w -> exists x, xs !! (k + m)%nat = Some x /\ row_inst x (rinst w) /\ shown (k + m) (rstate w)) /\
  (forall m s', state_at rec m = Some s' -> shown (k + m) s').
Proof.
  induction j as [|j IH]; intros k s Q S0.
  - exists (mkRecord [] s). cbn [step]. pose proof S0 as (_ & _ & _ & HA & _ & _). rewrite HA. destruct (Nat.ltb_spec k n) as [|_]; [lia|]. cbn [negb]. split; [reflexivity|]. split; [reflexivity|]. split.
    + intros m w E. cbn in E. rewrite lookup_nil in E. discriminate E.
    + intros m s' E. unfold state_at in E. cbn in E. rewrite lookup_nil in E. destruct m; cbn in E; [|discriminate E]. injection E as <-. rewrite Nat.add_0_r. exact S0.
  - destruct (shown_next k s ltac:(lia) S0) as (x & a & i & s' & EX & RI & ST1 & S1). destruct (IH (S k) s' ltac:(lia) S1) as (rec & RU & LE & W & SA).
    exists (mkRecord (mkRow s a i :: executed rec) (last_state rec)). pose proof S0 as (_ & _ & _ & HA & _ & _). split; [|split; [cbn; lia|split]].
    + cbn [step]. cbn [step] in RU. rewrite HA. destruct (Nat.ltb_spec k n) as [_|]; [|lia]. cbn [negb]. rewrite ST1. cbn [rbind]. rewrite RU. reflexivity.
    + intros [|m] w E; cbn in E.
      * injection E as <-. exists x. rewrite Nat.add_0_r. auto.
      * replace (k + S m)%nat with (S k + m)%nat by lia. apply W. exact E.
    + intros [|m] t E.
      * unfold state_at in E. cbn in E. injection E as <-. rewrite Nat.add_0_r. exact S0.
      * replace (k + S m)%nat with (S k + m)%nat by lia. apply SA. exact E.
Qed.
Lemma shown_0 t : good_tapes t -> shown 0 (state_new p t).
Proof.
  intros GT. pose proof SF as ((N0 & N1) & _ & _ & r & E & PE). split; [apply state_new_ok; auto|]. split; [reflexivity|]. split; [|split; [cbn [state_new halted]; destruct (Nat.ltb_spec 0 n); [reflexivity|lia]|split; [|split; [exact (mem_now_0 p xs)|reflexivity]]]].
  - intros a IA. unfold regs_at. rewrite take_0. unfold reg, state_new. cbn [registers]. rewrite nth_repeat. destruct (decide (a = 0)); reflexivity.
  - intros lv _ A. cbn [state_new pc]. congruence.
Qed.
Lemma skel_running : List.filter (fun r => sk_running r =? 1) (t_skel T) = take n (t_skel T).
Proof.
  pose proof SF as (_ & F1 & F2 & _). apply filter_prefix. intros k r E. destruct (Nat.ltb_spec k n) as [L|L].
  - destruct (F1 k r E L) as [-> _]. reflexivity.
  - destruct (F2 k r E L) as [-> _]. reflexivity.
Qed.
Lemma row_at x : In x (a_rows T) -> a_run x = 1 -> exists k, (k < n)%nat /\ xs !! k = Some x /\ a_clk x = 2 + Z.of_nat k.
Proof.
  intros I R. destruct (row_step _ _ _ _ _ PA TY GC n SF x I R) as (k & lv & nv & L & _ & _ & C & _). exists k. split; auto. split; auto. destruct ST as [LEN S].
  destruct (lookup_lt_is_Some_2 xs k) as [y E]; [lia|]. rewrite E. f_equal. apply (step_same _ _ _ _ _ PA TY GC n SF k); [exact (S k y E)|split; auto].
Qed.
Lemma run_shows t : good_tapes t -> exists fuel rec, step permute utf8_ok None p fuel (state_new p t) = Ok rec /\ describes T rec.
Proof.
  intros GT. destruct (shown_run n 0 (state_new p t) ltac:(lia) (shown_0 t GT)) as (rec & RU & LE & W & SA). exists (S n), rec. split; [exact RU|]. cbn [Nat.add] in W, SA.
  pose proof ST as [LEN IS]. pose proof SF as ((N0 & N1) & _).
  assert (SH : forall x, In x (a_rows T) -> a_run x = 1 -> exists i, row_inst x i /\ step_shown rec (a_clk x) (a_pc x) i (a_v1 x) (a_v2 x) (a_dst x)).
  { intros x I R. destruct (row_at x I R) as (k & L & E & C). destruct (lookup_lt_is_Some_2 (executed rec) k) as [w EW]; [lia|].
    destruct (W k w EW) as (x' & E' & RI & SH). rewrite E in E'. injection E' as <-. exists (rinst w). split; auto.
    assert (SN : exists s', state_at rec (S k) = Some s'). { unfold state_at. destruct (executed rec !! S k) eqn:Q; [eauto|]. apply lookup_ge_None in Q. replace (S k) with (length (executed rec)) by lia. rewrite Nat.eqb_refl. eauto. }
    destruct SN as [s' SN]. pose proof (SA _ _ SN) as (_ & _ & RG' & _ & _ & MN' & _). destruct SH as (OK & CK & RG & HA & PC & MN & _). exists k, w, s'.
    destruct (lookup_lt_is_Some_2 (t_skel T) k) as [lv A]; [lia|]. destruct (lookup_lt_is_Some_2 (t_skel T) (S k)) as [nv B]; [lia|].
    destruct (step_row k x lv nv E A B L) as (_ & _ & _ & PX & _). destruct (step_reads _ _ _ _ _ PA TY GC FR n SF xs k x ST E) as [V1 V2]. destruct (row_fields _ _ RI) as (G1 & G2 & G3).
    destruct (row_instruction _ _ _ _ _ PA TY GC GP CP x I R) as (i & CO & RI'). pose proof (gp_code _ GP _ _ CO) as (IR1 & IR2 & IR3 & _). destruct (row_fields _ _ RI') as (G1' & G2' & G3').
    rewrite <- G1, <- G2, <- G3. rewrite <- G1' in IR2. rewrite <- G2' in IR3. rewrite <- G3' in IR1.
    split; [exact EW|]. split; [exact SN|]. split; [lia|]. split; [rewrite PX; apply PC; auto|]. split; [reflexivity|].
    split; [rewrite V1; apply RG; assumption|]. split; [rewrite V2; apply RG; assumption|].
    intros NZ. rewrite RG' by assumption. rewrite (regs_next _ _ _ E), Z.eqb_refl. destruct (Z.eqb_spec (a_rd x) 0); [contradiction|reflexivity]. }
  constructor.
  - rewrite skel_running. apply list_eq. intros k. etransitivity; [apply (list_lookup_fmap (fun w => (clk (rstate w), pc (rstate w))))|]. symmetry. etransitivity; [apply (list_lookup_fmap (fun r => (sk_clk r, sk_pc r)))|].
    destruct (Nat.lt_ge_cases k n) as [L|L].
    + rewrite lookup_take by auto. destruct (lookup_lt_is_Some_2 (t_skel T) k) as [lv A]; [lia|]. destruct (lookup_lt_is_Some_2 (executed rec) k) as [w EW]; [lia|]. rewrite A, EW. cbn. f_equal. destruct (W k w EW) as (_ & _ & _ & _ & CK & _ & _ & PC & _).
      pose proof SF as (_ & F1 & _). destruct (F1 k lv A L) as [_ ->]. rewrite CK, (PC lv L A). reflexivity.
    + rewrite lookup_take_ge by auto. rewrite (lookup_ge_None_2 (executed rec)) by lia. reflexivity.
  - intros r I R. destruct (SH (Rc r)) as (i & RI & S); [apply rows_in_cpu, I|exact R|]. exists i. auto.
  - intros r I R. destruct (SH (Ra r)) as (i & RI & S); [apply rows_in_add, I|exact R|]. cbn [row_inst] in RI. subst i. exact S.
  - intros r I R. destruct (SH (Rb r)) as (i & RI & S); [apply rows_in_blt, I|exact R|]. cbn [row_inst] in RI. subst i. exact S.
  - intros r I R. destruct (mem_touch _ _ _ _ _ PA TY GC FR GP n SF r I (or_intror R)) as (q & Iq & Rq & CQ & _ & H). specialize (H R). destruct (row_at (Rc q)) as (k & L & E & C); [apply rows_in_cpu, Iq|exact Rq|].
    destruct (lookup_lt_is_Some_2 (executed rec) k) as [w EW]; [lia|]. destruct (W k w EW) as (_ & _ & _ & _ & CK & _ & _ & _ & MN & _). exists k, w. split; auto. split; [cbn [a_clk] in C; lia|].
    symmetry. apply (step_load _ _ _ _ _ PA TY GC FR GP n SF xs ST k (Rc q)); auto.
  - intros r I R. destruct (mem_touch _ _ _ _ _ PA TY GC FR GP n SF r I (or_introl R)) as (q & Iq & Rq & CQ & H & _). specialize (H R). destruct (row_at (Rc q)) as (k & L & E & C); [apply rows_in_cpu, Iq|exact Rq|].
    destruct (lookup_lt_is_Some_2 (executed rec) k) as [w EW]; [lia|]. destruct (W k w EW) as (_ & _ & _ & _ & CK & _).
    assert (SN : exists s', state_at rec (S k) = Some s'). { unfold state_at. destruct (executed rec !! S k) eqn:Q; [eauto|]. apply lookup_ge_None in Q. replace (S k) with (length (executed rec)) by lia. rewrite Nat.eqb_refl. eauto. }
    destruct SN as [s' SN]. pose proof (SA _ _ SN) as (_ & _ & _ & _ & _ & MN & _). exists k, w, s'. split; auto. split; auto. split; [cbn [a_clk] in C; lia|].
    symmetry. apply (step_stored _ _ _ _ _ PA TY GC n xs ST k (Rc q)); auto. apply (m_addr_u32 _ (mem_acc _ _ _ _ _ PA TY GC FR GP n SF) r I).
Qed.
End run.
Theorem accepted_run K p events casts T : proof_accepted K p events casts T -> tables_typed T -> gaps_closed p T -> no_devices T -> good_program p -> decoded_code p -> code_placed p ->
  forall permute utf8_ok t, good_tapes t -> exists fuel rec, step permute utf8_ok None p fuel (state_new p t) = Ok rec /\ describes T rec.
Proof.
  intros PA TY GC FR GP DC CP permute utf8_ok t GT. destruct (skel_n _ _ _ _ _ PA TY GP) as [n SF]. destruct (steps_ex _ _ _ _ _ PA TY GC n SF) as [xs ST].
  eapply run_shows; eauto.
Qed.
