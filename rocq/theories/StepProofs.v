(** Invariants of arbitrary steps and runs. *)
From Verif Require Import RunSpec DecodeProofs ExecProofs IsaProofs.
Open Scope Z_scope.
Ltac Zify.zify_post_hook ::= Z.div_mod_to_equations.

Definition program_ok (p : program) : Prop :=
  map_Forall (fun (_ : Z) (d : decode_result) => match d with inl i => instruction_ok i | inr _ => True end) (ro_code p).

Lemma lower_ok a r : rv_ok r -> instruction_ok (lower a r).
Proof.
  intros H. pose proof is_reg_0 as H0. pose proof (word_u32) as W; unfold u32 in W.
  destruct r as [o d x y|o d x j|o d x j|w us d x j|w x y j|c x y j|d j|d j|d j|d x j|d x|d x|d x|f d x j|j];
    cbn [rv_ok] in H; unfold instruction_ok; cbn [lower iargs];
    try (destruct o); cbn [rd rs1 rs2 imm iargs ECALL_INST NOP];
    unfold is_reg, u32, REG_A0, REG_A1 in *; change (2^12) with 4096; change (2^32) with 4294967296 in *; 
    repeat match goal with |- context [word ?z] => pose proof (W z); generalize dependent (word z); intros end;
    try lia;
    (pose proof (pow_u32 j) as P; unfold u32 in P; lia).
Qed.
Lemma decode_ok a w i : u32 w -> decode_instruction a w = inl i -> instruction_ok i.
Proof.
  intros Hw E. destruct (decode_total a w Hw) as [E'|(r & Hr & <-)].
  - rewrite E in E'. discriminate.
  - rewrite decode_encode_rv in E by auto. injection E as <-. apply lower_ok; auto.
Qed.

(** ** Tapes *)
Lemma read_bytes_ok buf index num : 0 <= index <= Z.of_nat (length buf) -> 0 <= num ->
  let n := Z.min num (Z.of_nat (length buf) - index) in
  read_bytes buf index num = Ok (take (Z.to_nat n) (drop (Z.to_nat index) buf), index + n) /\
  Z.of_nat (length (take (Z.to_nat n) (drop (Z.to_nat index) buf))) = n.
Proof.
  intros Hi Hn n. unfold read_bytes. destruct (Z.ltb_spec (Z.of_nat (length buf)) index); [lia|].
  split; [reflexivity|]. rewrite take_length, drop_length. lia.
Qed.

(** What a tape read delivers and how it moves the tapes *)
Record fetch_ok (s : state) (o : sd_op) (num : Z) (data : list Z) (s' : state) : Prop := {
  f_stream : forall t, stream_tape o s = Some t ->
     data = take (Z.to_nat num) (drop (Z.to_nat (read_index t)) (tdata t)) /\
     stream_tape o s' = Some (mkTape (tdata t) (read_index t + Z.of_nat (length data)));
  f_fixed : forall t, constant_tape o s = Some t -> data = take (Z.to_nat num) t;
  f_others : forall o', o' <> o -> stream_tape o' s' = stream_tape o' s;
  f_fixed_same : forall o', constant_tape o' s' = constant_tape o' s;
  f_regs : registers s' = registers s; f_pc : pc s' = pc s; f_mem : smem s' = smem s;
  f_clk : clk s' = clk s; f_halted : halted s' = halted s }.

Lemma take_min {A} n (l : list A) : take (Z.to_nat (Z.min n (Z.of_nat (length l)))) l = take (Z.to_nat n) l.
Proof.
  destruct (Z.le_ge_cases n (Z.of_nat (length l))).
  - rewrite Z.min_l by lia. reflexivity.
  - rewrite Z.min_r by lia. rewrite !take_ge by lia. reflexivity.
Qed.

Lemma read_tape_ok t num : tape_ok t -> 0 <= num ->
  let data := take (Z.to_nat num) (drop (Z.to_nat (read_index t)) (tdata t)) in
  read_tape t num = Ok (data, mkTape (tdata t) (read_index t + Z.of_nat (length data))) /\
  tape_ok (mkTape (tdata t) (read_index t + Z.of_nat (length data))) /\ Forall u8 data.
Proof.
  intros [Hb Hi] Hn data. destruct (read_bytes_ok (tdata t) (read_index t) num Hi Hn) as [E L].
  assert (D : take (Z.to_nat (Z.min num (Z.of_nat (length (tdata t)) - read_index t))) (drop (Z.to_nat (read_index t)) (tdata t)) = data).
  { unfold data. rewrite <- (take_min num). rewrite drop_length. do 3 f_equal. lia. }
  rewrite D in *. unfold read_tape. rewrite E. cbn [rbind fst snd]. rewrite L. split; [reflexivity|].
  split; [|apply Forall_take, Forall_drop; auto]. split; auto. cbn. lia.
Qed.

Lemma fetch_spec s o num : state_ok s -> 0 <= num -> o <> SdNone ->
  exists data s', ecall_fetch s o num = Ok (data, s') /\ fetch_ok s o num data s' /\ state_ok s' /\ Forall u8 data /\ Z.of_nat (length data) <= num.
Proof.
  intros OK Hn Ho.
  assert (Hlen : forall l : list Z, Z.of_nat (length (take (Z.to_nat num) l)) <= num) by (intros; rewrite take_length; lia).
  Ltac stream E B Hlen OK num :=
    match goal with |- context [read_tape ?t num] =>
      destruct (read_tape_ok t num) as (E & T & B); [apply OK|auto|]; rewrite E; cbn [rbind fst snd];
      eexists _, _; split; [reflexivity|]; split;
        [constructor; try (intros t' [= <-]); try solve [intros o' Ho'; destruct o'; first [congruence|reflexivity]]; try solve [intros o'; destruct o'; reflexivity]; try reflexivity; auto
        |split; [destruct OK; constructor; cbn; auto|split; [exact B|apply Hlen]]]
    end.
  Ltac fixed E L Hlen OK num :=
    match goal with |- context [read_bytes ?t 0 num] =>
      destruct (read_bytes_ok t 0 num) as (E & L); [lia|auto|]; rewrite E; cbn [rbind fst snd];
      rewrite Z.sub_0_r, take_min in *; change (Z.to_nat 0) with 0%nat in *; rewrite drop_0 in *;
      eexists _, _; split; [reflexivity|]; split;
        [constructor; try (intros t' [= <-]); try solve [intros o' Ho'; destruct o'; first [congruence|reflexivity]]; try solve [intros o'; destruct o'; reflexivity]; try reflexivity; auto
        |split; [exact OK|split; [apply Forall_take; apply OK|apply Hlen]]]
    end.
  destruct o; cbn [ecall_fetch].
  - congruence.
  - stream E B Hlen OK num. 
  - stream E B Hlen OK num. 
  - stream E B Hlen OK num. 
  - stream E B Hlen OK num. 
  - fixed E L Hlen OK num.
  - fixed E L Hlen OK num.
  - fixed E L Hlen OK num.
Qed.

Lemma addr_range_length a n : length (addr_range a n) = n.
Proof. unfold addr_range. rewrite map_length, seq_length. reflexivity. Qed.
Lemma addr_range_u32 a n : Forall u32 (addr_range a n).
Proof. unfold addr_range. apply Forall_forall. intros x Hx. apply in_map_iff in Hx as (k & <- & _). apply wrap32_u32. Qed.
Lemma combine_ok la lb : Forall u32 la -> Forall u8 lb -> Forall (fun ab => u32 (fst ab) /\ u8 (snd ab)) (combine la lb).
Proof. intros Ha; revert lb; induction Ha; intros lb Hb; cbn; auto. destruct Hb; auto. Qed.
Lemma combine_fst {A B} (la : list A) (lb : list B) : length la = length lb -> map fst (combine la lb) = la.
Proof. revert lb; induction la; intros [|]; cbn; intros; try discriminate; auto. f_equal; auto. Qed.

Section Env.
  Variable permute : list Z -> list Z.
  Variable utf8_ok : list Z -> bool.

  (** What one instruction does to everything: [frame s a s'] holds of every successful dispatch. *)
  Record frame (s : state) (a : aux) (s' : state) : Prop := {
    fr_ok : state_ok s';
    fr_ro : is_read_only (smem s') = is_read_only (smem s);
    fr_keep : forall x, x ∈ is_read_only (smem s) -> mdata (smem s') !! x = mdata (smem s) !! x;
    fr_clk : clk s' = clk s;
    fr_halt : halted s' = will_halt a || halted s;
    fr_fixed : forall o, constant_tape o s' = constant_tape o s;
    fr_tape : forall o t, stream_tape o s = Some t ->
      stream_tape o s' = Some (mkTape (tdata t) (read_index t +
        match storage_device_entry a with
        | Some e => if bool_decide (sd_opcode e = o) then Z.of_nat (length (sd_data e)) else 0
        | None => 0 end)) /\
      match storage_device_entry a with
        | Some e => sd_opcode e = o -> sd_data e = take (length (sd_data e)) (drop (Z.to_nat (read_index t)) (tdata t))
        | None => True end }.

  Lemma fixed_same s s' : same_devices s s' -> forall o, constant_tape o s' = constant_tape o s.
  Proof. intros H []; cbn; unfold same_devices in H; try reflexivity; f_equal; tauto. Qed.
  Lemma tape_same s s' : same_devices s s' -> forall o t, stream_tape o s = Some t ->
    stream_tape o s' = Some (mkTape (tdata t) (read_index t + 0)).
  Proof.
    intros H o t Ht. assert (E : stream_tape o s' = stream_tape o s).
    { unfold same_devices in H. destruct o; cbn; try reflexivity; f_equal; tauto. }
    rewrite E, Ht, Z.add_0_r. destruct t; reflexivity.
  Qed.
  Lemma frame_simple s a s' : state_ok s' -> same_devices s s' -> smem s' = smem s -> clk s' = clk s ->
    will_halt a = false -> storage_device_entry a = None -> frame s a s'.
  Proof.
    intros OK D M C W N. constructor; auto.
    - rewrite M; reflexivity.
    - intros; rewrite M; reflexivity.
    - rewrite W. apply D.
    - apply fixed_same; auto.
    - rewrite N. intros o t Ht. split; auto. eapply tape_same; eauto.
  Qed.

  Lemma frame_reg s d v a : state_ok s -> is_reg d -> u32 v -> will_halt a = false -> storage_device_entry a = None ->
    frame s a (bump_pc (wreg s d v)).
  Proof.
    intros OK Hd Hv W N. destruct (wreg_fields s d v) as (Ep & Em & Ec & Es).
    apply frame_simple; auto. apply bump_pc_ok, wreg_ok; auto.
  Qed.

  Lemma puts_keep l s x : x ∉ map fst l -> mdata (smem (puts s l)) !! x = mdata (smem s) !! x.
  Proof.
    revert s; induction l as [|[a b] l IH]; intros s Hx; cbn in *; auto.
    apply not_elem_of_cons in Hx as [H1 H2]. rewrite IH by auto. cbn. apply lookup_insert_ne; auto.
  Qed.

  (** writing bytes after [s0] (which differs from [s] in tapes at most) *)
  Lemma frame_store s a s0 l : frame s a s0 -> smem s0 = smem s ->
    Forall (fun ab => u32 (fst ab) /\ u8 (snd ab)) l ->
    (exists x, store_bytes s0 l = Panic (PReadOnly x)) \/
    (store_bytes s0 l = Ok (puts s0 l) /\ frame s a (bump_pc (puts s0 l)) /\
     Forall (fun x => x ∉ is_read_only (smem s)) (map fst l)).
  Proof.
    intros F M Hl. destruct (store_bytes_spec l s0) as [(x & _ & _ & ->)|(Hf & ->)]; [eauto|right].
    split; [reflexivity|]. rewrite M in Hf. split; auto. destruct (puts_same l s0) as (Ep & Er & Ec & Es). destruct F.
    constructor.
    - apply bump_pc_ok, puts_ok; auto.
    - cbn. rewrite puts_ro, M. reflexivity.
    - intros x Hx. cbn. rewrite puts_keep, M; auto. intros Hin. rewrite Forall_forall in Hf. apply (Hf x); auto.
      apply elem_of_list_In; auto.
    - cbn. rewrite Ec; auto.
    - cbn. destruct Es as (-> & _). auto.
    - intros o. rewrite <- fr_fixed0. rewrite <- (fixed_same _ _ Es o). destruct o; reflexivity.
    - intros o t Ht. destruct (fr_tape0 o t Ht) as [T1 T2]. split; auto.
      eapply tape_same in T1; [|exact Es]. destruct o; cbn in *; rewrite ?T1; rewrite ?Z.add_0_r; auto.
  Qed.

  Lemma frame_refl s a : state_ok s -> will_halt a = false -> storage_device_entry a = None -> frame s a s.
  Proof. intros. apply frame_simple; auto. apply same_refl. Qed.

  Lemma ecall_read_frame s o : state_ok s -> o <> SdNone ->
    (exists x, ecall_read s o = Panic (PReadOnly x)) \/
    (exists data s0, let used := addr_range (reg s REG_A1) (length data) in
       ecall_fetch s o (reg s REG_A2) = Ok (data, s0) /\ fetch_ok s o (reg s REG_A2) data s0 /\
       ecall_read s o = Ok (mkAux (Z.of_nat (length data)) 0 None used false 0 0 0 None
                              (Some (mkSd (reg s REG_A1) o data)),
                            bump_pc (puts s0 (combine used data))) /\
       Forall (fun x => x ∉ is_read_only (smem s)) used /\
       frame s (mkAux (Z.of_nat (length data)) 0 None used false 0 0 0 None (Some (mkSd (reg s REG_A1) o data)))
             (bump_pc (puts s0 (combine used data)))).
  Proof.
    intros OK Ho. assert (R1 : is_reg REG_A1) by (unfold is_reg, REG_A1; lia).
    assert (R2 : is_reg REG_A2) by (unfold is_reg, REG_A2; lia).
    unfold ecall_read. rewrite !get_reg_ok by auto. cbn [rbind].
    destruct (reg_u32 s REG_A2 OK R2) as [Hn _].
    destruct (fetch_spec s o (reg s REG_A2) OK Hn Ho) as (data & s0 & E & F & OK0 & B & L).
    rewrite E. cbn [rbind fst snd].
    set (used := addr_range (reg s REG_A1) (length data)).
    set (a := mkAux _ _ _ _ _ _ _ _ _ _).
    assert (FR : frame s a s0).
    { destruct F. constructor; auto.
      - rewrite f_mem0; auto.
      - intros; rewrite f_mem0; auto.
      - cbn. intros o' t Ht. split.
        + case_bool_decide as Q; subst.
          * apply f_stream0; auto.
          * rewrite f_others0 by auto. rewrite Ht, Z.add_0_r. destruct t; reflexivity.
        + intros <-. destruct (f_stream0 _ Ht) as [D _]. clear -D. rewrite D, take_length.
          generalize (drop (Z.to_nat (read_index t)) (tdata t)); intros l. 
          destruct (Nat.le_ge_cases (Z.to_nat (reg s REG_A2)) (length l)).
          -- rewrite Nat.min_l by lia. reflexivity.
          -- rewrite Nat.min_r by lia. rewrite !take_ge by lia. reflexivity. }
    destruct (frame_store s a s0 (combine used data) FR (f_mem _ _ _ _ _ F)) as [(x & ->)|(-> & FR' & Hro)].
    - apply combine_ok; auto. apply addr_range_u32.
    - left; eauto.
    - right. exists data, s0. cbv zeta. fold used. split; [auto|]. split; [auto|]. split; [reflexivity|]. split; [|exact FR'].
      rewrite combine_fst in Hro; auto. unfold used; rewrite addr_range_length; auto.
  Qed.

  Lemma le_bytes_u8 n x : Forall u8 (le_bytes n x).
  Proof. revert x; induction n; intros; cbn; constructor; auto. unfold u8. lia. Qed.
  Lemma hash_to_bytes_u8 h : Forall u8 (hash_to_bytes h).
  Proof. unfold hash_to_bytes. induction h; cbn [flat_map]; auto. apply Forall_app; split; auto. apply le_bytes_u8. Qed.

  (** outcomes of the Poseidon2 call *)
  Lemma ecall_poseidon2_frame s : state_ok s ->
    (exists p, ecall_poseidon2 permute s = Panic p) \/
    (exists hash sp, let used := addr_range (reg s REG_A1) (Z.to_nat (reg s REG_A2)) ++ addr_range (reg s REG_A3) 32 in
      let l := combine (addr_range (reg s REG_A3) 32) (hash_to_bytes hash) in
      let a := mkAux 0 0 None used false 0 0 0 (Some (mkP2 (reg s REG_A1) (reg s REG_A3) ((reg s REG_A2 + 7) / 8 * 8) sp)) None in
      hash_n_to_m_no_pad permute
        (map (fun i => load_u8 s (reg s REG_A1 + Z.of_nat i)) (seq 0 (Z.to_nat (reg s REG_A2)))) = Ok (hash, sp) /\
      length (hash_to_bytes hash) = 32%nat /\
      ecall_poseidon2 permute s = Ok (a, bump_pc (puts s l)) /\
      frame s a (bump_pc (puts s l)) /\ Forall (fun x => x ∉ is_read_only (smem s)) (addr_range (reg s REG_A3) 32)).
  Proof.
    intros OK. assert (R1 : is_reg REG_A1) by (unfold is_reg, REG_A1; lia).
    assert (R2 : is_reg REG_A2) by (unfold is_reg, REG_A2; lia).
    assert (R3 : is_reg REG_A3) by (unfold is_reg, REG_A3; lia).
    unfold ecall_poseidon2. rewrite !get_reg_ok by auto. cbn [rbind].
    destruct (_ && _); [eauto|].
    destruct (hash_n_to_m_no_pad _ _) as [[hash sp]|e|p] eqn:E; cbn [rbind]; [| |eauto].
    2:{ unfold hash_n_to_m_no_pad in E. destruct (negb _); [discriminate|]. destruct (absorb _ _ _ _). destruct (mark_last _); discriminate. }
    cbn [fst snd]. destruct (Nat.eqb_spec (length (hash_to_bytes hash)) 32) as [L|]; cbn [negb]; [|eauto].
    set (used := _ ++ _). set (a := mkAux _ _ _ _ _ _ _ _ _ _). set (l := combine _ _).
    destruct (frame_store s a s l) as [(x & ->)|(-> & F & R)].
    - apply frame_refl; auto.
    - reflexivity.
    - apply combine_ok; [apply addr_range_u32|apply hash_to_bytes_u8].
    - cbn; eauto.
    - right. exists hash, sp. cbv zeta. split; [reflexivity|]. split; [auto|]. split; [reflexivity|]. split; [exact F|].
      unfold l in R. rewrite combine_fst in R by (rewrite addr_range_length; auto). auto.
  Qed.

  (** ** Every successful instruction has the frame property *)
  Lemma read_msg_ok s ptr len : (exists m, read_msg s ptr len = Ok m) \/ (exists p, read_msg s ptr len = Panic p).
  Proof. unfold read_msg. destruct (_ <? _); eauto. Qed.

  Lemma ecall_cases s : state_ok s ->
    ecall permute utf8_ok s =
      let a0 := reg s REG_A0 in
      if a0 =? 0 then ecall_halt s
      else if a0 =? 2 then ecall_read s StorePrivate
      else if a0 =? 4 then ecall_read s StorePublic
      else if a0 =? 5 then ecall_read s StoreCallTape
      else if a0 =? 6 then ecall_read s StoreEventTape
      else if a0 =? 7 then ecall_read s StoreEventsCommitmentTape
      else if a0 =? 8 then ecall_read s StoreCastListCommitmentTape
      else if a0 =? 9 then ecall_read s StoreSelfProgIdTape
      else if a0 =? 1 then ecall_panic utf8_ok s
      else if a0 =? 3 then ecall_poseidon2 permute s
      else if a0 =? 10 then ecall_trace_log utf8_ok s
      else Ok (aux_default, bump_pc s).
  Proof.
    intros OK. unfold ecall. rewrite get_reg_ok; auto. unfold is_reg, REG_A0; lia.
  Qed.

  Lemma frame_bump s : state_ok s -> frame s aux_default (bump_pc s).
  Proof. intros. apply frame_simple; auto. - apply bump_pc_ok; auto. - exact (same_refl s). Qed.

  Lemma ecall_panic_not_ok s x : ecall_panic utf8_ok s <> Ok x.
  Proof.
    unfold ecall_panic, get_reg. destruct (registers s !! Z.to_nat REG_A1); cbn; [|discriminate].
    destruct (registers s !! Z.to_nat REG_A2); cbn; [|discriminate].
    unfold read_msg. destruct (_ <? _); cbn; [|discriminate]. destruct (utf8_ok _); discriminate.
  Qed.
  Lemma ecall_trace_log_ok s a s' : ecall_trace_log utf8_ok s = Ok (a, s') -> a = aux_default /\ s' = bump_pc s.
  Proof.
    unfold ecall_trace_log, get_reg. destruct (registers s !! Z.to_nat REG_A1); cbn; [|discriminate].
    destruct (registers s !! Z.to_nat REG_A2); cbn; [|discriminate].
    unfold read_msg. destruct (_ <? _); cbn; [|discriminate]. destruct (utf8_ok _); [|discriminate]. intros [= <- <-]; auto.
  Qed.

  Lemma ecall_frame s a s' : state_ok s -> ecall permute utf8_ok s = Ok (a, s') ->
    frame s a s' /\ will_halt a = (reg s REG_A0 =? 0).
  Proof.
    intros OK. rewrite ecall_cases by auto. cbv zeta.
    destruct (Z.eqb_spec (reg s REG_A0) 0).
    { intros [= <- <-]. split; auto. constructor; auto.
      - apply halt_ok; auto.
      - intros o t Ht. split; [|exact I]. cbn [storage_device_entry]. rewrite Z.add_0_r.
        replace (mkTape (tdata t) (read_index t)) with t by (destruct t; reflexivity). rewrite <- Ht. destruct o; reflexivity. }
    repeat match goal with |- (if ?c then ecall_read s ?o else _) = _ -> _ => destruct c;
      [ intros E; destruct (ecall_read_frame s o OK ltac:(discriminate)) as [(x & E')|(data & s0 & _ & _ & E' & _ & F)];
        rewrite E in E'; [discriminate|]; injection E' as -> ->; split; [exact F|reflexivity] |] end.
    destruct (_ =? 1). { intros E. apply ecall_panic_not_ok in E. destruct E. }
    destruct (_ =? 3).
    { intros E. destruct (ecall_poseidon2_frame s OK) as [(q & E')|(h & sp & _ & _ & E' & F & _)];
        rewrite E in E'; [discriminate|]; injection E' as -> ->; split; [exact F|reflexivity]. }
    destruct (_ =? 10).
    { intros E. apply ecall_trace_log_ok in E as [-> ->]. split; [apply frame_bump; auto|reflexivity]. }
    intros [= <- <-]. split; [apply frame_bump; auto|reflexivity].
  Qed.

  Lemma mload_u32 s (f : list Z -> Z * Z) : state_ok s -> (f = lb \/ f = lbu \/ f = lh \/ f = lhu \/ f = lw) ->
    forall addr, u32 (snd (f (map (load_u8 s) (addr_range addr 4)))).
  Proof.
    intros OK Hf addr. unfold addr_range. cbn [seq map].
    assert (B : forall k, u8 (load_u8 s k)) by (intros; apply load_u8_u8; auto). unfold u8 in B.
    repeat match goal with |- context [load_u8 s ?k] => pose proof (B k); generalize dependent (load_u8 s k); intros end.
    destruct Hf as [-> |[->|[->|[->| ->]]]]; unfold lb, lbu, lbu_raw, lh, lhu, lhu_raw, lw, from_le_bytes32; cbn [snd nth];
        try apply wrap32_u32; unfold u32; lia.
  Qed.
  Lemma mload_frame s a n f x s' : state_ok s -> is_reg (rd a) -> is_reg (rs2 a) ->
    (f = lb \/ f = lbu \/ f = lh \/ f = lhu \/ f = lw) ->
    memory_load s a n f = Ok (x, s') -> frame s x s' /\ will_halt x = false.
  Proof.
    intros OK Hd H2 Hf. unfold memory_load. rewrite get_reg_ok by auto. cbn [rbind].
    pose proof (mload_u32 s f OK Hf (wadd (reg s (rs2 a)) (imm a))) as U.
    destruct (f _) as [raw v]. rewrite set_reg_ok by auto. cbn [rbind]. intros [= <- <-]. split; [|reflexivity].
    apply frame_reg; auto.
  Qed.
  Lemma to_le_u8 x : Forall u8 (to_le_bytes32 x).
  Proof. unfold to_le_bytes32, u8. repeat constructor; lia. Qed.
  Lemma store_frame s a n x s' : state_ok s -> is_reg (rs1 a) -> is_reg (rs2 a) ->
    store s a n = Ok (x, s') -> frame s x s' /\ will_halt x = false.
  Proof.
    intros OK H1 H2. unfold store. rewrite !get_reg_ok by auto. cbn [rbind].
    set (l := combine _ _). set (a' := mkAux _ _ _ _ _ _ _ _ _ _).
    destruct (frame_store s a' s l) as [(y & ->)|(-> & F & R)].
    - apply frame_refl; auto.
    - reflexivity.
    - apply combine_ok; [apply addr_range_u32|apply to_le_u8].
    - discriminate.
    - cbn [rbind]. intros [= <- <-]. auto.
  Qed.
  Lemma branch_frame s a f x s' : state_ok s -> is_reg (rs1 a) -> is_reg (rs2 a) -> u32 (imm a) ->
    branch_op s a f = Ok (x, s') -> frame s x s' /\ will_halt x = false.
  Proof.
    intros OK H1 H2 Hi. unfold branch_op. rewrite !get_reg_ok by auto. cbn [rbind]. intros [= <- <-]. split; [|reflexivity].
    destruct (f _ _).
    - apply frame_simple; auto. + apply set_pc_ok; auto. + exact (same_refl s).
    - apply frame_bump; auto.
  Qed.
  Lemma jalr_frame s a x s' : state_ok s -> is_reg (rd a) -> is_reg (rs1 a) ->
    jalr s a = Ok (x, s') -> frame s x s' /\ will_halt x = false.
  Proof.
    intros OK Hd H1. rewrite jalr_ok by auto. intros [= <- <-]. split; [|reflexivity].
    destruct (wreg_fields (set_pc s (Z.land (wadd (reg s (rs1 a)) (imm a)) 4294967294)) (rd a) (wadd (pc s) 4)) as (Ep & Em & Ec & Es).
    apply frame_simple; auto. apply wreg_ok; auto; [|apply wrap32_u32]. apply set_pc_ok; auto.
    apply land_u32; [apply wrap32_u32|unfold u32; lia].
  Qed.

  Lemma dispatch_frame s i a s' : state_ok s -> instruction_ok i -> dispatch permute utf8_ok s i = Ok (a, s') ->
    frame s a s' /\ will_halt a = (match iop i with ECALL => reg s REG_A0 =? 0 | _ => false end).
  Proof.
    intros OK (Hd & H1 & H2 & Hi) E.
    destruct (alu_fun (iop i)) as [f|] eqn:Ef.
    - assert (E' : register_op s (iargs i) f = Ok (a, s')).
      { unfold dispatch in E. destruct (iop i); cbn in Ef; try discriminate; injection Ef as <-; exact E. }
      rewrite register_op_ok in E' by auto. injection E' as <- <-.
      split.
      + apply frame_reg; auto. eapply alu_fun_u32; eauto; [apply reg_u32; auto|apply wrap32_u32].
      + destruct (iop i); try discriminate; reflexivity.
    - unfold dispatch in E. destruct (iop i); cbn in Ef; try discriminate;
        first [ apply ecall_frame; assumption
              | eapply mload_frame; [..|exact E]; auto 10
              | eapply store_frame; [..|exact E]; assumption
              | eapply branch_frame; [..|exact E]; assumption
              | eapply jalr_frame; [..|exact E]; assumption ].
  Qed.

  Lemma execute_inv s p a i s' : state_ok s -> program_ok p ->
    execute_instruction permute utf8_ok s p = Ok (a, i, s') ->
    ro_code p !! pc s = Some (inl i) /\ instruction_ok i /\
    exists a0 s0, dispatch permute utf8_ok s i = Ok (a0, s0) /\ frame s a0 s0 /\ s' = bump_clock s0 /\
      will_halt a0 = (match iop i with ECALL => reg s REG_A0 =? 0 | _ => false end) /\
      a = mkAux (dst_val a0) (pc s') (amem a0) (mem_addresses_used a0) (will_halt a0)
            (reg s (rs1 (iargs i))) (op2_of i (reg s (rs2 (iargs i)))) (reg s (rs2 (iargs i)))
            (poseidon2 a0) (storage_device_entry a0).
  Proof.
    intros OK P. unfold execute_instruction. destruct (current_instruction s p) as [[i'|[]]|] eqn:C; try discriminate.
    assert (I : instruction_ok i') by (apply (P _ _ C)).
    destruct I as (Hd & H1 & H2 & Hi). rewrite !get_reg_ok by auto. cbn [rbind].
    destruct (dispatch permute utf8_ok s i') as [[a0 s0]| |] eqn:D; cbn [rbind]; try discriminate.
    intros [= <- <- <-]. split; [exact C|]. split; [repeat split; auto; apply Hd || apply H1 || apply H2 || apply Hi|].
    destruct (dispatch_frame s i' a0 s0 OK) as [F W]; auto. { repeat split; auto; apply Hd || apply H1 || apply H2 || apply Hi. }
    exists a0, s0. auto 10.
  Qed.
End Env.
