(** Proofs about environment calls, stores followed by loads, and the loaded image. *)
From Verif Require Import RunSpec DecodeProofs ExecProofs IsaProofs StepProofs LoadProofs RunProofs.
Open Scope Z_scope.
Ltac Zify.zify_post_hook ::= Z.div_mod_to_equations.

(** ** Byte stores of the ISA specification *)
Lemma mem_store_out n : forall f a v x, (forall k, (k < n)%nat -> x <> word (a + Z.of_nat k)) -> mem_store f a n v x = f x.
Proof.
  induction n as [|n IH]; intros f a v x H; cbn [mem_store]; auto.
  rewrite IH. 2:{ intros k Hk. replace (a + 1 + Z.of_nat k) with (a + Z.of_nat (S k)) by lia. apply H; lia. }
  specialize (H 0%nat ltac:(lia)). rewrite Z.add_0_r in H. apply Z.eqb_neq in H. rewrite H. reflexivity.
Qed.
Lemma mem_store_in n : forall f a v k, (k < n)%nat -> Z.of_nat n <= 4294967296 ->
  mem_store f a n v (word (a + Z.of_nat k)) = (v / 256 ^ Z.of_nat k) mod 256.
Proof.
  induction n as [|n IH]; intros f a v k Hk Hn; [lia|]. cbn [mem_store]. destruct k as [|k].
  - rewrite mem_store_out.
    + rewrite Z.add_0_r, Z.eqb_refl. rewrite Z.div_1_r. reflexivity.
    + intros j Hj. unfold word, M32. change (2^32) with 4294967296. lia.
  - replace (a + Z.of_nat (S k)) with (a + 1 + Z.of_nat k) by lia. rewrite IH by lia.
    rewrite Nat2Z.inj_succ, Z.pow_succ_r by lia. rewrite Z.div_div by (try lia; apply Z.pow_pos_nonneg; lia). reflexivity.
Qed.
Lemma mem_value_ext n : forall f g a, (forall k, (k < n)%nat -> f (word (a + Z.of_nat k)) = g (word (a + Z.of_nat k))) ->
  mem_value f a n = mem_value g a n.
Proof.
  induction n as [|n IH]; intros f g a H; cbn [mem_value]; auto. f_equal.
  - specialize (H 0%nat ltac:(lia)). rewrite Z.add_0_r in H. auto.
  - f_equal. apply IH. intros k Hk. replace (a + 1 + Z.of_nat k) with (a + Z.of_nat (S k)) by lia. apply H; lia.
Qed.
Lemma mem_value_bytes n : forall f a v, (forall k, (k < n)%nat -> f (word (a + Z.of_nat k)) = (v / 256 ^ Z.of_nat k) mod 256) ->
  mem_value f a n = v mod 256 ^ Z.of_nat n.
Proof.
  induction n as [|n IH]; intros f a v H; cbn [mem_value]. { cbn. rewrite Z.mod_1_r. reflexivity. }
  rewrite (IH f (a + 1) (v / 256)).
  - pose proof (H 0%nat ltac:(lia)) as H0. rewrite Z.add_0_r in H0. rewrite H0, Z.div_1_r.
    rewrite Nat2Z.inj_succ, Z.pow_succ_r by lia. assert (0 < 256 ^ Z.of_nat n) by (apply Z.pow_pos_nonneg; lia).
    rewrite (Z.rem_mul_r v 256) by lia. reflexivity.
  - intros k Hk. replace (a + 1 + Z.of_nat k) with (a + Z.of_nat (S k)) by lia. rewrite H by lia.
    rewrite Nat2Z.inj_succ, Z.pow_succ_r by lia. assert (0 < 256 ^ Z.of_nat k) by (apply Z.pow_pos_nonneg; lia).
    rewrite Z.div_div by lia. reflexivity.
Qed.
Lemma mem_value_word n f a : mem_value f (word a) n = mem_value f a n.
Proof.
  destruct n as [|n]; auto.
  assert (G : forall n a b, word a = word b -> mem_value f a n = mem_value f b n).
  { clear. induction n as [|n IH]; intros a b H; cbn [mem_value]; auto. rewrite H. f_equal. f_equal. apply IH.
    unfold word, M32 in *. change (2^32) with 4294967296 in *. lia. }
  apply G. unfold word, M32. change (2^32) with 4294967296. lia.
Qed.

Lemma represents_self s : represents s (mkMachine (pc s) (reg s) (load_u8 s)).
Proof. unfold represents; auto. Qed.

Section Env.
  Variable permute : list Z -> list Z.
  Variable utf8_ok : list Z -> bool.
  Notation exec1 := (execute_instruction permute utf8_ok).

  Lemma store_effect s p w r1 r2 i x : state_ok s -> pc s mod 4 = 0 -> rv_ok (Store w r1 r2 i) ->
    ro_code p !! pc s = Some (inl (lower (pc s) (Store w r1 r2 i))) ->
    exec1 s p = Ok x ->
    let s' := snd x in let a := reg s r1 + i in
    (forall k, (k < nbytes w)%nat -> load_u8 s' (word (a + Z.of_nat k)) = (reg s r2 / 256 ^ Z.of_nat k) mod 256) /\
    (forall y, u32 y -> (forall k, (k < nbytes w)%nat -> y <> word (a + Z.of_nat k)) -> load_u8 s' y = load_u8 s y) /\
    registers s' = registers s /\ same_devices s s' /\ state_ok s'.
  Proof.
    intros OK Hp Hr E X. destruct (step_isa permute utf8_ok s p _ OK (represents_self s) _ Hr eq_refl Hp E) as [(a & _ & _ & X')|(_ & a & j & s' & X' & (Rp & Rr & Rm) & D & _ & OK' & _)].
    - rewrite X in X'. discriminate.
    - rewrite X in X'. injection X' as ->. cbn [snd]. cbn [exec m_mem m_reg] in Rm, Rr.
      split; [|split; [|split; [|auto]]].
      + intros k Hk. rewrite Rm by apply word_u32. apply mem_store_in; auto. destruct w; cbn; lia.
      + intros y Hy Hk. rewrite Rm by auto. apply mem_store_out. auto.
      + apply nth_ext with 0 0. { rewrite !ok_len; auto. }
        intros n Hn. rewrite ok_len in Hn by auto. specialize (Rr (Z.of_nat n)). unfold reg in Rr. rewrite Nat2Z.id in Rr.
        apply Rr. unfold is_reg. lia.
  Qed.

  Lemma store_load s p w r1 r2 i x s2 p2 d b j y : state_ok s -> pc s mod 4 = 0 -> rv_ok (Store w r1 r2 i) ->
    ro_code p !! pc s = Some (inl (lower (pc s) (Store w r1 r2 i))) -> exec1 s p = Ok x ->
    smem s2 = smem (snd x) -> state_ok s2 -> pc s2 mod 4 = 0 ->
    rv_ok (Load w true d b j) -> d <> 0 ->
    ro_code p2 !! pc s2 = Some (inl (lower (pc s2) (Load w true d b j))) ->
    word (reg s2 b + j) = word (reg s r1 + i) -> exec1 s2 p2 = Ok y ->
    reg (snd y) d = reg s r2 mod 2 ^ (8 * Z.of_nat (nbytes w)).
  Proof.
    intros OK Hp Hr E X M OK2 Hp2 Hr2 Hd E2 A Y.
    destruct (store_effect s p w r1 r2 i x OK Hp Hr E X) as (S1 & _). cbv zeta in S1.
    destruct (step_isa permute utf8_ok s2 p2 _ OK2 (represents_self s2) _ Hr2 eq_refl Hp2 E2) as [(a & _ & _ & X')|(_ & a & i' & s' & X' & (Rp & Rr & Rm) & _)].
    - rewrite Y in X'. discriminate.
    - rewrite Y in X'. injection X' as ->. cbn [snd].
      assert (Rd : is_reg d) by (cbn [rv_ok] in Hr2; tauto).
      rewrite Rr by auto. cbn [exec m_mem m_reg]. unfold wr. rewrite Z.eqb_refl.
      apply Z.eqb_neq in Hd. rewrite Hd. cbn [andb negb].
      rewrite <- mem_value_word, A, mem_value_word.
      rewrite (mem_value_bytes _ _ _ (reg s r2)).
      + rewrite Z.pow_mul_r by lia. reflexivity.
      + intros k Hk. rewrite <- S1 by auto. unfold load_u8. rewrite M. reflexivity.
  Qed.

  (** ** Environment calls *)
  Lemma ecall_exec s p : state_ok s -> ro_code p !! pc s = Some (inl ECALL_INST) ->
    exec1 s p = (r <-- ecall permute utf8_ok s ;;
      Ok (mkAux (dst_val (fst r)) (pc (snd r)) (amem (fst r)) (mem_addresses_used (fst r)) (will_halt (fst r))
            (reg s (rs1 (iargs ECALL_INST))) (op2_of ECALL_INST (reg s (rs2 (iargs ECALL_INST)))) (reg s (rs2 (iargs ECALL_INST)))
            (poseidon2 (fst r)) (storage_device_entry (fst r)), ECALL_INST, bump_clock (snd r))).
  Proof.
    intros OK E. apply (exec_unfold permute utf8_ok s p OK ECALL_INST E).
    all: unfold is_reg, ECALL_INST; cbn [iargs rs1 rs2]; unfold REG_A0, REG_A1; lia.
  Qed.

  Lemma addr_range_nth a n k : (k < n)%nat -> addr_range a n !! k = Some (word (a + Z.of_nat k)).
  Proof.
    intros H. unfold addr_range. rewrite list_lookup_fmap. rewrite lookup_seq_lt by auto. reflexivity.
  Qed.
  Lemma addr_range_elem a n x : x ∈ addr_range a n <-> exists k, (k < n)%nat /\ x = word (a + Z.of_nat k).
  Proof.
    rewrite elem_of_list_lookup. split.
    - intros [k Hk]. assert (k < n)%nat by (apply lookup_lt_Some in Hk; rewrite addr_range_length in Hk; auto).
      rewrite addr_range_nth in Hk by auto. injection Hk as <-. eauto.
    - intros (k & Hk & ->). exists k. apply addr_range_nth; auto.
  Qed.
  Lemma addr_range_nodup a n : Z.of_nat n <= 4294967296 -> NoDup (addr_range a n).
  Proof.
    intros Hn. apply NoDup_alt. intros i j x Hi Hj.
    assert (i < n)%nat by (apply lookup_lt_Some in Hi; rewrite addr_range_length in Hi; auto).
    assert (j < n)%nat by (apply lookup_lt_Some in Hj; rewrite addr_range_length in Hj; auto).
    rewrite addr_range_nth in Hi, Hj by auto. injection Hi as <-. injection Hj as E.
    unfold word, M32 in E. change (2^32) with 4294967296 in E. lia.
  Qed.
  Lemma puts_load_in l : forall s k a b, NoDup (map fst l) -> l !! k = Some (a, b) -> load_u8 (puts s l) a = b.
  Proof.
    induction l as [|[a' b'] l IH]; intros s k a b N H; [rewrite lookup_nil in H; discriminate|].
    cbn [map fst] in N. apply stdpp.list.NoDup_cons in N as [N1 N2]. destruct k as [|k]; cbn in H.
    - injection H as -> ->. cbn [puts]. rewrite puts_load_notin by auto. rewrite load_put, Z.eqb_refl. reflexivity.
    - cbn [puts]. eapply IH; eauto.
  Qed.
  Lemma combine_lookup {A B} (l1 : list A) : forall (l2 : list B) k x y, l1 !! k = Some x -> l2 !! k = Some y ->
    combine l1 l2 !! k = Some (x, y).
  Proof.
    induction l1 as [|a l1 IH]; intros l2 k x y H1 H2; [rewrite lookup_nil in H1; discriminate|].
    destruct l2 as [|b l2]; [rewrite lookup_nil in H2; discriminate|]. destruct k; cbn in *; [congruence|auto].
  Qed.
  Lemma puts_range s a data k b : Z.of_nat (length data) <= 4294967296 -> data !! k = Some b ->
    load_u8 (puts s (combine (addr_range a (length data)) data)) (word (a + Z.of_nat k)) = b.
  Proof.
    intros Hn H. eapply (puts_load_in _ _ k).
    - rewrite combine_fst by apply addr_range_length. apply addr_range_nodup; auto.
    - apply combine_lookup; auto. apply addr_range_nth. eapply lookup_lt_Some; eauto.
  Qed.
  Lemma puts_range_out s a data x : (forall k, (k < length data)%nat -> x <> word (a + Z.of_nat k)) ->
    load_u8 (puts s (combine (addr_range a (length data)) data)) x = load_u8 s x.
  Proof.
    intros H. apply puts_load_notin. rewrite combine_fst by apply addr_range_length.
    rewrite addr_range_elem. intros (k & Hk & ->). apply (H k Hk eq_refl).
  Qed.

  Lemma read_call_ecall s o : state_ok s -> read_call (reg s REG_A0) = Some o ->
    o <> SdNone /\ ecall permute utf8_ok s = ecall_read s o.
  Proof.
    intros OK. rewrite ecall_cases by auto. cbv zeta. unfold read_call. generalize (reg s REG_A0); intros n.
    destruct (Z.eqb_spec n 2); [intros [= <-]; subst; cbn; split; [discriminate|reflexivity]|].
    destruct (Z.eqb_spec n 4); [intros [= <-]; subst; cbn; split; [discriminate|reflexivity]|].
    destruct (Z.eqb_spec n 5); [intros [= <-]; subst; cbn; split; [discriminate|reflexivity]|].
    destruct (Z.eqb_spec n 6); [intros [= <-]; subst; cbn; split; [discriminate|reflexivity]|].
    destruct (Z.eqb_spec n 7); [intros [= <-]; subst; cbn; split; [discriminate|reflexivity]|].
    destruct (Z.eqb_spec n 8); [intros [= <-]; subst; cbn; split; [discriminate|reflexivity]|].
    destruct (Z.eqb_spec n 9); [intros [= <-]; subst; cbn; split; [discriminate|reflexivity]|]. discriminate.
  Qed.

  Lemma fetch_available s o n data s0 : o <> SdNone -> fetch_ok s o n data s0 -> data = take (Z.to_nat n) (available o s).
  Proof.
    intros Ho F. unfold available. destruct (stream_tape o s) as [t|] eqn:T.
    - apply (f_stream _ _ _ _ _ F _ T).
    - destruct (constant_tape o s) as [l|] eqn:C.
      + apply (f_fixed _ _ _ _ _ F _ C).
      + destruct o; try discriminate. congruence.
  Qed.

  Lemma read_exec s p o : state_ok s -> ro_code p !! pc s = Some (inl ECALL_INST) -> read_call (reg s REG_A0) = Some o ->
    let data := take (Z.to_nat (reg s REG_A2)) (available o s) in
    let used := map (fun k => word (reg s REG_A1 + Z.of_nat k)) (seq 0 (length data)) in
    (exists x, x ∈ is_read_only (smem s) /\ exec1 s p = Panic (PReadOnly x) /\ x ∈ used) \/
    (Forall (fun x => x ∉ is_read_only (smem s)) used /\
     exists a s', exec1 s p = Ok (a, ECALL_INST, s') /\
       storage_device_entry a = Some (mkSd (reg s REG_A1) o data) /\ dst_val a = Z.of_nat (length data) /\
       (forall k b, data !! k = Some b -> load_u8 s' (word (reg s REG_A1 + Z.of_nat k)) = b) /\
       (forall x, x ∉ used -> load_u8 s' x = load_u8 s x) /\
       registers s' = registers s /\ pc s' = word (pc s + 4) /\ clk s' = clk s + 1 /\ halted s' = halted s /\
       is_read_only (smem s') = is_read_only (smem s) /\
       (forall o', o' <> o -> stream_tape o' s' = stream_tape o' s) /\
       (forall o', constant_tape o' s' = constant_tape o' s) /\
       (forall t, stream_tape o s = Some t -> stream_tape o s' = Some (mkTape (tdata t) (read_index t + Z.of_nat (length data))))).
  Proof.
    intros OK E RC data used. destruct (read_call_ecall s o OK RC) as [Ho Ee].
    rewrite (ecall_exec s p OK E), Ee.
    assert (R1 : is_reg REG_A1) by (unfold is_reg, REG_A1; lia).
    assert (R2 : is_reg REG_A2) by (unfold is_reg, REG_A2; lia).
    destruct (reg_u32 s REG_A2 OK R2) as [Hn _]. destruct (reg_u32 s REG_A2 OK R2) as [_ Hn2].
    destruct (fetch_spec s o (reg s REG_A2) OK Hn Ho) as (data' & s0 & EF & F & OK0 & B & L).
    pose proof (fetch_available _ _ _ _ _ Ho F) as ED. fold data in ED. subst data'.
    unfold ecall_read. rewrite !get_reg_ok by auto. cbn [rbind]. rewrite EF. cbn [rbind fst snd].
    change (addr_range (reg s REG_A1) (length data)) with used.
    assert (LD : Z.of_nat (length data) <= 4294967296).
    { unfold data. rewrite take_length. unfold u32 in *. lia. }
    destruct (store_bytes_spec (combine used data) s0) as [(x & X1 & X2 & ->)|(Hf & ->)].
    - left. exists x. rewrite (f_mem _ _ _ _ _ F) in X2. split; auto. split; [reflexivity|].
      rewrite combine_fst in X1; auto. unfold used. rewrite map_length, seq_length. auto.
    - right. assert (Lu : length used = length data) by (unfold used; rewrite map_length, seq_length; auto).
      rewrite combine_fst in Hf by auto. rewrite (f_mem _ _ _ _ _ F) in Hf. split; auto.
      cbn [rbind]. eexists _, _. split; [reflexivity|]. cbn [fst snd storage_device_entry dst_val].
      split; [reflexivity|]. split; [reflexivity|].
      destruct (puts_same (combine used data) s0) as (Ep & Er & Ec & Ed).
      assert (LM : forall x, load_u8 s0 x = load_u8 s x) by (intros; unfold load_u8; rewrite (f_mem _ _ _ _ _ F); auto).
      split. { intros k b Hk. apply (puts_range s0 (reg s REG_A1) data k b LD Hk). }
      split. { intros x Hx. rewrite <- LM. change (load_u8 (puts s0 (combine used data)) x = load_u8 s0 x).
               apply puts_load_notin. rewrite combine_fst by auto. auto. }
      cbn. unfold same_devices in Ed. destruct Ed as (D1 & D2 & D3 & D4 & D5 & D6 & D7 & D8 & D9).
      split; [rewrite Er; apply F|]. split; [rewrite Ep, (f_pc _ _ _ _ _ F); reflexivity|].
      split; [rewrite Ec, (f_clk _ _ _ _ _ F); reflexivity|]. split; [rewrite D1; apply F|].
      split; [rewrite D2, (f_mem _ _ _ _ _ F); reflexivity|].
      split. { intros o' Ho'. rewrite <- (f_others _ _ _ _ _ F o' Ho'). destruct o'; cbn; congruence. }
      split. { intros o'. rewrite <- (f_fixed_same _ _ _ _ _ F o'). destruct o'; cbn; congruence. }
      intros t Ht. destruct (f_stream _ _ _ _ _ F t Ht) as [_ <-]. destruct o; cbn; congruence.
  Qed.

  (** halting *)
  Lemma halt_exec s p : state_ok s -> ro_code p !! pc s = Some (inl ECALL_INST) -> reg s REG_A0 = 0 ->
    exists a, exec1 s p = Ok (a, ECALL_INST, bump_clock (halt s)) /\ will_halt a = true.
  Proof.
    intros OK E A. rewrite (ecall_exec s p OK E), ecall_cases, A by auto. cbn. eexists. split; reflexivity.
  Qed.
  Lemma step_halt_iff s p a i s' : state_ok s -> program_ok p -> halted s = false -> exec1 s p = Ok (a, i, s') ->
    will_halt a = halted s' /\ (halted s' = true <-> iop i = ECALL /\ reg s REG_A0 = 0).
  Proof.
    intros OK P H E. destruct (execute_inv _ _ _ _ _ _ _ OK P E) as (_ & _ & a0 & s0 & _ & F & -> & W & ->).
    cbn [will_halt]. cbn. rewrite (fr_halt _ _ _ F), H, orb_false_r. split; auto. rewrite W.
    destruct (iop i); split; try discriminate; try (intros [? ?]; discriminate).
    - intros Q. apply Z.eqb_eq in Q. auto.
    - intros [_ ->]. reflexivity.
  Qed.

  Lemma unknown_exec s p : state_ok s -> ro_code p !! pc s = Some (inl ECALL_INST) ->
    ~ 0 <= reg s REG_A0 <= 10 -> exists a, exec1 s p = Ok (a, ECALL_INST, bump_clock (bump_pc s)) /\
      will_halt a = false /\ storage_device_entry a = None /\ poseidon2 a = None /\ mem_addresses_used a = [] /\ dst_val a = 0.
  Proof.
    intros OK E A. rewrite (ecall_exec s p OK E), ecall_cases by auto. cbv zeta.
    repeat match goal with |- context [reg s REG_A0 =? ?n] => destruct (Z.eqb_spec (reg s REG_A0) n); [lia|] end.
    cbn. eexists. repeat split; reflexivity.
  Qed.

  (** ** Poseidon2 *)
  Lemma absorb_spec n : forall fuel st inputs, length inputs = (8 * n)%nat -> (n <= fuel)%nat -> 
    let r := absorb permute fuel st inputs in
    length (snd r) = n /\
    (forall k d, snd r !! k = Some d ->
       preimage d = take 8 (drop (8 * k) inputs) ++ drop 8 (match k with O => st | S k' => match snd r !! k' with Some d' => output d' | None => [] end end) /\
       output d = permute (preimage d) /\ gen_output d = 0) /\
    fst r = match n with O => st | S m => match snd r !! m with Some d => output d | None => [] end end.
  Proof.
    induction n as [|n IH]; intros fuel st inputs L Hf.
    - destruct inputs; [|discriminate]. destruct fuel; cbn; (split; [auto|]; split; [|auto]; intros k d H; rewrite lookup_nil in H; discriminate).
    - destruct fuel as [|fuel]; [lia|]. cbn [absorb]. destruct inputs as [|x inputs]; [cbn in L; lia|]. set (inp := x :: inputs) in *.
      cbv zeta. assert (LT : length (take 8 inp) = 8%nat) by (rewrite take_length; lia).
      assert (OV : overwrite st (take 8 inp) = take 8 inp ++ drop 8 st) by (unfold overwrite; rewrite LT; reflexivity).
      set (out := permute (overwrite st (take 8 inp))).
      specialize (IH fuel out (drop 8 inp)). cbv zeta in IH. 
      destruct (absorb permute fuel out (drop 8 inp)) as [fin rest] eqn:EA. cbn [fst snd] in *.
      destruct IH as (I1 & I2 & I3); [rewrite drop_length; lia|lia|].
      split; [cbn; lia|]. split.
      + intros [|k] d H; cbn in H.
        * injection H as <-. cbn [preimage output gen_output].
          split; [exact OV|]. split; reflexivity.
        * destruct (I2 k d H) as (J1 & J2 & J3). split; [rewrite J1|auto].
          rewrite drop_drop. replace (8 + 8 * k)%nat with (8 * S k)%nat by lia. f_equal. f_equal. destruct k; reflexivity.
      + rewrite I3. destruct n; reflexivity.
  Qed.
  Lemma mark_last_spec l : l <> [] -> exists l', mark_last l = Some l' /\ length l' = length l /\
    forall k d', l' !! k = Some d' -> exists d, l !! k = Some d /\ preimage d' = preimage d /\ output d' = output d /\
      gen_output d' = (if (S k =? length l)%nat then 1 else gen_output d).
  Proof.
    induction l as [|d l IH]; [congruence|]. intros _. destruct l as [|e l].
    - eexists. split; [reflexivity|]. split; [reflexivity|]. intros [|k] d' H; cbn in H; [|destruct k; discriminate].
      injection H as <-. exists d. auto.
    - destruct IH as (l' & E & L & H); [discriminate|]. cbn [mark_last] in *. rewrite E. eexists. split; [reflexivity|].
      split; [cbn in *; lia|]. intros [|k] d' Hk; cbn in Hk.
      + injection Hk as <-. exists d. cbn. auto.
      + destruct (H k d' Hk) as (d0 & H1 & H2 & H3 & H4). exists d0. repeat split; auto.
  Qed.
  Lemma mark_last_lookup l l' k : mark_last l = Some l' -> 
    (match l' !! k with Some d => output d | None => [] end) = (match l !! k with Some d => output d | None => [] end).
  Proof.
    intros E. destruct l as [|d l]; [discriminate|].
    destruct (mark_last_spec (d :: l)) as (l2 & E2 & L & H); [discriminate|]. rewrite E in E2. injection E2 as <-.
    destruct (l' !! k) as [x|] eqn:X.
    - destruct (H _ _ X) as (d0 & -> & _ & -> & _). reflexivity.
    - apply lookup_ge_None in X. rewrite (proj2 (lookup_ge_None _ _)); auto. lia.
  Qed.
  Lemma hash_spec inputs h sp : hash_n_to_m_no_pad permute inputs = Ok (h, sp) ->
    sponge_chain permute inputs sp /\ h = take 4 (match stdpp.list.last sp with Some d => output d | None => [] end) /\ sp <> [].
  Proof.
    unfold hash_n_to_m_no_pad. destruct (Z.eqb_spec (Z.of_nat (length inputs) mod 8) 0) as [M|]; cbn [negb]; [|discriminate].
    assert (L : length inputs = (8 * (length inputs / 8))%nat).
    { apply Nat2Z.inj. rewrite Nat2Z.inj_mul, Nat2Z.inj_div. lia. }
    set (n := (length inputs / 8)%nat) in *. clearbody n.
    destruct (absorb_spec n (length inputs) (repeat 0 12) inputs L ltac:(lia)) as (A1 & A2 & A3). cbv zeta in *.
    destruct (absorb _ _ _ _) as [st sp0]. cbn [fst snd] in *.
    destruct sp0 as [|d0 sp0]; [discriminate|]. set (l := d0 :: sp0) in *.
    destruct (mark_last_spec l) as (l' & E & LL & H); [discriminate|]. rewrite E. intros [= <- <-].
    split; [|split].
    - split; [lia|]. intros k d' Hd. destruct (H k d' Hd) as (d & Hk & P1 & P2 & P3).
      destruct (A2 k d Hk) as (B1 & B2 & B3). rewrite P1, B1, P2, B2, P3, LL.
      split; [|split; [rewrite B1; reflexivity|destruct (_ =? _)%nat; auto]].
      f_equal. f_equal. destruct k as [|k]; auto. symmetry. apply mark_last_lookup; auto.
    - f_equal. rewrite last_lookup, LL, A1. destruct n as [|n]; [cbn in A1; lia|].
      rewrite A3. cbn [Nat.pred]. symmetry. apply mark_last_lookup; auto.
    - intros ->. cbn in LL. lia.
  Qed.
  Lemma hash_panics inputs : inputs = [] \/ Z.of_nat (length inputs) mod 8 <> 0 -> hash_n_to_m_no_pad permute inputs = Panic PAssert.
  Proof.
    unfold hash_n_to_m_no_pad. intros [->|H]; [reflexivity|]. apply Z.eqb_neq in H. rewrite H. reflexivity.
  Qed.
  Lemma hash_ok inputs : inputs <> [] -> Z.of_nat (length inputs) mod 8 = 0 -> exists r, hash_n_to_m_no_pad permute inputs = Ok r.
  Proof.
    intros Hne M. unfold hash_n_to_m_no_pad. rewrite M. cbn [Z.eqb negb].
    assert (L : length inputs = (8 * (length inputs / 8))%nat).
    { apply Nat2Z.inj. rewrite Nat2Z.inj_mul, Nat2Z.inj_div. lia. }
    set (n := (length inputs / 8)%nat) in *. clearbody n.
    destruct (absorb_spec n (length inputs) (repeat 0 12) inputs L ltac:(lia)) as (A1 & A2 & A3). cbv zeta in *.
    destruct (absorb _ _ _ _) as [st sp0]. cbn [fst snd] in *.
    destruct sp0 as [|d0 sp0]. { cbn in A1. subst n. destruct inputs; [congruence|discriminate]. }
    destruct (mark_last_spec (d0 :: sp0)) as (l' & -> & _); [discriminate|]. eauto.
  Qed.
  Lemma le_bytes_length n x : length (le_bytes n x) = n.
  Proof. revert x; induction n; cbn; auto. Qed.
  Lemma hash_to_bytes_length h : length (hash_to_bytes h) = (8 * length h)%nat.
  Proof. unfold hash_to_bytes. induction h; cbn [flat_map length]; auto. rewrite app_length, le_bytes_length, IHh. lia. Qed.

  Lemma poseidon_exec s p : state_ok s -> ro_code p !! pc s = Some (inl ECALL_INST) -> reg s REG_A0 = 3 ->
    (forall l, length l = 12%nat -> length (permute l) = 12%nat) ->
    0 < reg s REG_A2 -> reg s REG_A2 mod 8 = 0 -> reg s REG_A1 + reg s REG_A2 <= 4294967296 ->
    let out := map (fun k => word (reg s REG_A3 + Z.of_nat k)) (seq 0 32) in
    (exists x, x ∈ is_read_only (smem s) /\ x ∈ out /\ exec1 s p = Panic (PReadOnly x)) \/
    (Forall (fun x => x ∉ is_read_only (smem s)) out /\
     exists a s' sp d, exec1 s p = Ok (a, ECALL_INST, s') /\
       poseidon2 a = Some (mkP2 (reg s REG_A1) (reg s REG_A3) (reg s REG_A2) sp) /\
       sponge_chain permute (message s) sp /\ stdpp.list.last sp = Some d /\
       let digest := hash_to_bytes (take 4 (output d)) in
       length digest = 32%nat /\
       (forall k b, digest !! k = Some b -> load_u8 s' (word (reg s REG_A3 + Z.of_nat k)) = b) /\
       (forall x, x ∉ out -> load_u8 s' x = load_u8 s x) /\
       registers s' = registers s /\ pc s' = word (pc s + 4) /\ clk s' = clk s + 1 /\ same_devices s s').
  Proof.
    intros OK E A0 HP Hn Hm Hw out. rewrite (ecall_exec s p OK E), ecall_cases, A0 by auto. cbn [Z.eqb Pos.eqb].
    assert (R1 : is_reg REG_A1) by (unfold is_reg, REG_A1; lia).
    assert (R2 : is_reg REG_A2) by (unfold is_reg, REG_A2; lia).
    assert (R3 : is_reg REG_A3) by (unfold is_reg, REG_A3; lia).
    unfold ecall_poseidon2. rewrite !get_reg_ok by auto. cbn [rbind].
    destruct (Z.ltb_spec 4294967296 (reg s REG_A1 + reg s REG_A2)); [lia|]. rewrite andb_false_r.
    fold (message s). assert (LM : length (message s) = Z.to_nat (reg s REG_A2)) by (unfold message; rewrite map_length, seq_length; auto).
    destruct (hash_ok (message s)) as [[h sp] EH].
    { intros Q. rewrite Q in LM. cbn in LM. lia. } { rewrite LM. lia. }
    rewrite EH. cbn [rbind fst snd]. destruct (hash_spec _ _ _ EH) as (SC & Eh & Hne).
    destruct (stdpp.list.last sp) as [d|] eqn:EL. 2:{ apply last_None in EL. congruence. }
    assert (LO : length (output d) = 12%nat).
    { destruct SC as [SL SC]. rewrite last_lookup in EL.
      assert (G : forall k d, sp !! k = Some d -> length (output d) = 12%nat).
      { induction k as [|k IH]; intros d' Hd'; destruct (SC _ _ Hd') as (P1 & P2 & _); rewrite P2; apply HP; rewrite P1, app_length, take_length, !drop_length;
          apply lookup_lt_Some in Hd'.
        - rewrite repeat_length. lia.
        - destruct (sp !! k) as [dk|] eqn:Ek. + rewrite (IH _ eq_refl). lia.
          + apply lookup_ge_None in Ek. lia. }
      eapply G; eauto. }
    assert (LD : length (hash_to_bytes h) = 32%nat) by (rewrite hash_to_bytes_length, Eh, take_length, LO; reflexivity).
    rewrite LD. cbn [Nat.eqb negb].
    change (addr_range (reg s REG_A3) 32) with out.
    assert (Lu : length out = 32%nat) by reflexivity.
    destruct (store_bytes_spec (combine out (hash_to_bytes h)) s) as [(x & X1 & X2 & ->)|(Hf & ->)].
    - left. exists x. split; auto. rewrite combine_fst in X1 by lia. split; auto.
    - right. rewrite combine_fst in Hf by lia. split; auto. cbn [rbind].
      eexists _, _, sp, d. split; [reflexivity|]. cbn [fst snd poseidon2].
      split. { f_equal. f_equal. lia. }
      split; auto. split; auto. cbv zeta. rewrite <- Eh. split; auto.
      destruct (puts_same (combine out (hash_to_bytes h)) s) as (Ep & Er & Ec & Ed).
      split. { intros k b Hk. replace out with (addr_range (reg s REG_A3) (length (hash_to_bytes h))) by (rewrite LD; reflexivity).
               apply (puts_range s (reg s REG_A3) (hash_to_bytes h) k b); auto. lia. }
      split. { intros x Hx. change (load_u8 (puts s (combine out (hash_to_bytes h))) x = load_u8 s x).
               apply puts_load_notin. rewrite combine_fst by lia. auto. }
      revert Ep Er Ec Ed. generalize (puts s (combine out (hash_to_bytes h))). intros s1 Ep Er Ec Ed. cbn.
      split; [auto|]. split; [rewrite Ep; reflexivity|]. split; [rewrite Ec; reflexivity|]. exact Ed.
  Qed.
  Lemma poseidon_aborts s p : state_ok s -> ro_code p !! pc s = Some (inl ECALL_INST) -> reg s REG_A0 = 3 ->
    reg s REG_A2 = 0 \/ reg s REG_A2 mod 8 <> 0 \/ reg s REG_A1 + reg s REG_A2 > 4294967296 ->
    exists q, exec1 s p = Panic q.
  Proof.
    intros OK E A0 H. rewrite (ecall_exec s p OK E), ecall_cases, A0 by auto. cbn [Z.eqb Pos.eqb].
    assert (R1 : is_reg REG_A1) by (unfold is_reg, REG_A1; lia).
    assert (R2 : is_reg REG_A2) by (unfold is_reg, REG_A2; lia).
    assert (R3 : is_reg REG_A3) by (unfold is_reg, REG_A3; lia).
    unfold ecall_poseidon2. rewrite !get_reg_ok by auto. cbn [rbind].
    destruct (reg_u32 s REG_A2 OK R2) as [Hb _].
    destruct (_ && _) eqn:C; [cbn; eauto|]. fold (message s).
    assert (LM : length (message s) = Z.to_nat (reg s REG_A2)) by (unfold message; rewrite map_length, seq_length; auto).
    rewrite hash_panics; [cbn; eauto|]. destruct H as [H|[H|H]].
    - left. apply length_zero_iff_nil. lia.
    - right. lia.
    - destruct (reg_u32 s REG_A1 OK R1) as [Hb1 Hb2]. destruct (reg_u32 s REG_A2 OK R2) as [Hc1 Hc2].
      apply andb_false_iff in C as [C|C]; apply Z.ltb_ge in C; unfold u32 in *; lia.
  Qed.
End Env.
