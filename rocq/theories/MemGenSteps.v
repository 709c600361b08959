(** What each executed step contributes to the memory table. *)
From Verif Require Import MemGenModel MemGenProofs StateSpec DeviceSpec DeviceProofs TableProofs CpuTrace StateProofs StateWitness WordProofs StepProofs ExecProofs EcallProofs RunProofs CpuProofs CpuComplete CpuGen WordProps PoseidonSpec PoseidonPerm PoseidonGen PoseidonLook DeviceProps.
Open Scope Z_scope.

Definition load_size (o : op) : option nat := match o with LB | LBU => Some 1%nat | LH | LHU => Some 2%nat | LW => Some 4%nat | _ => None end.
Definition store_size (o : op) : option nat := match o with SB => Some 1%nat | SH => Some 2%nat | SW => Some 4%nat | _ => None end.
(** rows of loads and stores *)
Definition step_mem (x : state * instruction * aux) : list memrow :=
  let '(s, i, a) := x in
  match mem_of_step x with Some r => [r] | None => [] end
  ++ (if is_half_op (iop i) then mem_of_word (gen_half_row s i a) else []) ++ (if is_full_op (iop i) then mem_of_word (gen_full_row s i a) else []).
Definition acc_addr (s : state) (i : instruction) : Z := wadd (reg s (rs2 (iargs i))) (imm (iargs i)).
Definition loaded (s : state) (x : Z) : memrow := mkMemRow 0 x (clk s mod P) 0 1 0 (load_u8 s x).
Definition stored (s : state) (xb : Z * Z) : memrow := mkMemRow 0 (fst xb) (clk s mod P) 1 0 0 (snd xb).

Section Steps.
Variable permute : list Z -> list Z.
Hypothesis permute12 : forall l, state12 (permute l).
Variable utf8_ok : list Z -> bool.
Notation exec1 := (execute_instruction permute utf8_ok).

Lemma wadd0 a : u32 a -> wadd a (Z.of_nat 0) = a.
Proof. unfold wadd, wrap32, u32. intros. rewrite Z.mod_small; lia. Qed.
Lemma bump_mem s : smem (bump_clock (bump_pc s)) = smem s. Proof. reflexivity. Qed.
Lemma load_effect s p a i s' n : state_ok s -> program_ok p -> exec1 s p = Ok (a, i, s') -> load_size (iop i) = Some n ->
  smem s' = smem s /\ mem_addresses_used a = addr_range (acc_addr s i) n /\ step_mem (s, i, a) = map (loaded s) (addr_range (acc_addr s i) n).
Proof.
  intros OK PO X L. destruct (execute_inv _ _ _ _ _ _ _ OK PO X) as (_ & IO & a0 & s0 & D & _ & -> & _ & E). pose proof IO as (H0 & H1 & H2 & HI).
  set (addr := acc_addr s i). assert (UA : u32 addr) by apply wrap32_u32. pose proof (load_u8_range s 4 OK addr) as F4. cbn [addr_range seq map] in F4. rewrite wadd0 in F4 by exact UA.
  apply Forall_cons_iff in F4 as [B0 F4]. apply Forall_cons_iff in F4 as [B1 F4]. apply Forall_cons_iff in F4 as [B2 F4]. apply Forall_cons_iff in F4 as [B3 _].
  unfold dispatch in D. destruct (iop i) eqn:O; try discriminate L; injection L as <-; unfold memory_load in D; rewrite get_reg_ok in D by auto; cbn [rbind] in D; cbv zeta in D; fold (acc_addr s i) in D; fold addr in D;
    cbn [lb lbu lh lhu lw] in D; rewrite set_reg_ok in D by auto; cbn [rbind] in D; injection D as <- <-; subst a; unfold bump_pc, set_pc; cbn [smem upd_pc bump_clock upd_clk];
    (split; [match goal with |- context [wreg ?a ?b ?c] => destruct (wreg_fields a b c) as (_ & -> & _) end; reflexivity|]); (split; [reflexivity|]);
    unfold step_mem, mem_of_step, is_half_op, is_full_op; rewrite O; cbn [amem me_addr me_raw_value app]; unfold loaded, mem_of_word, w_executed, gen_half_row, gen_full_row, aux_addr; rewrite ?O; cbn [w_load w_store w_addrs w_limbs w_clk amem me_addr dst_val b2z].
  - rewrite ?app_nil_r. unfold lbu_raw. cbn [addr_range seq map nth]. rewrite wadd0 by exact UA. reflexivity.
  - rewrite ?app_nil_r. change ((1 + 0) mod P =? 0) with false. cbv iota. cbn [combine map addr_range seq]. unfold lhu_raw. cbn [nth]. rewrite wadd0 by exact UA. change (wadd addr (Z.of_nat 1)) with (wadd addr 1) in *.
    set (x := load_u8 s addr) in *. set (y := load_u8 s (wadd addr 1)) in *. clearbody x y. clear -B0 B1. rewrite !land255, Z.shiftr_div_pow2 by lia. change (2 ^ 8) with 256. unfold u8 in *.
    assert (G : exists k, wrap32 (as_i16 (x + 256 * y)) = x + 256 * y + 65536 * k). { unfold wrap32, as_i16. destruct (_ <? _); [exists 0; lia|exists 65535; lia]. }
    destruct G as [k ->]. repeat f_equal; lia.
  - change ((1 + 0) mod P =? 0) with false. cbv iota. cbn [map addr_range seq nth]. rewrite wadd0 by exact UA. rewrite sb_le by assumption. reflexivity.
  - rewrite ?app_nil_r. unfold lbu_raw. cbn [addr_range seq map nth]. rewrite wadd0 by exact UA. reflexivity.
  - rewrite ?app_nil_r. change ((1 + 0) mod P =? 0) with false. cbv iota. cbn [combine map addr_range seq]. unfold lhu_raw. cbn [nth]. rewrite wadd0 by exact UA. change (wadd addr (Z.of_nat 1)) with (wadd addr 1) in *.
    set (x := load_u8 s addr) in *. set (y := load_u8 s (wadd addr 1)) in *. clearbody x y. clear -B0 B1. rewrite !land255, Z.shiftr_div_pow2 by lia. change (2 ^ 8) with 256. unfold u8 in *. repeat f_equal; lia.
Qed.
Lemma combine_short {A B} (l : list A) : forall (m : list B), combine l m = combine l (take (length l) m).
Proof. induction l as [|x l IH]; intros [|y m]; cbn; auto. f_equal. apply IH. Qed.
Lemma store_effect s p a i s' n : state_ok s -> program_ok p -> exec1 s p = Ok (a, i, s') -> store_size (iop i) = Some n ->
  exists bytes, length bytes = n /\ Forall u8 bytes /\ smem s' = smem (puts s (combine (addr_range (acc_addr s i) n) bytes)) /\
    Forall (fun x => x ∉ is_read_only (smem s)) (addr_range (acc_addr s i) n) /\
    mem_addresses_used a = addr_range (acc_addr s i) n /\ step_mem (s, i, a) = map (stored s) (combine (addr_range (acc_addr s i) n) bytes).
Proof.
  intros OK PO X L. destruct (execute_inv _ _ _ _ _ _ _ OK PO X) as (_ & IO & a0 & s0 & D & _ & -> & _ & E). pose proof IO as (H0 & H1 & H2 & HI).
  set (addr := acc_addr s i). assert (UA : u32 addr) by apply wrap32_u32. pose proof (reg_u32 s _ OK H1) as U1.
  assert (D' : store s (iargs i) n = Ok (a0, s0)) by (unfold dispatch in D; destruct (iop i); try discriminate L; injection L as <-; exact D).
  unfold store in D'. rewrite !get_reg_ok in D' by auto. cbn [rbind] in D'. fold (acc_addr s i) in D'. fold addr in D'. set (raw := Z.land _ _) in D'.
  exists (take n (to_le_bytes32 raw)). assert (LN : (n <= 4)%nat) by (destruct (iop i); try discriminate L; injection L as <-; lia).
  assert (LB : length (take n (to_le_bytes32 raw)) = n) by (rewrite take_length; cbn [length to_le_bytes32]; lia).
  rewrite (combine_short (addr_range addr n)), addr_range_length in D'. destruct (store_bytes_spec (combine (addr_range addr n) (take n (to_le_bytes32 raw))) s) as [(q & _ & _ & Q)|[RO Q]]; rewrite Q in D'; cbn [rbind] in D'; [discriminate D'|].
  rewrite combine_fst in RO by (rewrite addr_range_length; auto). injection D' as <- <-. split; [exact LB|]. split; [apply Forall_take, to_le_u8|]. split; [reflexivity|]. split; [exact RO|]. split; [subst a; reflexivity|].
  unfold step_mem, mem_of_step, is_half_op, is_full_op. subst a. cbn [amem]. unfold raw. clear D Q RO LB raw X.
  destruct (iop i) eqn:O; try discriminate L; injection L as <-; cbn [me_addr me_raw_value]; unfold mem_of_word, w_executed, gen_half_row, gen_full_row, aux_addr, stored; rewrite ?O; cbn [w_load w_store w_addrs w_limbs w_clk amem me_addr dst_val b2z app].
  - cbn [to_le_bytes32 take combine map addr_range seq fst snd]. rewrite wadd0 by exact UA. change (Z.shiftr 4294967295 (32 - 8 * Z.of_nat 1)) with 255. rewrite land255. rewrite Zmod_mod. reflexivity.
  - change ((0 + 1) mod P =? 0) with false. cbv iota. rewrite raw_half by exact U1. cbn [to_le_bytes32 take combine map addr_range seq fst snd]. rewrite app_nil_r, wadd0 by exact UA. change (wadd addr (Z.of_nat 1)) with (wadd addr 1). rewrite !land255, Z.shiftr_div_pow2 by lia. reflexivity.
  - change ((0 + 1) mod P =? 0) with false. cbv iota. rewrite raw_full by exact U1. reflexivity.
Qed.
Lemma puts_smem l : forall s s0, smem s0 = smem s -> smem (puts s0 l) = smem (puts s l).
Proof. induction l as [|[x b] l IH]; intros s s0 E; cbn [puts]; [exact E|]. apply IH. unfold put. cbn. rewrite E. reflexivity. Qed.
Lemma amem_none s p a i s' : state_ok s -> program_ok p -> exec1 s p = Ok (a, i, s') -> load_size (iop i) = None -> store_size (iop i) = None -> step_mem (s, i, a) = [].
Proof.
  intros OK PO X L S. unfold step_mem, mem_of_step, is_half_op, is_full_op. destruct (amem a); destruct (iop i); try discriminate L; try discriminate S; reflexivity.
Qed.
Lemma other_effect s p a i s' : state_ok s -> program_ok p -> exec1 s p = Ok (a, i, s') -> load_size (iop i) = None -> store_size (iop i) = None -> iop i <> ECALL ->
  smem s' = smem s /\ mem_addresses_used a = [].
Proof.
  intros OK PO X L S NE. destruct (execute_inv _ _ _ _ _ _ _ OK PO X) as (_ & (H0 & H1 & H2 & HI) & a0 & s0 & D & _ & -> & _ & EA). change (smem s0 = smem s /\ mem_addresses_used a = []).
  assert (EU : mem_addresses_used a = mem_addresses_used a0) by (rewrite EA; reflexivity). rewrite EU. clear EA EU X.
  unfold dispatch in D. destruct (iop i) eqn:OP; try discriminate L; try discriminate S; try congruence;
    try (unfold register_op in D; rewrite !get_reg_ok in D by auto; cbn [rbind] in D; rewrite set_reg_ok in D by auto; cbn [rbind] in D; injection D as <- <-; split; [|reflexivity]; match goal with |- context [wreg ?a ?b ?c] => exact (proj1 (proj2 (wreg_fields a b c))) end);
    try (unfold branch_op in D; rewrite !get_reg_ok in D by auto; cbn [rbind] in D; injection D as <- <-; (split; [|reflexivity]); match goal with |- smem (if ?b then _ else _) = _ => destruct b; reflexivity end).
  unfold jalr in D; rewrite !get_reg_ok in D by auto; cbn [rbind] in D. destruct (set_reg _ _ _) as [s1| |] eqn:SR; cbn [rbind] in D; try discriminate D. injection D as <- <-. split; [|reflexivity].
  unfold set_reg in SR. destruct (_ =? 0); [injection SR as <-; reflexivity|]. destruct (_ <? _)%nat; [|discriminate SR]. injection SR as <-. reflexivity.
Qed.
(** environment calls *)
Definition called (s : state) (i : instruction) : option Z := if bool_decide (iop i = ECALL) then Some (reg s REG_A0) else None.
Lemma fetch_mem s o n data s0 : fetch_ok s o n data s0 -> smem s0 = smem s.
Proof. intros []. assumption. Qed.
Lemma ecall_effect s p a i s' : state_ok s -> program_ok p -> exec1 s p = Ok (a, i, s') -> iop i = ECALL ->
  match read_call (reg s REG_A0) with
  | Some o => let data := take (Z.to_nat (reg s REG_A2)) (available o s) in let used := addr_range (reg s REG_A1) (length data) in
      smem s' = smem (puts s (combine used data)) /\ Forall (fun x => x ∉ is_read_only (smem s)) used /\ mem_addresses_used a = used
  | None =>
      if reg s REG_A0 =? 3 then
        exists hash sp, hash_n_to_m_no_pad permute (message s) = Ok (hash, sp) /\ length (hash_to_bytes hash) = 32%nat /\
          smem s' = smem (puts s (combine (addr_range (reg s REG_A3) 32) (hash_to_bytes hash))) /\
          Forall (fun x => x ∉ is_read_only (smem s)) (addr_range (reg s REG_A3) 32) /\
          mem_addresses_used a = addr_range (reg s REG_A1) (Z.to_nat (reg s REG_A2)) ++ addr_range (reg s REG_A3) 32
      else smem s' = smem s /\ mem_addresses_used a = []
  end.
Proof.
  intros OK PO X Q. pose proof (entry_read permute utf8_ok p s i a PO (conj OK (ex_intro _ s' X))) as ER. rewrite Q, bool_decide_eq_true_2 in ER by reflexivity.
  destruct (execute_inv _ _ _ _ _ _ _ OK PO X) as (_ & IO & a0 & s0 & D & _ & -> & _ & E). unfold dispatch in D. rewrite Q in D. rewrite ecall_cases in D by auto. cbv zeta in D. change (smem (bump_clock s0)) with (smem s0).
  assert (EA : mem_addresses_used a = mem_addresses_used a0) by (rewrite E; reflexivity). rewrite EA.
  assert (ES : storage_device_entry a = storage_device_entry a0) by (rewrite E; reflexivity). rewrite ES in ER. clear E EA ES X.
  destruct (Z.eqb_spec (reg s REG_A0) 0) as [E0|N0]. { injection D as <- <-. rewrite E0. split; reflexivity. }
  unfold read_call in *.
  repeat match type of D with (if reg s REG_A0 =? ?k then ecall_read _ ?o else _) = _ =>
      destruct (Z.eqb_spec (reg s REG_A0) k) as [E0|]; [destruct (ecall_read_frame s o OK ltac:(discriminate)) as [(x & Y)|(data & s1 & EF & FO & Y & RO & _)]; rewrite D in Y; [discriminate Y|]; injection Y as -> ->;
        rewrite ?E0 in *; cbn [Z.eqb Pos.eqb storage_device_entry] in ER; injection ER as ->; split; [|split; [exact RO|reflexivity]];
        cbn [smem bump_pc set_pc upd_pc]; apply puts_smem, (fetch_mem _ _ _ _ _ FO)|] end.
  destruct (Z.eqb_spec (reg s REG_A0) 1); [destruct (ecall_panic_not_ok _ _ _ D)|].
  destruct (Z.eqb_spec (reg s REG_A0) 3) as [E0|N3].
  - destruct (ecall_poseidon2_frame permute s OK) as [(q & Y)|(h & sp & EH & LH & Y & _ & RO)]; rewrite D in Y; [discriminate Y|]. injection Y as -> ->. fold (message s) in EH. exists h, sp. split; [exact EH|]. split; [exact LH|]. split; [reflexivity|]. split; [exact RO|reflexivity].
  - destruct (_ =? 10); [apply ecall_trace_log_ok in D as [-> ->]; split; reflexivity|injection D as <- <-; split; reflexivity].
Qed.
(** ** All accesses of a step *)
Inductive contributes (s : state) (i : instruction) (a : aux) (r : memrow) : Prop :=
| ct_word : In r (step_mem (s, i, a)) -> contributes s i a r
| ct_tape o k b : iop i = ECALL -> read_call (reg s REG_A0) = Some o -> take (Z.to_nat (reg s REG_A2)) (available o s) !! k = Some b ->
    r = stored s (wadd (reg s REG_A1) (Z.of_nat k), b) -> contributes s i a r
| ct_message k b : iop i = ECALL -> reg s REG_A0 = 3 -> message s !! k = Some b -> r = mkMemRow 0 (reg s REG_A1 + Z.of_nat k) (clk s mod P) 0 1 0 b -> contributes s i a r
| ct_digest d k b : iop i = ECALL -> reg s REG_A0 = 3 -> is_digest permute (message s) d -> d !! k = Some b -> r = stored s (reg s REG_A3 + Z.of_nat k, b) -> contributes s i a r.
(** only loads, only stores, or a hash call *)
Inductive kind := KNone | KLoad | KStore | KHash.
Definition kind_of (s : state) (i : instruction) : kind :=
  match load_size (iop i), store_size (iop i) with
  | Some _, _ => KLoad | _, Some _ => KStore
  | None, None => if bool_decide (iop i = ECALL) then match read_call (reg s REG_A0) with Some _ => KStore | None => if reg s REG_A0 =? 3 then KHash else KNone end else KNone
  end.
Definition fits (s : state) (i : instruction) : Prop := iop i = ECALL -> reg s REG_A0 = 3 -> reg s REG_A3 + 32 <= 2 ^ 32.
Lemma puts_combine s la lb k x b : length la = length lb -> NoDup la -> la !! k = Some x -> lb !! k = Some b -> load_u8 (puts s (combine la lb)) x = b.
Proof. intros L N E1 E2. apply (puts_load_in _ s k); [|apply combine_lookup; auto]. rewrite combine_fst; auto. Qed.
Lemma smem_load s s' x : smem s' = smem s -> load_u8 s' x = load_u8 s x.
Proof. unfold load_u8. intros ->. reflexivity. Qed.
Lemma digest_eq s h sp d : hash_n_to_m_no_pad permute (message s) = Ok (h, sp) -> is_digest permute (message s) d <-> d = hash_to_bytes h.
Proof.
  intros EH. destruct (hash_spec permute utf8_ok _ _ _ EH) as (SC & Eh & Hne). split.
  - intros (sp' & d' & SC' & L & ->). rewrite (sponge_unique _ _ _ _ SC SC') in *. rewrite L in Eh. subst h. reflexivity.
  - intros ->. destruct (stdpp.list.last sp) as [q|] eqn:L; [|apply last_None in L; congruence]. exists sp, q. subst h. auto.
Qed.
Lemma in_combine_lookup {A B} (la : list A) : forall (lb : list B) x y, In (x, y) (combine la lb) -> exists k, la !! k = Some x /\ lb !! k = Some y.
Proof.
  induction la as [|a la IH]; intros [|b lb] x y I; try destruct I as [].
  - injection H as <- <-. exists 0%nat. auto.
  - destruct (IH lb x y H) as (k & E). exists (S k). exact E.
Qed.
Lemma small_nodup a n : (n <= 4)%nat -> NoDup (addr_range a n).
Proof. intros. apply addr_range_nodup. lia. Qed.
Lemma wadd_word a k : wadd a k = word (a + k). Proof. reflexivity. Qed.
Lemma contributes_ok s p a i s' r : state_ok s -> program_ok p -> exec1 s p = Ok (a, i, s') -> fits s i -> contributes s i a r ->
  m_init r = 0 /\ m_clk r = clk s mod P /\ In (m_addr r) (mem_addresses_used a) /\ u32 (m_addr r) /\ u8 (m_value r) /\
  ((m_load r = 1 /\ m_store r = 0 /\ m_value r = load_u8 s (m_addr r) /\ (kind_of s i = KLoad \/ kind_of s i = KHash)) \/
   (m_store r = 1 /\ m_load r = 0 /\ m_value r = load_u8 s' (m_addr r) /\ m_addr r ∉ is_read_only (smem s) /\ (kind_of s i = KStore \/ kind_of s i = KHash))).
Proof.
  intros OK PO X FT C. assert (R1 : is_reg REG_A1) by (unfold is_reg, REG_A1; lia). assert (R2 : is_reg REG_A2) by (unfold is_reg, REG_A2; lia). assert (R3 : is_reg REG_A3) by (unfold is_reg, REG_A3; lia).
  destruct C as [I|o k b Q RC E ->|k b Q A0 E ->|d k b Q A0 DG E ->].
  - destruct (load_size (iop i)) as [n|] eqn:L; [|destruct (store_size (iop i)) as [n|] eqn:S].
    + destruct (load_effect s p a i s' n OK PO X L) as (_ & EU & ER). rewrite ER in I. apply in_map_iff in I as (x & <- & I). cbn. rewrite EU. split; [reflexivity|]. split; [reflexivity|]. split; [exact I|]. split; [pose proof (addr_range_u32 (acc_addr s i) n) as F; rewrite List.Forall_forall in F; apply F, I|].
      split; [apply load_u8_u8, OK|]. left. repeat split; auto. left. unfold kind_of. rewrite L. reflexivity.
    + destruct (store_effect s p a i s' n OK PO X S) as (bytes & LB & UB & EM & RO & EU & ER). rewrite ER in I. apply in_map_iff in I as ([x b] & <- & I). apply in_combine_lookup in I as (k & E1 & E2). cbn. rewrite EU.
      split; [reflexivity|]. split; [reflexivity|]. pose proof (elem_of_list_lookup_2 _ _ _ E1) as Ix. split; [apply elem_of_list_In, Ix|]. split; [pose proof (addr_range_u32 (acc_addr s i) n) as F; rewrite List.Forall_forall in F; apply F, elem_of_list_In, Ix|].
      split; [rewrite List.Forall_forall in UB; apply UB; apply elem_of_list_In, (elem_of_list_lookup_2 _ _ _ E2)|]. right. split; [reflexivity|]. split; [reflexivity|]. split; [|split; [rewrite List.Forall_forall in RO; apply RO, elem_of_list_In, Ix|left; unfold kind_of; rewrite L, S; reflexivity]].
      rewrite (smem_load _ _ x EM). symmetry. apply (puts_combine s _ _ k); auto; [rewrite addr_range_length; auto|]. apply small_nodup. clear -S. destruct (iop i); try discriminate S; injection S as <-; lia.
    + rewrite (amem_none s p a i s' OK PO X L S) in I. destruct I.
  - pose proof (ecall_effect s p a i s' OK PO X Q) as EE. rewrite RC in EE. cbv zeta in EE. destruct EE as (EM & RO & EU). cbn. rewrite EU. pose proof (lookup_lt_Some _ _ _ E) as Lk. pose proof (data_bound s o OK) as DB.
    set (data := take _ (available o s)) in *. assert (E1 : addr_range (reg s REG_A1) (length data) !! k = Some (wadd (reg s REG_A1) (Z.of_nat k))) by (apply addr_range_nth; exact Lk). pose proof (elem_of_list_lookup_2 _ _ _ E1) as Ix.
    split; [reflexivity|]. split; [reflexivity|]. split; [apply elem_of_list_In, Ix|]. split; [apply wrap32_u32|].
    split; [pose proof (available_u8 s o OK) as F; apply (Forall_take _ (Z.to_nat (reg s REG_A2))) in F; fold data in F; rewrite List.Forall_forall in F; apply F, elem_of_list_In, (elem_of_list_lookup_2 _ _ _ E)|].
    right. split; [reflexivity|]. split; [reflexivity|]. split; [|split; [rewrite List.Forall_forall in RO; apply RO, elem_of_list_In, Ix|left; unfold kind_of; rewrite Q; cbn; rewrite RC; reflexivity]].
    rewrite (smem_load _ _ _ EM). symmetry. apply (puts_combine s _ _ k); auto; [rewrite addr_range_length; auto|]. apply addr_range_nodup. lia.
  - pose proof (ecall_effect s p a i s' OK PO X Q) as EE. rewrite A0 in EE. change (read_call 3) with (@None sd_op) in EE. change (3 =? 3) with true in EE. cbv iota in EE. destruct EE as (h & sp & EH & LH & EM & RO & EU).
    pose proof (entry_hash permute permute12 utf8_ok p s i a PO (conj OK (ex_intro _ s' X))) as EN. unfold hash_call in EN. rewrite Q, A0 in EN. cbn [bool_decide_eq_true andb] in EN. rewrite bool_decide_eq_true_2 in EN by reflexivity. cbn [andb Z.eqb Pos.eqb] in EN.
    destruct (p2_entry_of (s, i, a)) as [y|]; [|destruct EN]. destruct EN as (_ & U1 & _ & _ & B & _). pose proof (lookup_lt_Some _ _ _ E) as Lk.
    assert (LM : length (message s) = Z.to_nat (reg s REG_A2)) by (unfold message; rewrite map_length, seq_length; reflexivity).
    assert (EA : reg s REG_A1 + Z.of_nat k = wadd (reg s REG_A1) (Z.of_nat k)) by (unfold wadd, wrap32, u32 in *; rewrite Z.mod_small; lia).
    assert (Eb : b = load_u8 s (reg s REG_A1 + Z.of_nat k)).
    { unfold message in E. rewrite map_lookup, lookup_seq_lt in E by lia. cbn in E. injection E as <-. reflexivity. }
    cbn. rewrite EU, EA. split; [reflexivity|]. split; [reflexivity|]. split; [apply in_or_app; left; apply elem_of_list_In, (elem_of_list_lookup_2 _ k), addr_range_nth; lia|]. split; [apply wrap32_u32|].
    split; [rewrite Eb; apply load_u8_u8, OK|]. left. split; [reflexivity|]. split; [reflexivity|]. split; [rewrite <- EA; exact Eb|right]. unfold kind_of. rewrite Q, A0. reflexivity.
  - pose proof (ecall_effect s p a i s' OK PO X Q) as EE. rewrite A0 in EE. change (read_call 3) with (@None sd_op) in EE. change (3 =? 3) with true in EE. cbv iota in EE. destruct EE as (h & sp & EH & LH & EM & RO & EU). apply (digest_eq s h sp d EH) in DG. subst d. pose proof (lookup_lt_Some _ _ _ E) as Lk. rewrite LH in Lk.
    specialize (FT Q A0). pose proof (reg_u32 s REG_A3 OK R3) as U3. assert (EA : reg s REG_A3 + Z.of_nat k = wadd (reg s REG_A3) (Z.of_nat k)) by (unfold wadd, wrap32, u32 in *; rewrite Z.mod_small; lia).
    cbn [stored fst snd m_init m_clk m_addr m_value m_load m_store]. rewrite EU, EA. assert (E1 : addr_range (reg s REG_A3) 32 !! k = Some (wadd (reg s REG_A3) (Z.of_nat k))) by (apply addr_range_nth; exact Lk). pose proof (elem_of_list_lookup_2 _ _ _ E1) as Ix.
    split; [reflexivity|]. split; [reflexivity|]. split; [apply in_or_app; right; apply elem_of_list_In, Ix|]. split; [apply wrap32_u32|].
    split; [pose proof (hash_to_bytes_u8 h) as F; rewrite List.Forall_forall in F; apply F, elem_of_list_In, (elem_of_list_lookup_2 _ _ _ E)|].
    right. split; [reflexivity|]. split; [reflexivity|]. split; [|split; [rewrite List.Forall_forall in RO; apply RO, elem_of_list_In, Ix|right; unfold kind_of; rewrite Q, A0; reflexivity]].
    rewrite (smem_load _ _ _ EM). symmetry. apply (puts_combine s (addr_range (reg s REG_A3) 32) (hash_to_bytes h) k); [rewrite addr_range_length, LH; reflexivity|apply addr_range_nodup; lia|exact E1|exact E].
Qed.
(** a step changes memory only where it has a store *)
Lemma changes_stored s p a i s' x : state_ok s -> program_ok p -> exec1 s p = Ok (a, i, s') -> fits s i -> load_u8 s' x <> load_u8 s x ->
  exists r, contributes s i a r /\ m_store r = 1 /\ m_addr r = x.
Proof.
  intros OK PO X FT N. assert (R3 : is_reg REG_A3) by (unfold is_reg, REG_A3; lia).
  assert (G : forall la lb, length la = length lb -> smem s' = smem (puts s (combine la lb)) -> exists k b, la !! k = Some x /\ lb !! k = Some b).
  { intros la lb L EM. destruct (decide (x ∈ la)) as [I|NI].
    - apply elem_of_list_lookup in I as [k E]. assert (Lk : (k < length lb)%nat) by (rewrite <- L; apply lookup_lt_Some in E; exact E). apply lookup_lt_is_Some in Lk as [b Eb]. eauto.
    - exfalso. apply N. rewrite (smem_load _ _ x EM). apply puts_load_notin. rewrite combine_fst by exact L. exact NI. }
  destruct (load_size (iop i)) as [n|] eqn:L; [|destruct (store_size (iop i)) as [n|] eqn:S].
  - destruct (load_effect s p a i s' n OK PO X L) as (EM & _). exfalso. apply N, smem_load, EM.
  - destruct (store_effect s p a i s' n OK PO X S) as (bytes & LB & UB & EM & RO & EU & ER). destruct (G (addr_range (acc_addr s i) n) bytes ltac:(rewrite addr_range_length; auto) EM) as (k & b & E1 & E2).
    exists (stored s (x, b)). split; [|auto]. apply ct_word. rewrite ER. apply in_map. apply elem_of_list_In, (elem_of_list_lookup_2 _ k). apply combine_lookup; assumption.
  - destruct (decide (iop i = ECALL)) as [Q|Q]; [|exfalso; apply N, smem_load; exact (proj1 (other_effect s p a i s' OK PO X L S Q))].
    pose proof (ecall_effect s p a i s' OK PO X Q) as EE. destruct (read_call (reg s REG_A0)) as [o|] eqn:RC.
    + cbv zeta in EE. destruct EE as (EM & _). destruct (G _ _ ltac:(rewrite addr_range_length; auto) EM) as (k & b & E1 & E2).
      rewrite addr_range_nth in E1 by (apply lookup_lt_Some in E2; exact E2). injection E1 as E1. exists (stored s (x, b)). split; [|auto]. eapply (ct_tape _ _ _ _ o k b); eauto. rewrite wadd_word, E1. reflexivity.
    + destruct (Z.eqb_spec (reg s REG_A0) 3) as [A0|A0]; [|exfalso; apply N, smem_load, (proj1 EE)]. destruct EE as (h & sp & EH & LH & EM & _). destruct (G (addr_range (reg s REG_A3) 32) (hash_to_bytes h) ltac:(rewrite addr_range_length; auto) EM) as (k & b & E1 & E2).
      pose proof (lookup_lt_Some _ _ _ E2) as Lk. rewrite LH in Lk. rewrite addr_range_nth in E1 by exact Lk. injection E1 as E1. exists (stored s (x, b)). split; [|auto]. eapply (ct_digest _ _ _ _ (hash_to_bytes h) k b); eauto; [apply (digest_eq s h sp _ EH); reflexivity|].
      f_equal. f_equal. rewrite <- E1. specialize (FT Q A0). pose proof (reg_u32 s REG_A3 OK R3) as U3. unfold word, M32, u32 in *. rewrite Z.mod_small; lia.
Qed.
Lemma used_u32 s p a i s' : state_ok s -> program_ok p -> exec1 s p = Ok (a, i, s') -> Forall u32 (mem_addresses_used a).
Proof.
  intros OK PO X. destruct (load_size (iop i)) as [n|] eqn:L; [|destruct (store_size (iop i)) as [n|] eqn:S].
  - destruct (load_effect s p a i s' n OK PO X L) as (_ & -> & _). apply addr_range_u32.
  - destruct (store_effect s p a i s' n OK PO X S) as (bytes & _ & _ & _ & _ & -> & _). apply addr_range_u32.
  - destruct (decide (iop i = ECALL)) as [Q|Q]; [|rewrite (proj2 (other_effect s p a i s' OK PO X L S Q)); constructor].
    pose proof (ecall_effect s p a i s' OK PO X Q) as EE. destruct (read_call (reg s REG_A0)) as [o|]; [destruct EE as (_ & _ & ->); apply addr_range_u32|].
    destruct (reg s REG_A0 =? 3); [destruct EE as (h & sp & _ & _ & _ & _ & ->); apply List.Forall_app; split; apply addr_range_u32|destruct EE as (_ & ->); constructor].
Qed.
End Steps.
