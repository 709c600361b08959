(** Properties C32, C33 and C36 of the circuits crate: program ROM, half- and full-word memory, loads and stores. *)
From Verif Require Import RunSpec StateSpec TableProofs CpuArith CpuProofs CpuSound CpuWitness CpuComplete CpuGen CpuTrace CpuMem StateProofs WordProofs RomProofs StateWitness ExecProofs StepProofs RunProofs RunnerProps CircuitProps.
Import RvSpec.
Open Scope Z_scope.
Ltac Zify.zify_post_hook ::= Z.div_mod_to_equations.

Lemma all_osel_nodup : List.NoDup all_osel.
Proof. apply NoDup_ListNoDup. apply (bool_decide_eq_true_1 (NoDup all_osel)). vm_compute. reflexivity. Qed.

Lemma sumZ_nonneg l : Forall (fun x => 0 <= x) l -> 0 <= sumZ l.
Proof. induction 1; [reflexivity|rewrite sumZ_cons; lia]. Qed.
Lemma sumZ_ge l x : Forall (fun x => 0 <= x) l -> In x l -> x <= sumZ l.
Proof.
  induction l as [|y l IH]; intros F I; [destruct I|]. rewrite sumZ_cons. apply Forall_inv_tail in F as F'. apply Forall_inv in F. pose proof (sumZ_nonneg l F').
  destruct I as [->|I]; [lia|]. specialize (IH F' I). lia.
Qed.

(** * C32 Program ROM *)
(** Two decoded instructions with the same packed word agree in registers, immediate, selector and operand signedness;
    hence they are the same instruction, unless they are a signed and an unsigned load of the same width ... *)
Theorem C32_rom_injective_partial : forall a i a' j, inst_fields_ok i -> inst_fields_ok j ->
  feq (inst_data (inst_cols a i)) (inst_data (inst_cols a' j)) ->
  iargs i = iargs j /\ (iop i = iop j \/ In (iop i, iop j) [(LB, LBU); (LBU, LB); (LH, LHU); (LHU, LH)]).
Proof.
  intros a i a' j Oi Oj E. destruct (inst_data_inj a i a' j Oi Oj E) as (E1 & E2 & E3 & E4). split; [exact E1|].
  clear E E1 Oi Oj. revert E2 E3 E4. generalize (iop i) (iop j). clear. intros o o'. destruct o, o'; cbn; try discriminate; auto 6.
Qed.
(** ... which do have the same packed word. *)
Theorem C32_lb_lbu_refuted : forall a x, inst_data (inst_cols a (mkInst LB x)) = inst_data (inst_cols a (mkInst LBU x)) /\
  inst_data (inst_cols a (mkInst LH x)) = inst_data (inst_cols a (mkInst LHU x)).
Proof. intros a x. split; reflexivity. Qed.
Lemma rom_fetch looking mults rom x y : ctl_ok looking (mult_cpu_looked mults) -> ctl_ok (mult_rom_looking mults) (rom_looked rom) ->
  Forall (fun e => bit (snd e)) looking -> Z.of_nat (length looking) < P -> Z.of_nat (length mults) < P -> In ([x; y], 1) looking ->
  exists q, In q rom /\ feq (ro_pc q) x /\ feq (ro_data q) y.
Proof.
  intros C1 C2 B L1 L2 I. destruct (ctl_member _ _ [x; y] C1 B L1 I) as (t & m & It & K & _).
  apply in_map_iff in It as (q & E & J). injection E as <- _.
  destruct (ctl_member _ _ [mu_pc q; mu_data q] C2) as (t' & m' & It' & K' & _).
  - apply Forall_forall; intros e J'. apply in_map_iff in J' as (q' & <- & J'). right. reflexivity.
  - unfold mult_rom_looking. rewrite map_length. exact L2.
  - apply in_map_iff. exists q. auto.
  - apply in_map_iff in It' as (q' & E & J'). injection E as <- _. exists q'. split; [exact J'|]. rewrite K in K'. injection K' as E1 E2. split; [exact E1|exact E2].
Qed.
#[local] Opaque inst_data all_osel.
(** Every running CPU row carries the packed word the ROM holds at its pc ... *)
Theorem C32_fetch : forall cpus adds blts mults rom r, rom_system cpus adds blts mults rom -> In r cpus -> (exists o, c_op r o = 1) ->
  exists q, In q rom /\ feq (ro_pc q) (c_pc r) /\ feq (ro_data q) (inst_data (c_inst r)).
Proof.
  intros cpus adds blts mults rom r S I [o RO]. destruct (rs_len _ _ _ _ _ S) as (L1 & L2 & L3). pose proof (ac_len _ (rs_cpu _ _ _ _ _ S)) as L4. unfold max_rows in *.
  assert (BIT : forall r, In r cpus -> bit (is_running r)).
  { intros q J. exact (op_filter_bit cpus q all_osel (rs_cpu _ _ _ _ _ S) J all_osel_nodup). }
  assert (R1 : is_running r = 1).
  { destruct (accepted_always _ _ (rs_cpu _ _ _ _ _ S) I) as [C Z0]. destruct (one_hot r C Z0) as [B _]. destruct (BIT r I) as [K|K]; [exfalso|exact K].
    pose proof (sumZ_ge (map (c_op r) all_osel) (c_op r o)) as G. unfold is_running in K. rewrite K, RO in G.
    assert (G' : 1 <= 0); [apply G|lia].
    - apply Forall_forall. intros x J. apply in_map_iff in J as (s & <- & _). destruct (B s) as [-> | ->]; lia.
    - rewrite <- RO. apply in_map, all_osel_in. }
  apply (rom_fetch _ _ _ _ _ (rs_inner _ _ _ _ _ S) (rs_rom _ _ _ _ _ S)).
  - apply Forall_app. split; [|apply Forall_app; split]; apply Forall_forall; intros e J; apply in_map_iff in J as (q & <- & J); cbn [snd].
    + pose proof (rs_add _ _ _ _ _ S) as F. rewrite Forall_forall in F. exact (F q J).
    + pose proof (rs_blt _ _ _ _ _ S) as F. rewrite Forall_forall in F. exact (F q J).
    + exact (BIT q J).
  - unfold add_rom_looking, blt_rom_looking, cpu_rom_looking. rewrite !app_length, !map_length. clear - L1 L2 L3 L4. unfold P. lia.
  - clear - L3. unfold P. lia.
  - apply in_or_app; right. apply in_or_app; right. unfold cpu_rom_looking. rewrite <- R1. apply (in_map (fun r => ([c_pc r; inst_data (c_inst r)], is_running r))). exact I.
Qed.
#[local] Transparent inst_data all_osel.
(** ... but the packed word does not determine the row's instruction, whose columns are not range checked: whatever the
    ROM holds at an address, an accepted CPU table has a running row with that packed word that executes HALT. *)
Lemma zero_ctl l l' : (forall e, In e l -> snd e = 0) -> (forall e, In e l' -> snd e = 0) -> ctl_ok l l'.
Proof.
  intros H H' v. assert (Z : forall l, (forall e, In e l -> snd e = 0) -> mult_of v l = 0).
  { clear. induction l as [|[t f] l IH]; intros H; [reflexivity|]. rewrite mult_of_cons, IH by (intros; apply H; right; auto). pose proof (H (t, f) (or_introl eq_refl)) as E. cbn in E. subst f. case_decide; reflexivity. }
  rewrite !Z by auto. reflexivity.
Qed.
Lemma shift_trace_ok t : Forall shift_canon (generate_shift_trace []) /\ max_rows (generate_shift_trace t).
Proof.
  split; [|unfold max_rows, generate_shift_trace; rewrite map_length, seq_length; discriminate].
  unfold generate_shift_trace. apply Forall_forall. intros s I. apply in_map_iff in I as (k & <- & I). apply in_seq in I. cbn. unfold shift_canon, canon. cbn [s_amount s_multiplier].
  assert (2 ^ Z.of_nat k <= 2 ^ 31) by (apply Z.pow_le_mono_r; lia). assert (0 < 2 ^ Z.of_nat k) by (apply Z.pow_pos_nonneg; lia). unfold P. lia.
Qed.
Lemma in_table_of r q : In q (table_of r) -> q = r \/ q = pad_row.
Proof. unfold table_of. intros [I|I]; [auto|]. apply repeat_spec in I. auto. Qed.
Lemma halt_accepted clk a data : canon clk -> canon a -> cpu_accepted (table_of (halt_row clk a data)).
Proof.
  intros Ck Ca. pose proof (halt_row_ok clk a data Ck Ca) as H. destruct C25_padding_row as [HP TP].
  assert (OK : forall q, In q (table_of (halt_row clk a data)) -> cpu_row_ok q) by (intros q I; apply in_table_of in I as [-> | ->]; auto).
  constructor.
  - constructor; cbn [cpu_air a_first a_always a_transition a_last].
    + discriminate.
    + intros; constructor.
    + intros i r r' E _. apply ro_always, OK, (lookup_In _ i), E.
    + intros i r r' E _. apply lookup_In, in_table_of in E as [-> | ->]; [repeat constructor|exact TP].
    + intros; constructor.
  - apply Forall_forall. intros q I. apply ro_canon, OK, I.
  - discriminate.
  - apply Forall_forall. intros q I. apply ro_rc, OK, I.
  - exists (repeat xor_default 8). split; [|split].
    + assert (E : repeat xor_default 8 = generate_xor_trace []) by reflexivity. constructor; cbn [xor_air a_first a_always a_transition a_last]; try (intros; constructor); [discriminate|].
      intros i r r' Er _. apply lookup_In, repeat_spec in Er. subst r. apply C27_xor_padding.
    + apply Forall_forall. intros x I. apply repeat_spec in I. subst x. apply C27_xor_padding.
    + apply zero_ctl; intros e I; apply in_map_iff in I as (q & <- & I); cbn [snd]; [apply in_table_of in I as [-> | ->]; reflexivity|apply repeat_spec in I; subst q; reflexivity].
  - exists (generate_shift_trace []). split; [apply shift_complete|]. split; [apply (shift_trace_ok [])|]. split; [apply shift_trace_ok|].
    apply zero_ctl; intros e I; apply in_map_iff in I as (q & <- & I); cbn [snd]; [apply in_table_of in I as [-> | ->]; reflexivity|].
    unfold generate_shift_trace in I. apply in_map_iff in I as (k & <- & _). reflexivity.
Qed.
Lemma mult_of_app v l l' : mult_of v (l ++ l') = mult_of v l + mult_of v l'.
Proof. induction l as [|[t f] l IH]; [reflexivity|]. cbn [app]. rewrite !mult_of_cons, IH. lia. Qed.
Lemma mult_of_zero v l : (forall e, In e l -> snd e = 0) -> mult_of v l = 0.
Proof.
  induction l as [|[t f] l IH]; intros H; [reflexivity|]. rewrite mult_of_cons, IH by (intros; apply H; right; auto).
  pose proof (H (t, f) (or_introl eq_refl)) as E. cbn in E. subst f. case_decide; reflexivity.
Qed.
Theorem C32_halt_refuted : forall a data rom, canon a -> In (mkRom a data) rom -> max_rows rom -> exists cpus mults r, rom_system cpus [] [] mults rom /\ In r cpus /\
  c_pc r = a /\ feq (inst_data (c_inst r)) data /\ c_clk r = 2 /\ c_ecall r e_halt = 1 /\ c_op r o_ecall = 1.
Proof.
  intros a data rom Ca I L. assert (C2 : canon 2) by (unfold canon, P; lia). apply in_split in I as (l1 & l2 & ->).
  set (z := fun q => mkMult (ro_pc q) (ro_data q) 0). set (h := halt_row 2 a data).
  exists (table_of h), (map z l1 ++ mkMult a data 1 :: map z l2), h. split.
  - constructor.
    + apply halt_accepted; auto.
    + intros v. cbn [add_rom_looking blt_rom_looking map app]. unfold mult_cpu_looked, cpu_rom_looking, table_of. cbn [map]. rewrite map_app. cbn [map].
      rewrite mult_of_app, !mult_of_cons. cbn [mu_mult mu_pc mu_data].
      assert (R1 : is_running h = 1) by reflexivity. rewrite R1.
      assert (K : tuple_key [c_pc h; inst_data (c_inst h)] = tuple_key [a; data]).
      { unfold tuple_key. cbn [map]. f_equal. f_equal. exact (halt_data a data). }
      rewrite K. rewrite !(mult_of_zero v (map _ (map z _))), (mult_of_zero v (map _ (repeat pad_row 7))).
      * replace (_ - _) with 0 by lia. reflexivity.
      * intros e I. apply in_map_iff in I as (q & <- & I). apply repeat_spec in I. subst q. reflexivity.
      * intros e I. rewrite map_map in I. apply in_map_iff in I as (q & <- & _). reflexivity.
      * intros e I. rewrite map_map in I. apply in_map_iff in I as (q & <- & _). reflexivity.
    + unfold mult_rom_looking, rom_looked. rewrite !map_app. cbn [map]. rewrite !map_map. cbn. intros v. rewrite Z.sub_diag. reflexivity.
    + unfold max_rows in *. rewrite app_length in *. cbn [length] in *. rewrite !map_length. lia.
    + constructor.
    + constructor.
  - split; [apply in_table|]. split; [reflexivity|]. split; [apply halt_data|]. split; [reflexivity|]. split; reflexivity.
Qed.
#[local] Opaque inst_data.
Definition demo_rom : list romrow := rom_of demo.
Example C32_ex : inst_fields_ok (mkInst ADD (mkArgs 5 6 7 4294967295)) /\
  (exists i, In (mkRom 0 (inst_data (inst_cols 0 i))) demo_rom) /\ max_rows demo_rom /\
  exists cpus mults r, rom_system cpus [] [] mults demo_rom /\ In r cpus /\ exists o, c_op r o = 1.
Proof.
  split; [unfold inst_fields_ok, u32; cbn; lia|].
  assert (E : exists i, In (mkRom 0 (inst_data (inst_cols 0 i))) demo_rom).
  { unfold demo_rom. destruct (ro_code demo !! 0) as [[i|]|] eqn:E; [exists i|exfalso; revert E; vm_compute; discriminate|exfalso; revert E; vm_compute; discriminate].
    unfold rom_of. apply elem_of_list_In, elem_of_list_omap. exists (0, inl i). split; [apply elem_of_map_to_list, E|reflexivity]. }
  assert (M : max_rows demo_rom) by (apply Z.leb_le; vm_compute; reflexivity).
  split; [exact E|]. split; [exact M|]. destruct E as [i E].
  destruct (C32_halt_refuted 0 _ demo_rom ltac:(unfold canon, P; lia) E M) as (cpus & mults & r & H1 & H2 & _ & _ & _ & _ & H3). exists cpus, mults, r. split; [exact H1|]. split; [exact H2|]. exists o_ecall. exact H3.
Qed.
#[local] Transparent inst_data.

(** * C33 Half- and full-word memory *)
(** A row in use of either table accesses consecutive addresses (modulo 2^32), one byte each, and the word it exchanges
    with the CPU is composed of these bytes, lowest first. *)
Definition word_row_ok (n : nat) (mem : list memrow) (r : wordrow) (v : Z) : Prop :=
  v = reduce_with_powers (w_limbs r) 256 /\ 0 <= v < 256 ^ Z.of_nat n /\ u32 (nth 0 (w_addrs r) 0) /\
  forall i, (i < n)%nat -> accesses mem (w_clk r) (w_store r) (w_load r) (word (nth 0 (w_addrs r) 0 + Z.of_nat i)) (v / 256 ^ Z.of_nat i mod 256).
Theorem C33_halfword_sound : forall cpus half full others mem r, mem_system cpus half full others mem -> In r half -> w_store r + w_load r = 1 ->
  In ([w_clk r; w_store r; w_load r; nth 0 (w_addrs r) 0; reduce_with_powers (w_limbs r) 256], 1) (word_looked half) /\
  exists v, word_row_ok 2 mem r v.
Proof.
  intros cpus half full others mem r M I E. assert (X : w_executed r = 1) by (unfold w_executed; lia). split.
  { apply in_map_iff. exists r. rewrite X. auto. }
  pose proof (half_typed _ _ _ _ _ M r I) as (LA & LL & _).
  destruct (bytes2 (w_limbs r) LL) as [V B]. { apply (limbs_u8 2); [exact LL|]. intros i L. apply (half_limb _ _ _ _ _ M r i I X L). }
  exists (reduce_with_powers (w_limbs r) 256). split; [reflexivity|]. split; [exact V|]. split; [apply (half_limb _ _ _ _ _ M r 0 I X); lia|].
  intros i L. rewrite B by exact L. destruct (half_limb _ _ _ _ _ M r i I X L) as (A & _ & _). 
  replace (word (nth 0 (w_addrs r) 0 + Z.of_nat i)) with (nth i (w_addrs r) 0); [exact A|].
  destruct i as [|[|i]]; [|apply (half_addr _ _ _ _ _ M r I X)|lia].
  destruct (half_limb _ _ _ _ _ M r 0 I X L) as (_ & U & _). unfold word, M32, u32 in *. rewrite Z.add_0_r, Z.mod_small; lia.
Qed.
Theorem C33_fullword_sound : forall cpus half full others mem r, mem_system cpus half full others mem -> In r full -> w_store r + w_load r = 1 ->
  In ([w_clk r; w_store r; w_load r; nth 0 (w_addrs r) 0; reduce_with_powers (w_limbs r) 256], 1) (word_looked full) /\
  exists v, word_row_ok 4 mem r v.
Proof.
  intros cpus half full others mem r M I E. assert (X : w_executed r = 1) by (unfold w_executed; lia). split.
  { apply in_map_iff. exists r. rewrite X. auto. }
  pose proof (full_typed _ _ _ _ _ M r I) as (LA & LL & _).
  destruct (bytes4 (w_limbs r) LL) as [V B]. { apply (limbs_u8 4); [exact LL|]. intros i L. apply (full_limb _ _ _ _ _ M r i I X L). }
  exists (reduce_with_powers (w_limbs r) 256). split; [reflexivity|]. split; [exact V|]. split; [apply (full_limb _ _ _ _ _ M r 0 I X); lia|].
  intros i L. rewrite B by exact L. destruct (full_limb _ _ _ _ _ M r i I X L) as (A & _ & _). rewrite <- (full_addr _ _ _ _ _ M r i I X L). exact A.
Qed.
(** Hence a CPU row that loads or stores 1, 2 or 4 bytes has a 32-bit address and a value of that size, and exactly the
    bytes of that value are accessed at that address and the following ones, at the clock of the row. *)
Theorem C33_cpu_bytes : forall cpus half full others mem w r, mem_system cpus half full others mem -> In r cpus ->
  c_op r (store_sel w) + c_op r (load_sel w) = 1 ->
  u32 (c_mem_addr r) /\ 0 <= c_mem_value_raw r < 2 ^ (8 * Z.of_nat (nbytes w)) /\
  forall i, (i < nbytes w)%nat -> accesses mem (c_clk r) (c_op r (store_sel w)) (c_op r (load_sel w)) (word (c_mem_addr r + Z.of_nat i)) (c_mem_value_raw r / 256 ^ Z.of_nat i mod 256).
Proof. intros cpus half full others mem w r M. exact (cpu_memory cpus half full others mem M w r). Qed.
(** The rows generated from any execution satisfy the constraints, and exchange with the CPU table what the CPU row
    generated from the same step exchanges. *)
Section WithHash.
Variable permute : list Z -> list Z.
Variable utf8_ok : list Z -> bool.
Notation exec1 := (execute_instruction permute utf8_ok).
Definition step_ok (p : program) (x : state * instruction * aux) : Prop :=
  let '(s, i, a) := x in state_ok s /\ exists s', exec1 s p = Ok (a, i, s').
Lemma land255 x : Z.land x 255 = x mod 256.
Proof. exact (Z.land_ones x 8 ltac:(lia)). Qed.
Lemma half_bytes x : 0 <= x -> Z.land x 255 + 256 * Z.land (Z.shiftr x 8) 255 = x mod 65536.
Proof. intros H. rewrite !land255, Z.shiftr_div_pow2 by lia. change (2 ^ 8) with 256. lia. Qed.
Lemma raw_half x : u32 x -> Z.land x (Z.shiftr 4294967295 (32 - 8 * Z.of_nat 2)) = x mod 65536.
Proof. intros _. exact (Z.land_ones x 16 ltac:(lia)). Qed.
Lemma raw_full x : u32 x -> Z.land x (Z.shiftr 4294967295 (32 - 8 * Z.of_nat 4)) = x.
Proof. intros U. rewrite <- (Z.mod_small x (2 ^ 32)) at 2 by (unfold u32 in U; lia). exact (Z.land_ones x 32 ltac:(lia)). Qed.
Lemma sb_le a b c d : u8 a -> u8 b -> u8 c -> u8 d -> to_le_bytes32 (from_le_bytes32 a b c d) = [a; b; c; d].
Proof. unfold u8, to_le_bytes32, from_le_bytes32. intros. repeat f_equal; lia. Qed.
Lemma reduce_le x : u32 x -> reduce_with_powers (to_le_bytes32 x) 256 = x.
Proof. unfold u32, to_le_bytes32, reduce_with_powers. cbn [fold_right]. intros. lia. Qed.
Definition cpu_word_tuple (st ld : osel) (r : cpu) : list Z := [c_clk r; c_op r st; c_op r ld; c_mem_addr r; c_mem_value_raw r].
Definition word_tuple (r : wordrow) : list Z := [w_clk r; w_store r; w_load r; nth 0 (w_addrs r) 0; reduce_with_powers (w_limbs r) 256].
Lemma wadd_u32 x y : u32 (wadd x y). Proof. apply wrap32_u32. Qed.
Lemma half_cons_ok c st ld a l : u32 a -> bit st -> bit ld -> bit (ld + st) -> all_zero (half_constraints (mkWordRow c st ld [a; wadd a 1] l)).
Proof.
  intros U B1 B2 B3. unfold half_constraints, w_executed. cbn [w_addrs w_store w_load nth].
  repeat (apply List.Forall_cons; [try (apply is_binary_01; assumption)|]); [|constructor].
  unfold wadd, wrap32, u32 in *. unfold fzero. destruct (Z.eq_dec a 4294967295) as [->|N].
  - apply Z.mod_divide; [unfold P; lia|]. apply Z.divide_mul_r. exists 0. reflexivity.
  - rewrite (Z.mod_small (a + 1)) by lia. rewrite Z.sub_diag, Z.mul_0_r. reflexivity.
Qed.
Lemma full_cons_ok c st ld a l : u32 a -> bit st -> bit ld -> bit (ld + st) ->
  all_zero (full_constraints (mkWordRow c st ld (map (fun k => wadd a (Z.of_nat k)) (seq 0 4)) l)).
Proof.
  intros U B1 B2 B3. unfold full_constraints, w_executed. cbn [w_addrs w_store w_load nth map seq app]. assert (E0 : wadd a (Z.of_nat 0) = a) by (unfold wadd, wrap32, u32 in *; rewrite Z.mod_small; lia).
  rewrite E0.
  assert (K : forall k e, 0 <= k < 4 -> fzero (e * (wadd a k - (a + k)) * (wadd a k + 2 ^ 32 - (a + k)))).
  { intros k e Hk. unfold wadd, wrap32, u32 in *. destruct (Z.ltb_spec (a + k) (2 ^ 32)).
    - rewrite (Z.mod_small (a + k)) by lia. rewrite Z.sub_diag, Z.mul_0_r. reflexivity.
    - replace ((a + k) mod 4294967296) with (a + k - 2 ^ 32) by lia. replace (a + k - 2 ^ 32 + 2 ^ 32 - (a + k)) with 0 by ring. rewrite Z.mul_0_r. reflexivity. }
  repeat (apply List.Forall_cons; [first [apply is_binary_01; assumption | apply K; lia]|]). constructor.
Qed.
Lemma bytes_typed c st ld addrs limbs n : length addrs = n -> length limbs = n -> Forall u32 addrs -> Forall u8 limbs -> canon c -> bit st -> bit ld ->
  word_typed n (mkWordRow c st ld addrs limbs).
Proof.
  intros L1 L2 F1 F2 Cc B1 B2. split; [exact L1|]. split; [exact L2|]. cbn [w_clk w_store w_load w_addrs w_limbs].
  assert (CB : forall b, bit b -> canon b) by (intros b [-> | ->]; unfold canon, P; lia).
  apply Forall_app. split; [auto|]. apply Forall_app. split; [revert F1; apply Forall_impl; apply u32_canon|revert F2; apply Forall_impl; unfold u8, canon, P; intros; lia].
Qed.
Lemma load_u8_range s n : state_ok s -> forall a, Forall u8 (map (load_u8 s) (addr_range a n)).
Proof. intros OK a. apply Forall_forall. intros x I. apply in_map_iff in I as (y & <- & _). apply load_u8_u8, OK. Qed.
Lemma half_generated p s i a : program_ok p -> step_ok p (s, i, a) -> is_half_op (iop i) = true ->
  all_zero (half_constraints (gen_half_row s i a)) /\ word_typed 2 (gen_half_row s i a) /\
  word_tuple (gen_half_row s i a) = cpu_word_tuple o_sh o_lh (gen_row s i a) /\ w_executed (gen_half_row s i a) = 1.
Proof.
  intros PO (OK & s' & E) H. destruct (exec_facts _ _ _ _ _ _ _ OK PO E) as (IO & O1 & RAW & O2 & a0 & s0 & D & DV & _ & AM & _).
  pose proof IO as (R0 & R1 & R2 & RI). set (addr := wadd (reg s (rs2 (iargs i))) (imm (iargs i))).
  assert (C : canon (clk s mod P)) by (apply Z.mod_pos_bound; unfold P; lia).
  assert (X : exists v, amem a = Some (mkMemEntry addr v) /\ u32 (dst_val a) /\ v = dst_val a mod 65536).
  { rewrite AM, DV. unfold dispatch in D. destruct (iop i) eqn:O; try discriminate H.
    - apply disp_load in D as (-> & _ & -> & _); auto. eexists. split; [reflexivity|]. fold addr. cbn [lh fst snd].
      split; [apply wrap32_u32|]. pose proof (load_u8_range s 4 OK addr) as F. unfold lhu_raw.
      cbn [addr_range seq map] in F |- *. apply Forall_inv in F as F0. apply Forall_inv_tail, Forall_inv in F as F1. unfold u8 in *. cbn [nth].
      unfold wrap32, as_i16. destruct (_ <? _); lia.
    - apply disp_load in D as (-> & _ & -> & _); auto. eexists. split; [reflexivity|]. fold addr. cbn [lhu fst snd].
      pose proof (load_u8_range s 4 OK addr) as F. unfold lhu_raw.
      cbn [addr_range seq map] in F |- *. apply Forall_inv in F as F0. apply Forall_inv_tail, Forall_inv in F as F1. unfold u8, u32 in *. cbn [nth]. lia.
    - apply disp_store in D as (_ & -> & -> & _); auto. rewrite raw_half by (apply reg_u32; auto). eexists. split; [reflexivity|].
      pose proof (reg_u32 s _ OK R1) as U1. unfold u32 in *. split; lia. }
  destruct X as (v & M & U & EV). assert (UA : u32 addr) by apply wadd_u32. unfold gen_half_row, aux_addr. rewrite M. cbn [me_addr].
  assert (B : forall b : bool, bit (b2z b)) by (intros []; unfold bit; cbn; auto).
  split; [apply half_cons_ok; auto; destruct (iop i); try discriminate H; unfold bit; cbn; auto|].
  split. { apply bytes_typed; auto; [repeat constructor; auto; apply wadd_u32|]. rewrite !land255. assert (V : forall y, u8 (y mod 256)) by (intros; unfold u8; lia). repeat constructor; auto; apply V. }
  split; [|unfold w_executed; cbn [w_load w_store]; destruct (iop i); try discriminate H; reflexivity].
  unfold word_tuple, cpu_word_tuple. cbn [w_clk w_store w_load w_addrs w_limbs nth].
  assert (E1 : reduce_with_powers [Z.land (dst_val a) 255; Z.land (Z.shiftr (dst_val a) 8) 255] 256 = v).
  { unfold reduce_with_powers. cbn [fold_right]. pose proof (half_bytes (dst_val a) ltac:(unfold u32 in U; lia)). lia. }
  rewrite E1. unfold gen_row, c_op. destruct (gen_product _ _) as [[? ?] ?]. destruct (gen_div _ _ _ _ _) as [[[[[? ?] ?] ?] ?] ?].
  cbn [c_clk c_inst c_mem_addr c_mem_value_raw]. rewrite M. cbn [me_addr me_raw_value inst_cols i_ops]. destruct (iop i); try discriminate H; reflexivity.
Qed.
Lemma full_generated p s i a : program_ok p -> step_ok p (s, i, a) -> is_full_op (iop i) = true ->
  all_zero (full_constraints (gen_full_row s i a)) /\ word_typed 4 (gen_full_row s i a) /\
  word_tuple (gen_full_row s i a) = cpu_word_tuple o_sw o_lw (gen_row s i a) /\ w_executed (gen_full_row s i a) = 1.
Proof.
  intros PO (OK & s' & E) H. destruct (exec_facts _ _ _ _ _ _ _ OK PO E) as (IO & O1 & RAW & O2 & a0 & s0 & D & DV & _ & AM & _).
  pose proof IO as (R0 & R1 & R2 & RI). set (addr := wadd (reg s (rs2 (iargs i))) (imm (iargs i))).
  assert (C : canon (clk s mod P)) by (apply Z.mod_pos_bound; unfold P; lia).
  assert (X : amem a = Some (mkMemEntry addr (dst_val a)) /\ u32 (dst_val a)).
  { rewrite AM, DV. unfold dispatch in D. destruct (iop i) eqn:O; try discriminate H.
    - apply disp_load in D as (-> & _ & -> & _); auto. split; [reflexivity|]. fold addr. cbn [lw fst snd].
      pose proof (load_u8_range s 4 OK addr) as F. cbn [addr_range seq map] in F |- *. cbn [nth].
      apply Forall_inv in F as F0. apply Forall_inv_tail in F. apply Forall_inv in F as F1. apply Forall_inv_tail in F. apply Forall_inv in F as F2. apply Forall_inv_tail, Forall_inv in F.
      unfold from_le_bytes32, u8, u32 in *. lia.
    - apply disp_store in D as (_ & -> & -> & _); auto. rewrite raw_full by (apply reg_u32; auto). split; [reflexivity|]. apply reg_u32; auto. }
  destruct X as (M & U). assert (UA : u32 addr) by apply wadd_u32. unfold gen_full_row, aux_addr. rewrite M. cbn [me_addr].
  assert (B : forall b : bool, bit (b2z b)) by (intros []; unfold bit; cbn; auto).
  split; [apply full_cons_ok; auto; destruct (iop i); try discriminate H; unfold bit; cbn; auto|].
  split. { apply bytes_typed; auto; [cbn [map seq]; repeat constructor; auto; apply wadd_u32|apply to_le_u8]. }
  split; [|unfold w_executed; cbn [w_load w_store]; destruct (iop i); try discriminate H; reflexivity].
  unfold word_tuple, cpu_word_tuple. cbn [w_clk w_store w_load w_addrs w_limbs nth map seq]. rewrite reduce_le by exact U.
  assert (E0 : wadd addr (Z.of_nat 0) = addr) by (unfold wadd, wrap32, u32 in *; rewrite Z.mod_small; lia). rewrite E0.
  unfold gen_row, c_op. destruct (gen_product _ _) as [[? ?] ?]. destruct (gen_div _ _ _ _ _) as [[[[[? ?] ?] ?] ?] ?].
  cbn [c_clk c_inst c_mem_addr c_mem_value_raw]. rewrite M. cbn [me_addr me_raw_value inst_cols i_ops]. destruct (iop i); try discriminate H; reflexivity.
Qed.
(** any table made of the generated rows of one kind of step *)
Lemma mult_map {A} (v : list Z) (f : A -> list Z) (g : A -> Z) l : mult_of v (map (fun x => (f x, g x)) l) = sumZ (map (fun x => if decide (tuple_key (f x) = tuple_key v) then g x else 0) l).
Proof. unfold mult_of. rewrite map_map. reflexivity. Qed.
Lemma sumZ_filter {A} (h : A -> bool) (f : A -> Z) l : (forall x, In x l -> h x = false -> f x = 0) -> sumZ (map f (List.filter h l)) = sumZ (map f l).
Proof.
  induction l as [|x l IH]; intros H; [reflexivity|]. cbn [List.filter map]. specialize (IH (fun y I => H y (or_intror I))).
  destruct (h x) eqn:E; cbn [map]; rewrite !sumZ_cons, IH; [reflexivity|]. rewrite (H x (or_introl eq_refl) E). reflexivity.
Qed.
Lemma sumZ_ext {A} (f g : A -> Z) l : (forall x, In x l -> f x = g x) -> sumZ (map f l) = sumZ (map g l).
Proof. induction l as [|x l IH]; intros H; [reflexivity|]. cbn [map]. rewrite !sumZ_cons, (H x (or_introl eq_refl)), IH; auto. intros; apply H; right; auto. Qed.
Lemma pad_word_in n t q : In q (pad_word n t) -> In q t \/ (w_store q = 0 /\ w_load q = 0 /\
  ((exists x, In x t /\ q = mkWordRow (w_clk x) 0 0 (w_addrs x) (w_limbs x)) \/ q = mkWordRow 0 0 0 (repeat 0 n) (repeat 0 n))).
Proof.
  unfold pad_word, pad_with. intros I. apply in_app_iff in I as [I|I]; [auto|right]. apply repeat_spec in I. subst q. cbn [w_store w_load]. split; [reflexivity|]. split; [reflexivity|].
  destruct t as [|x t] using rev_ind; [right; reflexivity|left]. exists x. rewrite last_last. split; [apply in_or_app; right; left; reflexivity|reflexivity].
Qed.
Lemma padded_nonempty {R} (d : R) t : pad_with d t <> [].
Proof.
  unfold pad_with. intros E. apply (f_equal (@length _)) in E. rewrite app_length, repeat_length in E. unfold padded_len in E. cbn in E.
  assert (8 <= Z.max 8 (next_pow2 (length t) 1 (Z.of_nat (length t)))) by lia. lia.
Qed.
Lemma word_canon0 n q : word_typed n q -> word_typed n (mkWordRow (w_clk q) 0 0 (w_addrs q) (w_limbs q)).
Proof.
  intros (L1 & L2 & F). split; [exact L1|]. split; [exact L2|]. cbn [w_clk w_store w_load w_addrs w_limbs]. assert (C0 : canon 0) by (unfold canon, P; lia).
  apply Forall_app in F as [F1 F2]. apply Forall_app. split; [|exact F2]. apply Forall_inv in F1. auto.
Qed.
Lemma repeat_typed n : word_typed n (mkWordRow 0 0 0 (repeat 0 n) (repeat 0 n)).
Proof.
  assert (C0 : canon 0) by (unfold canon, P; lia). split; [apply repeat_length|]. split; [apply repeat_length|]. cbn [w_clk w_store w_load w_addrs w_limbs].
  apply Forall_forall. intros x I. apply in_app_iff in I as [I|I]; [cbn in I; intuition (subst; auto)|]. apply in_app_iff in I as [I|I]; apply repeat_spec in I; subst; auto.
Qed.
Lemma idle_half q : w_store q = 0 -> w_load q = 0 -> all_zero (half_constraints q).
Proof. intros S L. unfold half_constraints, w_executed. rewrite S, L. repeat constructor. Qed.
Lemma idle_full q : w_store q = 0 -> w_load q = 0 -> all_zero (full_constraints q).
Proof. intros S L. unfold full_constraints, w_executed. rewrite S, L. repeat constructor. Qed.
Lemma pad_mult v n t : (forall q, In q t -> True) -> mult_of v (word_looked (pad_word n t)) = mult_of v (word_looked t).
Proof.
  intros _. unfold pad_word, pad_with, word_looked. rewrite map_app, mult_of_app. rewrite (mult_of_zero v (map _ (repeat _ _))); [lia|].
  intros e I. apply in_map_iff in I as (q & <- & I). apply repeat_spec in I. subst q. reflexivity.
Qed.
Lemma cpu_pad_mult v st ld t : mult_of v (cpu_mem_looking st ld (pad_with pad_row t)) = mult_of v (cpu_mem_looking st ld t).
Proof.
  unfold pad_with, cpu_mem_looking. rewrite map_app, mult_of_app. rewrite (mult_of_zero v (map _ (repeat _ _))); [lia|].
  intros e I. apply in_map_iff in I as (q & <- & I). apply repeat_spec in I. subst q. reflexivity.
Qed.
Lemma gen_ops s i a o : c_op (gen_row s i a) o = i_ops (inst_cols (pc s) i) o.
Proof. unfold gen_row, c_op. destruct (gen_product _ _) as [[? ?] ?]. destruct (gen_div _ _ _ _ _) as [[[[[? ?] ?] ?] ?] ?]. reflexivity. Qed.
Theorem C33_generated : forall p rows, good_program p -> Forall (step_ok p) rows ->
  let half := generate_half_trace rows in let full := generate_full_trace rows in let cpus := generate_cpu_trace rows in
  trace_sat half_air half /\ Forall (word_typed 2) half /\ ctl_ok (cpu_half_looking cpus) (word_looked half) /\
  trace_sat full_air full /\ Forall (word_typed 4) full /\ ctl_ok (cpu_full_looking cpus) (word_looked full).
Proof.
  intros p rows GP F. pose proof (gp_code _ GP : program_ok p) as PO. rewrite Forall_forall in F. cbv zeta.
  assert (H2 : forall q, In q (generate_half_trace rows) -> all_zero (half_constraints q) /\ word_typed 2 q).
  { assert (G : forall q, In q (map (fun '(s, i, a) => gen_half_row s i a) (List.filter (fun '(_, i, _) => is_half_op (iop i)) rows)) -> all_zero (half_constraints q) /\ word_typed 2 q).
    { intros q I. apply in_map_iff in I as ([[s i] a] & <- & I). apply filter_In in I as [I HO]. destruct (half_generated p s i a PO (F _ I) HO) as (H1 & H2 & _). auto. }
    intros q I. unfold generate_half_trace in I. apply pad_word_in in I as [I|(S & L & [(x & I & ->)| ->])]; [apply G, I|split; [apply idle_half; auto|apply word_canon0, G, I]|split; [apply idle_half; auto|apply repeat_typed]]. }
  assert (H4 : forall q, In q (generate_full_trace rows) -> all_zero (full_constraints q) /\ word_typed 4 q).
  { assert (G : forall q, In q (map (fun '(s, i, a) => gen_full_row s i a) (List.filter (fun '(_, i, _) => is_full_op (iop i)) rows)) -> all_zero (full_constraints q) /\ word_typed 4 q).
    { intros q I. apply in_map_iff in I as ([[s i] a] & <- & I). apply filter_In in I as [I HO]. destruct (full_generated p s i a PO (F _ I) HO) as (H1 & H2' & _). auto. }
    intros q I. unfold generate_full_trace in I. apply pad_word_in in I as [I|(S & L & [(x & I & ->)| ->])]; [apply G, I|split; [apply idle_full; auto|apply word_canon0, G, I]|split; [apply idle_full; auto|apply repeat_typed]]. }
  split; [|split; [|split; [|split; [|split]]]].
  - constructor; cbn [half_air a_first a_always a_transition a_last]; try (intros; apply List.Forall_nil); [apply padded_nonempty|]. intros k q q' E _. apply H2. apply lookup_In in E. exact E.
  - apply Forall_forall. intros q I. apply H2, I.
  - intros v. unfold generate_half_trace. rewrite pad_mult by auto. unfold cpu_half_looking, generate_cpu_trace. rewrite cpu_pad_mult.
    unfold word_looked, cpu_mem_looking. rewrite !mult_map, !map_map.
    rewrite (sumZ_filter _ (fun x : state * instruction * aux => _)), (sumZ_filter _ (fun x : state * instruction * aux => _)).
    + match goal with |- fzero (?x - ?y) => assert (E : x = y); [|rewrite E, Z.sub_diag; reflexivity] end. apply sumZ_ext. intros [[s i] a] I.
      destruct (is_half_op (iop i)) eqn:HO.
      * destruct (half_generated p s i a PO (F _ I) HO) as (_ & _ & ET & EX). fold (word_tuple (gen_half_row s i a)). fold (cpu_word_tuple o_sh o_lh (gen_row s i a)). rewrite ET, EX.
        rewrite !gen_ops. cbn [inst_cols i_ops]. destruct (iop i); try discriminate HO; reflexivity.
      * rewrite !gen_ops. cbn [inst_cols i_ops]. unfold gen_half_row, w_executed. cbn [w_load w_store]. destruct (iop i); try discriminate HO; cbn [sel_of]; repeat case_decide; try congruence; reflexivity.
    + intros [[s i] a] I HO. unfold gen_half_row, w_executed. cbn [w_load w_store]. destruct (iop i); try discriminate HO; cbn; repeat case_decide; reflexivity.
    + intros [[s i] a] I HO. rewrite !gen_ops. cbn [inst_cols i_ops]. unfold handled_elsewhere in HO. destruct (iop i); try discriminate HO; cbn [sel_of]; repeat case_decide; try congruence; reflexivity.
  - constructor; cbn [full_air a_first a_always a_transition a_last]; try (intros; apply List.Forall_nil); [apply padded_nonempty|]. intros k q q' E _. apply H4. apply lookup_In in E. exact E.
  - apply Forall_forall. intros q I. apply H4, I.
  - intros v. unfold generate_full_trace. rewrite pad_mult by auto. unfold cpu_full_looking, generate_cpu_trace. rewrite cpu_pad_mult.
    unfold word_looked, cpu_mem_looking. rewrite !mult_map, !map_map.
    rewrite (sumZ_filter _ (fun x : state * instruction * aux => _)), (sumZ_filter _ (fun x : state * instruction * aux => _)).
    + match goal with |- fzero (?x - ?y) => assert (E : x = y); [|rewrite E, Z.sub_diag; reflexivity] end. apply sumZ_ext. intros [[s i] a] I.
      destruct (is_full_op (iop i)) eqn:HO.
      * destruct (full_generated p s i a PO (F _ I) HO) as (_ & _ & ET & EX). fold (word_tuple (gen_full_row s i a)). fold (cpu_word_tuple o_sw o_lw (gen_row s i a)). rewrite ET, EX.
        rewrite !gen_ops. cbn [inst_cols i_ops]. destruct (iop i); try discriminate HO; reflexivity.
      * rewrite !gen_ops. cbn [inst_cols i_ops]. unfold gen_full_row, w_executed. cbn [w_load w_store]. destruct (iop i); try discriminate HO; cbn [sel_of]; repeat case_decide; try congruence; reflexivity.
    + intros [[s i] a] I HO. unfold gen_full_row, w_executed. cbn [w_load w_store]. destruct (iop i); try discriminate HO; cbn; repeat case_decide; reflexivity.
    + intros [[s i] a] I HO. rewrite !gen_ops. cbn [inst_cols i_ops]. unfold handled_elsewhere in HO. destruct (iop i); try discriminate HO; cbn [sel_of]; repeat case_decide; try congruence; reflexivity.
Qed.
End WithHash.

Lemma step_rows_ok permute utf8_ok limit p fuel s rec : state_ok s -> good_program p -> step permute utf8_ok limit p fuel s = Ok rec ->
  Forall (step_ok permute utf8_ok p) (map (fun r => (rstate r, rinst r, raux r)) (executed rec)).
Proof.
  intros OK HP R. pose proof (good_program_ok _ HP) as PO. destruct (run_record permute utf8_ok limit p fuel s rec OK PO R) as (_ & HR & _).
  destruct (run_reach permute utf8_ok limit p fuel s s rec) as [F _]; [constructor|exact R|]. rewrite Forall_forall in F.
  apply Forall_forall. intros x I. apply in_map_iff in I as (r & <- & I). split; [apply (reach_ok permute utf8_ok p s); auto|].
  apply In_lookup in I as [k E]. destruct (HR k r E) as (_ & _ & s' & _ & X). eauto.
Qed.
Example C33_ex_rows : exists rec, demo_run 11 = Ok rec /\
  Forall (step_ok (fun l => l) (fun _ => true) demo) (map (fun r => (rstate r, rinst r, raux r)) (executed rec)) /\ good_program demo.
Proof.
  destruct (demo_run 11) as [rec| |] eqn:E; [|exfalso; revert E; vm_compute; discriminate|exfalso; revert E; vm_compute; discriminate].
  exists rec. split; [reflexivity|]. split; [|apply demo_good]. eapply step_rows_ok; [|apply demo_good|exact E]. apply demo_state_ok.
Qed.
Example C33_ex : mem_system (table_of demo_lhu) (word_access 2 0 1 40000) (word_pad 4 8) [] (mem_loading 2 40000) /\
  (exists r, In r (word_access 2 0 1 40000) /\ w_store r + w_load r = 1) /\ c_op demo_lhu (store_sel wH) + c_op demo_lhu (load_sel wH) = 1.
Proof. split; [apply demo_systems|]. split; [|reflexivity]. eexists. split; [left; reflexivity|reflexivity]. Qed.

(** * C36 Loads and stores *)
(** The address sent to memory is the wrapped sum of base register and offset. *)
Theorem C36_address : forall cpus half full others mem r a i x1 x2, mem_system cpus half full others mem -> In r cpus ->
  carries r a i x1 x2 -> memory_class i = true -> c_mem_addr r = word (x2 + imm (iargs (lower a i))).
Proof.
  intros cpus half full others mem r a i x1 x2 MS I C M. pose proof (ms_cpu _ _ _ _ _ MS) as A. pose proof (accepted_row cpus r A I) as OK. pose proof (ca_inst _ _ _ _ _ C) as CI.
  assert (IM : is_mem (iop (lower a i)) = true).
  { destruct i; try discriminate M; cbn; [destruct w, unsigned; reflexivity|destruct w; reflexivity]. }
  assert (CO : forall s, c_op r s = if decide (s = sel_of (iop (lower a i))) then 1 else 0) by (intros s; unfold c_op; rewrite CI; reflexivity).
  assert (UM : u32 (c_mem_addr r)).
  { destruct i as [| | |w us d s1 k|w b s2 k| | | | | | | | | |]; try discriminate M.
    - apply (cpu_memory cpus half full others mem MS w r I). rewrite !CO. destruct w, us; reflexivity.
    - apply (cpu_memory cpus half full others mem MS w r I). rewrite !CO. destruct w; reflexivity. }
  destruct (accepted_always _ _ A I) as [CC Z0]. unfold all_zero in Z0. rewrite Forall_forall in Z0.
  assert (K : fzero (is_mem_op r * (c_mem_addr r - c_op2_value r))).
  { apply Z0. unfold cpu_always. do 7 (apply in_or_app; right). apply in_or_app. left. left. reflexivity. }
  rewrite (mem_val r a (lower a i) CI), IM in K. cbn [b2z] in K. rewrite Z.mul_1_l in K.
  assert (E0 : c_mem_addr r = c_op2_value r) by (apply fzero_canon in K; auto; rewrite Forall_forall in CC; apply CC; in_cols).
  assert (U2 : u32 (c_op2_value_raw r)) by (rewrite (ca_x2 _ _ _ _ _ C); exact (ca_u2 _ _ _ _ _ C)).
  pose proof (lower_imm a i (ca_ok _ _ _ _ _ C) (ca_pc _ _ _ _ _ C)) as UI.
  rewrite E0 in *. assert (E : c_op2_value r = word (c_op2_value_raw r + imm (iargs (lower a i)))) by (eapply op2_mem; eauto).
  rewrite (ca_x2 _ _ _ _ _ C) in E. exact E.
Qed.
(** The offset is the instruction's immediate *)
Theorem C36_offset : forall a i, memory_class i = true -> imm (iargs (lower a i)) = match i with Load _ _ _ _ k | Store _ _ _ k => word k | _ => 0 end.
Proof. intros a i M. destruct i; try discriminate M; reflexivity. Qed.
(** Unsigned byte and half-word loads write the value exchanged with memory. *)
Theorem C36_load_unsigned : forall cpus half full others mem r a w d s1 k x1 x2, mem_system cpus half full others mem -> In r cpus ->
  carries r a (Load w true d s1 k) x1 x2 -> c_dst_value r = c_mem_value_raw r.
Proof.
  intros cpus half full others mem r a w d s1 k x1 x2 MS I C. pose proof (ms_cpu _ _ _ _ _ MS) as A. assert (NW : w <> wW).
  { intros ->. destruct (ca_ok _ _ _ _ _ C) as (_ & _ & _ & K). specialize (K eq_refl). discriminate. }
  apply (load_sound r a x1 x2 w true d s1 k (accepted_row cpus r A I) C NW); [|discriminate].
  apply (cpu_memory cpus half full others mem MS w r I). unfold c_op. rewrite (ca_inst _ _ _ _ _ C). destruct w; reflexivity.
Qed.
(** Signed loads write the sign-extended value, provided the sign column is right, which is not checked: the range check
    meant to enforce it is on the value minus its own sign extension. *)
Theorem C36_load_signed_partial : forall cpus half full others mem r a w d s1 k x1 x2, mem_system cpus half full others mem -> In r cpus ->
  carries r a (Load w false d s1 k) x1 x2 -> w <> wW ->
  c_dst_sign_bit r = b2z (2 ^ (8 * Z.of_nat (nbytes w) - 1) <=? c_mem_value_raw r) -> c_dst_value r = sext (nbytes w) (c_mem_value_raw r).
Proof.
  intros cpus half full others mem r a w d s1 k x1 x2 MS I C NW SB. pose proof (ms_cpu _ _ _ _ _ MS) as A. apply (load_sound r a x1 x2 w false d s1 k (accepted_row cpus r A I) C NW); [|auto].
  apply (cpu_memory cpus half full others mem MS w r I). unfold c_op. rewrite (ca_inst _ _ _ _ _ C). destruct w; reflexivity.
Qed.
Theorem C36_lb_sign_refuted : exists cpus half full mem r, mem_system cpus half full [] mem /\ In r cpus /\ carries r 0 (Load wB false 3 2 0) 0 1000 /\
  c_mem_value_raw r = 5 /\ sext 1 5 = 5 /\ c_dst_value r = 4294967045.
Proof. destruct forged_systems as (H & _). do 4 eexists. exists forged_lb. split; [exact H|]. split; [apply in_table|]. split; [apply forged_carries|]. auto. Qed.
(** Word loads may write any value: no constraint mentions both the word exchanged with memory and the destination. *)
Theorem C36_lw_refuted : exists cpus half full mem r, mem_system cpus half full [] mem /\ In r cpus /\ carries r 0 (Load wW false 3 2 0) 0 1000 /\
  c_mem_value_raw r = 5 /\ c_dst_value r = 6.
Proof. destruct forged_systems as (_ & H & _). do 4 eexists. exists forged_lw. split; [exact H|]. split; [apply in_table|]. split; [carry|]. auto. Qed.
(** Byte and half-word stores send the low bits of the source register, provided the row's XOR triple is right; the
    filter of the XOR lookup omits these rows, so it is not checked. *)
Theorem C36_store_partial : forall cpus half full others mem r a w b s2 k x1 x2, mem_system cpus half full others mem -> In r cpus ->
  carries r a (Store w b s2 k) x1 x2 -> w <> wW ->
  c_xor_out r = Z.lxor (c_xor_a r) (c_xor_b r) -> u32 (c_xor_b r) -> c_mem_value_raw r = x1 mod 2 ^ (8 * Z.of_nat (nbytes w)).
Proof. intros cpus half full others mem r a w b s2 k x1 x2 MS I C NW X U. exact (store_sound r a x1 x2 w b s2 k (accepted_row cpus r (ms_cpu _ _ _ _ _ MS) I) C NW U X). Qed.
Theorem C36_sb_refuted : exists cpus half full mem r, mem_system cpus half full [] mem /\ In r cpus /\ carries r 0 (Store wB 2 1 0) 7 1000 /\
  7 mod 256 = 7 /\ c_mem_value_raw r = 9.
Proof. destruct forged_systems as (_ & _ & H & _). do 4 eexists. exists forged_sb. split; [exact H|]. split; [apply in_table|]. split; [apply forged_carries|]. auto. Qed.
(** Word stores may send any value. *)
Theorem C36_sw_refuted : exists cpus half full mem r, mem_system cpus half full [] mem /\ In r cpus /\ carries r 0 (Store wW 2 1 0) 7 1000 /\ c_mem_value_raw r = 9.
Proof. destruct forged_systems as (_ & _ & _ & H). do 4 eexists. exists forged_sw. split; [exact H|]. split; [apply in_table|]. split; [carry|]. auto. Qed.
Example C36_ex_load : (exists half full mem, mem_system (table_of demo_lb) half full [] mem) /\ carries demo_lb 8 (Load wB false 3 2 (-4)) 0 1004 /\
  c_dst_value demo_lb = sext 1 (c_mem_value_raw demo_lb) /\
  c_dst_sign_bit demo_lb = b2z (2 ^ (8 * Z.of_nat (nbytes wB) - 1) <=? c_mem_value_raw demo_lb) /\ c_mem_addr demo_lb = 1000.
Proof. destruct demo_systems as (H & _). split; [do 3 eexists; exact H|]. split; [carry|]. vm_compute. auto. Qed.
Example C36_ex_lhu : (exists half full mem, mem_system (table_of demo_lhu) half full [] mem) /\ carries demo_lhu 8 (Load wH true 3 2 (-4)) 0 1004 /\ c_dst_value demo_lhu = 40000.
Proof. destruct demo_systems as (_ & H & _). split; [do 3 eexists; exact H|]. split; [carry|reflexivity]. Qed.
Example C36_ex_store : (exists half full mem, mem_system (table_of demo_sh) half full [] mem) /\ carries demo_sh 8 (Store wH 2 1 8) 70000 992 /\
  c_xor_out demo_sh = Z.lxor (c_xor_a demo_sh) (c_xor_b demo_sh) /\ u32 (c_xor_b demo_sh).
Proof. destruct demo_systems as (_ & _ & H). split; [do 3 eexists; exact H|]. split; [carry|]. vm_compute. repeat split; congruence. Qed.

Print Assumptions C32_rom_injective_partial.
Print Assumptions C32_lb_lbu_refuted.
Print Assumptions C32_fetch.
Print Assumptions C32_halt_refuted.
Print Assumptions C33_halfword_sound.
Print Assumptions C33_fullword_sound.
Print Assumptions C33_cpu_bytes.
Print Assumptions C33_generated.
Print Assumptions C36_address.
Print Assumptions C36_offset.
Print Assumptions C36_load_unsigned.
Print Assumptions C36_load_signed_partial.
Print Assumptions C36_lb_sign_refuted.
Print Assumptions C36_lw_refuted.
Print Assumptions C36_store_partial.
Print Assumptions C36_sb_refuted.
Print Assumptions C36_sw_refuted.
