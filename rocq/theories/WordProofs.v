(** Proofs about the half- and full-word memory tables and their lookups. *)
From Verif Require Import StateSpec TableProofs CpuArith CpuProofs CpuSound CpuTrace StateProofs.
Import RvSpec.
Open Scope Z_scope.
Ltac Zify.zify_post_hook ::= Z.div_mod_to_equations.

Lemma tuple_canon : forall u v, Forall canon u -> Forall canon v -> tuple_key u = tuple_key v -> u = v.
Proof.
  induction u as [|x u IH]; intros [|y v] Cu Cv E; try discriminate; auto. unfold tuple_key in E. cbn in E. injection E as E1 E2.
  inversion Cu; inversion Cv; subst. f_equal; [apply canon_mod; auto|apply IH; auto].
Qed.
Lemma op_filter_bit cpus r l : cpu_accepted cpus -> In r cpus -> List.NoDup l -> bit (sumZ (map (c_op r) l)).
Proof. intros A I N. destruct (accepted_always _ _ A I) as [C Z0]. apply (filter_bit r l C Z0 N). Qed.
Lemma mem_filter_bits st ld cpus : cpu_accepted cpus -> st <> ld -> Forall (fun e => bit (snd e)) (cpu_mem_looking st ld cpus).
Proof.
  intros A N. apply Forall_forall. intros e I. unfold cpu_mem_looking in I. apply in_map_iff in I as (r & <- & I). cbn [snd].
  assert (B : bit (sumZ (map (c_op r) [st; ld]))). { eapply op_filter_bit; eauto. constructor; [intros [K|[]]; auto|]. constructor; [intros []|constructor]. }
  unfold sumZ in B. cbn [map fold_left] in B. rewrite Z.add_0_l in B. exact B.
Qed.
Lemma half_zero t r : trace_sat half_air t -> In r t -> all_zero (half_constraints r).
Proof. intros S I. apply In_lookup in I as [k E]. destruct (succ_mod t k r E) as [r' E']. exact (ts_always _ _ S k r r' E E'). Qed.
Lemma full_zero t r : trace_sat full_air t -> In r t -> all_zero (full_constraints r).
Proof. intros S I. apply In_lookup in I as [k E]. destruct (succ_mod t k r E) as [r' E']. exact (ts_always _ _ S k r r' E E'). Qed.
Lemma word_bits n r : word_typed n r -> (all_zero (half_constraints r) \/ all_zero (full_constraints r)) ->
  bit (w_store r) /\ bit (w_load r) /\ bit (w_executed r).
Proof.
  intros (_ & _ & C) Z0. apply Forall_app in C as [C _]. pose proof (Forall_inv C) as C1. apply Forall_inv_tail in C. pose proof (Forall_inv C) as C2.
  apply Forall_inv_tail in C. pose proof (Forall_inv C) as C3.
  assert (Z1 : fzero (is_binary (w_store r)) /\ fzero (is_binary (w_load r)) /\ fzero (is_binary (w_executed r))).
  { destruct Z0 as [Z0|Z0]; unfold half_constraints, full_constraints, all_zero in Z0.
    - pose proof (Forall_inv Z0) as Z1. apply Forall_inv_tail in Z0. pose proof (Forall_inv Z0) as Z2. apply Forall_inv_tail in Z0.
      pose proof (Forall_inv Z0) as Z3. auto.
    - apply Forall_app in Z0 as [Z0 _]. pose proof (Forall_inv Z0) as Z1. apply Forall_inv_tail in Z0. pose proof (Forall_inv Z0) as Z2. apply Forall_inv_tail in Z0.
      pose proof (Forall_inv Z0) as Z3. auto. }
  destruct Z1 as (Za & Zb & Zc). apply binary_canon in Za; [|exact C2]. apply binary_canon in Zb; [|exact C3]. split; [exact Za|]. split; [exact Zb|].
  apply binary_canon in Zc; [exact Zc|]. unfold w_executed, canon, P in *. lia.
Qed.
Lemma nth_canon l k : Forall canon l -> canon (nth k l 0).
Proof.
  intros C. destruct (le_lt_dec (length l) k) as [L|L]; [rewrite nth_overflow by lia; unfold canon, P; lia|].
  rewrite Forall_forall in C. apply C, nth_In, L.
Qed.

Section System.
Context (cpus : list cpu) (half full : list wordrow) (others : entries) (mem : list memrow) (M : mem_system cpus half full others mem).
Lemma into_bits : Forall (fun e => bit (snd e)) (cpu_byte_looking cpus ++ others ++ word_limb_looking 4 full ++ word_limb_looking 2 half).
Proof.
  apply Forall_app. split; [apply mem_filter_bits; [apply (ms_cpu _ _ _ _ _ M)|discriminate]|].
  apply Forall_app. split; [apply (ms_others _ _ _ _ _ M)|]. apply Forall_app. split.
  - apply Forall_forall. intros e I. unfold word_limb_looking in I. apply in_flat_map in I as (i & _ & I). apply in_map_iff in I as (r & <- & I). cbn [snd].
    pose proof (ms_full_typed _ _ _ _ _ M) as T. rewrite Forall_forall in T. apply (word_bits 4 r (T r I)). right. apply (full_zero full); auto. apply (ms_full _ _ _ _ _ M).
  - apply Forall_forall. intros e I. unfold word_limb_looking in I. apply in_flat_map in I as (i & _ & I). apply in_map_iff in I as (r & <- & I). cbn [snd].
    pose proof (ms_half_typed _ _ _ _ _ M) as T. rewrite Forall_forall in T. apply (word_bits 2 r (T r I)). left. apply (half_zero half); auto. apply (ms_half _ _ _ _ _ M).
Qed.
Lemma into_len : Z.of_nat (length (cpu_byte_looking cpus ++ others ++ word_limb_looking 4 full ++ word_limb_looking 2 half)) < P.
Proof.
  pose proof (ac_len _ (ms_cpu _ _ _ _ _ M)) as L1. pose proof (ms_others_len _ _ _ _ _ M) as L2. pose proof (ms_full_len _ _ _ _ _ M) as L3.
  pose proof (ms_half_len _ _ _ _ _ M) as L4. unfold max_rows in *. unfold cpu_byte_looking, cpu_mem_looking, word_limb_looking.
  cbn [seq flat_map]. rewrite !app_length, !map_length. cbn [length]. unfold P. lia.
Qed.
Lemma into_mem c st ld a v : Forall canon [c; st; ld; a; v] ->
  In ([c; st; ld; a; v], 1) (cpu_byte_looking cpus ++ others ++ word_limb_looking 4 full ++ word_limb_looking 2 half) ->
  accesses mem c st ld a v /\ u32 a /\ u8 v.
Proof.
  intros C I. destruct (ctl_member _ _ _ (ms_into _ _ _ _ _ M) into_bits into_len I) as (t & m & Im & K & NZ).
  unfold mem_looked in Im. apply in_map_iff in Im as (q & E & Iq). injection E as <- <-.
  pose proof (ma_canon _ (ms_mem _ _ _ _ _ M)) as CM. rewrite Forall_forall in CM. destruct (CM q Iq) as (C1 & C2 & C3 & C4 & C5 & C6 & C7).
  apply tuple_canon in K; [|repeat (constructor; auto)|exact C]. injection K as <- <- <- <- <-. split; [|split].
  - exists q. auto 6.
  - apply (m_addr_u32 mem (ms_mem _ _ _ _ _ M) q Iq).
  - destruct (In_lookup _ _ Iq) as [k Ek]. destruct (m_bits mem (ms_mem _ _ _ _ _ M) k q Ek) as (_ & B1 & B2 & B3 & B4 & _).
    apply (ma_u8 _ (ms_mem _ _ _ _ _ M) _ (m_executed q)); [unfold mem_u8_looking; apply in_map_iff; exists q; auto|].
    intros Z0. apply NZ. unfold m_executed, bit in *. apply fzero_small in Z0; [|unfold P; lia]. replace (m_store q + m_load q) with 0 by lia. reflexivity.
Qed.
Lemma limb_in n t r i : In r t -> (i < n)%nat -> w_executed r = 1 ->
  In ([w_clk r; w_store r; w_load r; nth i (w_addrs r) 0; nth i (w_limbs r) 0], 1) (word_limb_looking n t).
Proof. intros I L E. unfold word_limb_looking. apply in_flat_map. exists i. split; [apply in_seq; lia|]. apply in_map_iff. exists r. rewrite E. auto. Qed.
Lemma word_row_canon n r i : word_typed n r -> Forall canon [w_clk r; w_store r; w_load r; nth i (w_addrs r) 0; nth i (w_limbs r) 0].
Proof.
  intros (_ & _ & C). apply Forall_app in C as [C C']. apply Forall_app in C' as [C1 C2].
  apply (Forall_app _ [w_clk r; w_store r; w_load r] [_; _]). split; [exact C|]. repeat constructor; apply nth_canon; auto.
Qed.
Lemma full_typed r : In r full -> word_typed 4 r.
Proof. intros I. pose proof (ms_full_typed _ _ _ _ _ M) as T. rewrite Forall_forall in T. auto. Qed.
Lemma half_typed r : In r half -> word_typed 2 r.
Proof. intros I. pose proof (ms_half_typed _ _ _ _ _ M) as T. rewrite Forall_forall in T. auto. Qed.
Lemma full_limb r i : In r full -> w_executed r = 1 -> (i < 4)%nat ->
  accesses mem (w_clk r) (w_store r) (w_load r) (nth i (w_addrs r) 0) (nth i (w_limbs r) 0) /\ u32 (nth i (w_addrs r) 0) /\ u8 (nth i (w_limbs r) 0).
Proof.
  intros I E L. apply into_mem; [apply (word_row_canon 4), full_typed, I|]. do 2 (apply in_or_app; right). apply in_or_app. left. apply limb_in; auto.
Qed.
Lemma half_limb r i : In r half -> w_executed r = 1 -> (i < 2)%nat ->
  accesses mem (w_clk r) (w_store r) (w_load r) (nth i (w_addrs r) 0) (nth i (w_limbs r) 0) /\ u32 (nth i (w_addrs r) 0) /\ u8 (nth i (w_limbs r) 0).
Proof.
  intros I E L. apply into_mem; [apply (word_row_canon 2), half_typed, I|]. do 2 (apply in_or_app; right). apply in_or_app. right. apply limb_in; auto.
Qed.
Lemma full_addr r i : In r full -> w_executed r = 1 -> (i < 4)%nat -> nth i (w_addrs r) 0 = word (nth 0 (w_addrs r) 0 + Z.of_nat i).
Proof.
  intros I E L. destruct (full_limb r i I E L) as (_ & U & _). destruct (full_limb r 0 I E ltac:(lia)) as (_ & U0 & _).
  destruct i as [|i]; [unfold word, M32, u32 in *; rewrite Z.mod_small; lia|].
  pose proof (full_zero full r (ms_full _ _ _ _ _ M) I) as Z0. unfold full_constraints, all_zero in Z0. apply Forall_app in Z0 as [_ Z0].
  rewrite Forall_forall in Z0. set (j := S i) in *.
  assert (K : fzero (w_executed r * (nth j (w_addrs r) 0 - (nth 0 (w_addrs r) 0 + Z.of_nat j)) * (nth j (w_addrs r) 0 + 2 ^ 32 - (nth 0 (w_addrs r) 0 + Z.of_nat j)))).
  { apply Z0. apply in_map_iff. exists j. split; [reflexivity|]. unfold j. cbn. lia. }
  rewrite E, Z.mul_1_l in K. unfold word, M32, u32, j in *. apply fzero_mul in K as [K|K]; apply fzero_small in K; unfold P; lia.
Qed.
Lemma half_addr r : In r half -> w_executed r = 1 -> nth 1 (w_addrs r) 0 = word (nth 0 (w_addrs r) 0 + 1).
Proof.
  intros I E. destruct (half_limb r 1 I E ltac:(lia)) as (_ & U & _). destruct (half_limb r 0 I E ltac:(lia)) as (_ & U0 & _).
  pose proof (half_zero half r (ms_half _ _ _ _ _ M) I) as Z0. unfold half_constraints, all_zero in Z0. inv_forall Z0. rewrite E, Z.mul_1_l in Z0c2.
  unfold word, M32, u32 in *. apply fzero_mul in Z0c2 as [K|K]; apply fzero_small in K; unfold P; lia.
Qed.

(** ** What the CPU exchanges with memory *)
Definition store_sel (w : width) : osel := match w with wB => o_sb | wH => o_sh | wW => o_sw end.
Definition load_sel (w : width) : osel := match w with wB => o_lb | wH => o_lh | wW => o_lw end.
Lemma cpu_row_canon r st ld : In r cpus -> Forall canon [c_clk r; c_op r st; c_op r ld; c_mem_addr r; c_mem_value_raw r].
Proof.
  intros I. pose proof (ac_canon _ (ms_cpu _ _ _ _ _ M)) as C. rewrite Forall_forall in C. specialize (C r I). rewrite Forall_forall in C.
  assert (CO : forall s, canon (c_op r s)) by (intros s; apply C; unfold cpu_columns; apply in_or_app; right; apply in_or_app; left; apply in_map, all_osel_in).
  assert (C1 : canon (c_clk r)) by (apply C; in_cols). assert (C2 : canon (c_mem_addr r)) by (apply C; in_cols). assert (C3 : canon (c_mem_value_raw r)) by (apply C; in_cols).
  auto 10.
Qed.
Lemma bytes2 l : length l = 2%nat -> Forall u8 l -> 0 <= reduce_with_powers l 256 < 2 ^ 16 /\
  forall i, (i < 2)%nat -> reduce_with_powers l 256 / 256 ^ Z.of_nat i mod 256 = nth i l 0.
Proof.
  intros L F. destruct l as [|a [|b [|]]]; try discriminate. inversion F as [|? ? A F1]; subst. inversion F1 as [|? ? B F2]; subst. clear F F1 F2.
  unfold reduce_with_powers, u8 in *. cbn [fold_right]. split; [lia|]. intros [|[|i]] Li; [| |lia]; cbn [nth Z.of_nat]; change (256 ^ 0) with 1; change (256 ^ Z.of_nat 1) with 256; lia.
Qed.
Lemma bytes4 l : length l = 4%nat -> Forall u8 l -> 0 <= reduce_with_powers l 256 < 2 ^ 32 /\
  forall i, (i < 4)%nat -> reduce_with_powers l 256 / 256 ^ Z.of_nat i mod 256 = nth i l 0.
Proof.
  intros L F. destruct l as [|a [|b [|c [|d [|]]]]]; try discriminate. inversion F as [|? ? A F1]; subst. inversion F1 as [|? ? B F2]; subst.
  inversion F2 as [|? ? C F3]; subst. inversion F3 as [|? ? D F4]; subst. clear F F1 F2 F3 F4.
  unfold reduce_with_powers, u8 in *. cbn [fold_right]. split; [lia|]. intros [|[|[|[|i]]]] Li; [| | | |lia]; cbn [nth Z.of_nat];
   [change (256 ^ 0) with 1|change (256 ^ Z.of_nat 1) with 256|change (256 ^ Z.of_nat 2) with 65536|change (256 ^ Z.of_nat 3) with 16777216]; lia.
Qed.
Lemma limbs_u8 (n : nat) (r : wordrow) : length (w_limbs r) = n -> (forall i, (i < n)%nat -> u8 (nth i (w_limbs r) 0)) -> Forall u8 (w_limbs r).
Proof. intros L H. apply Forall_forall. intros x I. apply (In_nth _ _ 0) in I as (i & Li & <-). apply H. lia. Qed.
Lemma word_link n t r cpus' st ld : ctl_ok (cpu_mem_looking st ld cpus') (word_looked t) -> cpu_accepted cpus' -> st <> ld ->
  Forall (word_typed n) t -> (forall q, In q t -> w_executed q = 1 -> 0 <= reduce_with_powers (w_limbs q) 256 < P) ->
  (forall q, In q t -> bit (w_executed q)) ->
  In r cpus' -> Forall canon [c_clk r; c_op r st; c_op r ld; c_mem_addr r; c_mem_value_raw r] -> c_op r st + c_op r ld = 1 ->
  exists q, In q t /\ w_executed q = 1 /\ w_clk q = c_clk r /\ w_store q = c_op r st /\ w_load q = c_op r ld /\ nth 0 (w_addrs q) 0 = c_mem_addr r /\
    reduce_with_powers (w_limbs q) 256 = c_mem_value_raw r.
Proof.
  intros CT A N T RB BT I C E.
  assert (I1 : In ([c_clk r; c_op r st; c_op r ld; c_mem_addr r; c_mem_value_raw r], 1) (cpu_mem_looking st ld cpus')).
  { unfold cpu_mem_looking. apply in_map_iff. exists r. rewrite E. auto. }
  assert (L : Z.of_nat (length (cpu_mem_looking st ld cpus')) < P).
  { unfold cpu_mem_looking. rewrite map_length. pose proof (ac_len _ A) as L. unfold max_rows in L. unfold P. lia. }
  destruct (ctl_member _ _ _ CT (mem_filter_bits st ld _ A N) L I1) as (u & m & Im & K & NZ).
  unfold word_looked in Im. apply in_map_iff in Im as (q & Eq & Iq). injection Eq as <- <-. exists q. split; [exact Iq|].
  assert (X : w_executed q = 1) by (apply bit_nz; auto). split; [exact X|]. rewrite Forall_forall in T. destruct (T q Iq) as (La & Ll & CW).
  apply Forall_app in CW as [CW CW']. apply Forall_app in CW' as [CW1 CW2].
  apply tuple_canon in K; [|apply (Forall_app _ [w_clk q; w_store q; w_load q] [_; _]); split; [exact CW|]; constructor; [apply nth_canon; auto|constructor; [apply RB; auto|constructor]]|exact C].
  injection K as <- <- <- <- <-. auto 6.
Qed.
Theorem cpu_memory w r : In r cpus -> c_op r (store_sel w) + c_op r (load_sel w) = 1 ->
  u32 (c_mem_addr r) /\ 0 <= c_mem_value_raw r < 2 ^ (8 * Z.of_nat (nbytes w)) /\
  forall i, (i < nbytes w)%nat -> accesses mem (c_clk r) (c_op r (store_sel w)) (c_op r (load_sel w)) (word (c_mem_addr r + Z.of_nat i)) (c_mem_value_raw r / 256 ^ Z.of_nat i mod 256).
Proof.
  intros I E. pose proof (cpu_row_canon r (store_sel w) (load_sel w) I) as C. destruct w; cbn [store_sel load_sel nbytes] in *.
  - destruct (into_mem (c_clk r) (c_op r o_sb) (c_op r o_lb) (c_mem_addr r) (c_mem_value_raw r) C) as (Ac & U & V).
    { apply in_or_app. left. unfold cpu_byte_looking, cpu_mem_looking. apply in_map_iff. exists r. rewrite E. auto. }
    split; [exact U|]. split; [unfold u8 in V; cbn; lia|]. intros i L. replace i with 0%nat by lia. cbn [Z.of_nat]. unfold u8, u32 in *.
    rewrite Z.add_0_r, Z.pow_0_r, Z.div_1_r. unfold word, M32. rewrite !Z.mod_small by lia. exact Ac.
  - destruct (word_link 2 half r cpus o_sh o_lh) as (q & Iq & X & E1 & E2 & E3 & E4 & E5); auto; try discriminate.
    { apply (ms_half_ctl _ _ _ _ _ M). } { apply (ms_cpu _ _ _ _ _ M). } { apply (ms_half_typed _ _ _ _ _ M). }
    { intros q Iq X. destruct (half_typed q Iq) as (_ & Ll & _). destruct (bytes2 (w_limbs q) Ll) as [B _]; [|unfold P; lia].
      apply (limbs_u8 2); auto. intros i Li. apply (half_limb q i Iq X Li). }
    { intros q Iq. apply (word_bits 2 q (half_typed q Iq)). left. apply (half_zero half); auto. apply (ms_half _ _ _ _ _ M). }
    destruct (half_typed q Iq) as (_ & Ll & _). destruct (bytes2 (w_limbs q) Ll) as [B Bi].
    { apply (limbs_u8 2); auto. intros i Li. apply (half_limb q i Iq X Li). }
    destruct (half_limb q 0 Iq X ltac:(lia)) as (_ & U & _). rewrite <- E1, <- E2, <- E3, <- E4, <- E5. split; [exact U|]. split; [exact B|].
    intros i Li. rewrite Bi by exact Li. destruct (half_limb q i Iq X Li) as (Ac & _).
    assert (EA : nth i (w_addrs q) 0 = word (nth 0 (w_addrs q) 0 + Z.of_nat i)).
    { destruct i as [|[|i]]; [unfold word, M32, u32 in *; rewrite Z.mod_small; lia|apply half_addr; auto|lia]. }
    rewrite <- EA. exact Ac.
  - destruct (word_link 4 full r cpus o_sw o_lw) as (q & Iq & X & E1 & E2 & E3 & E4 & E5); auto; try discriminate.
    { apply (ms_full_ctl _ _ _ _ _ M). } { apply (ms_cpu _ _ _ _ _ M). } { apply (ms_full_typed _ _ _ _ _ M). }
    { intros q Iq X. destruct (full_typed q Iq) as (_ & Ll & _). destruct (bytes4 (w_limbs q) Ll) as [B _]; [|unfold P; lia].
      apply (limbs_u8 4); auto. intros i Li. apply (full_limb q i Iq X Li). }
    { intros q Iq. apply (word_bits 4 q (full_typed q Iq)). right. apply (full_zero full); auto. apply (ms_full _ _ _ _ _ M). }
    destruct (full_typed q Iq) as (_ & Ll & _). destruct (bytes4 (w_limbs q) Ll) as [B Bi].
    { apply (limbs_u8 4); auto. intros i Li. apply (full_limb q i Iq X Li). }
    destruct (full_limb q 0 Iq X ltac:(lia)) as (_ & U & _). rewrite <- E1, <- E2, <- E3, <- E4, <- E5. split; [exact U|]. split; [exact B|].
    intros i Li. rewrite Bi by exact Li. destruct (full_limb q i Iq X Li) as (Ac & _). rewrite <- (full_addr q i Iq X Li). exact Ac.
Qed.
End System.
