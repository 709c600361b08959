(** Properties C29 - C33 (and the address part of C36) of the circuits crate: CPU skeleton, register and memory
    tables, half- and full-word memory, program ROM. *)
From Verif Require Import RunSpec StateSpec TableProofs CpuArith CpuProofs CpuSound CpuWitness CpuTrace CpuMem StateProofs WordProofs RomProofs StateWitness ExecProofs StepProofs RunProofs RunnerProps CircuitProps.
Import RvSpec.
Open Scope Z_scope.
Ltac Zify.zify_post_hook ::= Z.div_mod_to_equations.

Lemma lookup_combine_seq {R} (t : list R) i r : t !! i = Some r -> combine (seq 0 (length t)) t !! i = Some (i, r).
Proof.
  assert (H : forall n, t !! i = Some r -> combine (seq n (length t)) t !! i = Some ((n + i)%nat, r)).
  { revert i. induction t as [|x t IH]; intros i n E; [discriminate|]. destruct i as [|i]; cbn in *; [injection E as ->; rewrite Nat.add_0_r; reflexivity|].
    pose proof (IH i (Datatypes.S n) E) as H. replace (n + Datatypes.S i)%nat with (Datatypes.S n + i)%nat by lia. exact H. }
  apply (H 0%nat).
Qed.

(** * C29 CPU skeleton *)
(** In every accepted skeleton of any length there is a number n of steps, at least one, such that the first n rows
    are running at clocks 2, 3, ..., all later rows (there is at least one) are halted at clock n + 2, and the first pc
    is the public entry point. *)
Theorem C29_skeleton_sound : forall entry t, skel_accepted entry t ->
  exists n, (0 < n < length t)%nat /\
  (forall k r, t !! k = Some r -> (k < n)%nat -> sk_running r = 1 /\ sk_clk r = 2 + Z.of_nat k) /\
  (forall k r, t !! k = Some r -> (n <= k)%nat -> sk_running r = 0 /\ sk_clk r = 2 + Z.of_nat n) /\
  exists r, t !! 0%nat = Some r /\ sk_pc r mod P = entry mod P.
Proof.
  intros entry t A. destruct (skel_sound entry t A) as (n & L & H1 & H2). exists n. split; [exact L|]. split; [exact H1|]. split; [exact H2|].
  destruct (sk_first entry t A) as (r & E & Ep & _). eauto.
Qed.
Section WithHash.
Variable permute : list Z -> list Z.
Variable utf8_ok : list Z -> bool.
Notation run := (step permute utf8_ok).
(** The skeleton generated from any successful run that starts at clock 2 (the clock of a freshly loaded program) at the
    entry point and executes at least one instruction satisfies the constraints. *)
Theorem C29_skeleton_complete : forall limit p fuel s rec, state_ok s -> good_program p -> clk s = 2 -> halted s = false ->
  run limit p fuel s = Ok rec ->
  let t := generate_skel_trace (map rstate (executed rec)) (last_state rec) in
  trace_sat (skel_air (pc s)) t /\ Forall (fun r => canon (sk_clk r) /\ canon (sk_pc r) /\ canon (sk_running r)) t.
Proof.
  intros limit p fuel s rec OK HP CK HA R t. pose proof (good_program_ok _ HP) as PO.
  destruct (run_record permute utf8_ok limit p fuel s rec OK PO R) as (HL & HR & HC).
  pose proof (run_first permute utf8_ok limit p fuel s rec R) as HF.
  assert (OKs : forall k st, state_at rec k = Some st -> state_ok st).
  { intros k st E. destruct (run_reach permute utf8_ok limit p fuel s s rec) as [F G]; [constructor|exact R|]. unfold state_at in E.
    destruct (executed rec !! k) as [r|] eqn:Er.
    - injection E as <-. rewrite Forall_forall in F. apply (reach_ok permute utf8_ok p s); auto. apply F. apply lookup_In in Er. exact Er.
    - destruct (_ =? _)%nat; [|discriminate]. injection E as <-. eapply (reach_ok permute utf8_ok p s); eauto. }
  set (n := length (executed rec)) in *.
  assert (N : (0 < n)%nat). { unfold state_at in HF. destruct (executed rec) as [|r l] eqn:E; [|cbn in n; lia]. cbn in HF. injection HF as HF. rewrite HF in HL. congruence. }
  assert (LK : forall k r, t !! k = Some r -> exists st, r = gen_skel_row st /\ state_at rec (Nat.min k n) = Some st).
  { intros k r E. unfold t, generate_skel_trace, pad_last, pad_with in E. rewrite map_app in E. cbn [map] in E. rewrite last_last in E.
    destruct (decide (k < n)%nat) as [L|L].
    - rewrite lookup_app_l in E by (rewrite app_length, !map_length; cbn; fold n; lia). rewrite lookup_app_l in E by (rewrite !map_length; exact L).
      rewrite !list_lookup_fmap in E. destruct (executed rec !! k) as [r0|] eqn:E0; [|discriminate]. cbn in E. injection E as <-.
      exists (rstate r0). split; [reflexivity|]. replace (Nat.min k n) with k by lia. unfold state_at. rewrite E0. reflexivity.
    - exists (last_state rec). split.
      + destruct (decide (k = n)) as [->|].
        * rewrite lookup_app_l in E by (rewrite app_length, !map_length; cbn; fold n; lia). rewrite lookup_app_r in E by (rewrite !map_length; fold n; lia).
          rewrite !map_length in E. fold n in E. rewrite Nat.sub_diag in E. cbn in E. injection E as <-. reflexivity.
        * rewrite lookup_app_r in E by (rewrite app_length, !map_length; cbn; fold n; lia). apply lookup_In, repeat_spec in E. exact E.
      + replace (Nat.min k n) with n by lia. unfold state_at. rewrite lookup_ge_None_2 by (fold n; lia). fold n. rewrite Nat.eqb_refl. reflexivity. }
  assert (ST : forall k st, (k <= n)%nat -> state_at rec k = Some st -> clk st = 2 + Z.of_nat k /\ halted st = negb (k <? n)%nat).
  { intros k st L E. unfold state_at in E. destruct (executed rec !! k) as [r|] eqn:Er.
    - injection E as <-. destruct (HR k r Er) as (H1 & H2 & _). apply lookup_lt_Some in Er. destruct (Nat.ltb_spec k n); [|fold n in Er; lia]. split; [lia|exact H1].
    - destruct (Nat.eqb_spec k (length (executed rec))) as [Q|]; [|discriminate]. injection E as <-. fold n in Q. rewrite Q, Nat.ltb_irrefl. split; [lia|exact HL]. }
  assert (LEN : (n < length t)%nat).
  { unfold t, generate_skel_trace, pad_last, pad_with. rewrite app_length, map_length, app_length, map_length. fold n. cbn [length]. lia. }
  split.
  - constructor; cbn [skel_air a_first a_always a_transition a_last].
    + intros E. rewrite E in LEN. cbn in LEN. lia.
    + intros r E. destruct (LK _ _ E) as (st & -> & Es). cbn [Nat.min] in Es. rewrite HF in Es. injection Es as <-. unfold gen_skel_row. cbn [sk_pc sk_clk sk_running].
      rewrite CK, HA. repeat constructor; try reflexivity. rewrite Z.sub_diag. reflexivity.
    + intros; constructor.
    + intros k r r' E E'. destruct (LK _ _ E) as (st & -> & Es). destruct (LK _ _ E') as (st' & -> & Es').
      destruct (ST (Nat.min k n) _ ltac:(lia) Es) as [C1 H1]. destruct (ST (Nat.min (S k) n) _ ltac:(lia) Es') as [C2 H2]. unfold gen_skel_row. cbn [sk_pc sk_clk sk_running].
      rewrite C1, C2, H1, H2, !negb_involutive.
      assert (D : exists z, (2 + Z.of_nat (Nat.min (S k) n)) mod P - (2 + Z.of_nat (Nat.min k n)) mod P = b2z (Nat.min k n <? n)%nat + z * P).
      { exists ((2 + Z.of_nat (Nat.min k n)) / P - (2 + Z.of_nat (Nat.min (S k) n)) / P).
        pose proof (Z.div_mod (2 + Z.of_nat (Nat.min (S k) n)) P ltac:(unfold P; lia)). pose proof (Z.div_mod (2 + Z.of_nat (Nat.min k n)) P ltac:(unfold P; lia)).
        destruct (Nat.ltb_spec (Nat.min k n) n) as [Q|Q]; cbn [b2z]; [replace (Nat.min (S k) n) with (S (Nat.min k n)) in * by lia|replace (Nat.min (S k) n) with (Nat.min k n) in * by lia]; lia. }
      destruct D as [z ->].
      assert (B : bit (b2z (Nat.min k n <? n)%nat)) by (destruct (_ <? _)%nat; cbn; unfold bit; auto).
      set (b := b2z (Nat.min k n <? n)%nat) in *. assert (FZ : fzero (z * P)) by apply Z_mod_mult.
      repeat apply List.Forall_cons; [| | |constructor].
      * unfold is_binary. replace ((b + z * P) * (1 - (b + z * P))) with (b * (1 - b) + (z * P) * (1 - 2 * b - z * P)) by ring.
        apply fzero_add; [destruct B as [-> | ->]; reflexivity|apply fzero_mul_l, FZ].
      * replace (b + z * P - b) with (z * P) by ring. exact FZ.
      * destruct (Nat.ltb_spec (Nat.min (S k) n) n) as [Q|Q]; [|reflexivity]. subst b. destruct (Nat.ltb_spec (Nat.min k n) n); [reflexivity|lia].
    + intros r E. rewrite last_lookup in E. destruct (LK _ _ E) as (st & -> & Es). destruct (ST (Nat.min (pred (length t)) n) _ ltac:(lia) Es) as [_ H1].
      unfold gen_skel_row. cbn [sk_running]. rewrite H1. replace (Nat.min (pred (length t)) n) with n by lia. rewrite Nat.ltb_irrefl. repeat constructor.
  - apply Forall_forall. intros r I. apply In_lookup in I as [k E]. destruct (LK _ _ E) as (st & -> & Es). unfold gen_skel_row. cbn [sk_pc sk_clk sk_running].
    split; [unfold canon; apply Z.mod_pos_bound; unfold P; lia|]. pose proof (ok_pc _ (OKs _ _ Es)) as Up. split; [unfold u32, canon, P in *; lia|].
    destruct (halted st); cbn; unfold canon, P; lia.
Qed.
(** ... in particular the one of every run the VM starts itself, with the program's entry point as public input. *)
Theorem C29_vm_run : forall limit p t fuel rec, good_program p -> good_tapes t -> run limit p fuel (state_new p t) = Ok rec ->
  let tr := generate_skel_trace (map rstate (executed rec)) (last_state rec) in
  trace_sat (skel_air (entry_point p)) tr /\ Forall (fun r => canon (sk_clk r) /\ canon (sk_pc r) /\ canon (sk_running r)) tr.
Proof.
  intros limit p t fuel rec HP HT R. exact (C29_skeleton_complete limit p fuel _ rec (state_new_ok _ _ HP HT) HP eq_refl eq_refl R).
Qed.
End WithHash.

Example C29_ex : exists rec, demo_run 11 = Ok rec /\ clk (state_new demo demo_tapes) = 2 /\ halted (state_new demo demo_tapes) = false /\
  skel_accepted 0 (generate_skel_trace (map rstate (executed rec)) (last_state rec)) /\ length (generate_skel_trace (map rstate (executed rec)) (last_state rec)) = 16%nat.
Proof.
  eexists. split; [vm_compute; reflexivity|]. split; [reflexivity|]. split; [reflexivity|]. split; [apply check_skel_ok; vm_compute; reflexivity|vm_compute; reflexivity].
Qed.

(** * C30 Registers *)
(** A read of a register returns the value of the latest earlier write of that register, or its initial value if there
    is none; within a clock cycle reads come before writes (the augmented clock is twice the clock, plus one for
    writes). This needs the initialisation of each register to come before its accesses ... *)
Theorem C30_reads_last_write_partial : forall t r, reg_accepted t -> reg_init_first t -> In r t -> g_read r = 1 ->
  reads_last_write t (fun r => g_init r = 1) (fun r => g_write r = 1) g_addr (fun r => 2 * g_clk r + g_write r) g_value r.
Proof.
  intros t r A O I R. pose proof (reg_reads t A O r I R) as H. unfold reads_last_write in *. unfold gI, gS, g_aug in *.
  destruct H as [(w & H1 & H2 & H3 & H4 & H5 & H6)|[H1 H2]]; [left; exists w|right; split; [|exact H2]].
  - repeat (split; [assumption || lia|]). intros w' J1 J2 J3 J4. specialize (H6 w' J1 J2 J3 ltac:(lia)). lia.
  - intros w' J1 J2 J3. specialize (H1 w' J1 J2 J3). lia.
Qed.
(** ... but nothing makes the first row an initialisation row: here every register is initialised exactly once (x1 to
    5), x1 is never written, and yet it is read as 77. *)
Theorem C30_first_row_refuted : exists t r, reg_accepted t /\
  map g_addr (List.filter (fun q => g_init q =? 1) t) = map Z.of_nat (seq 1 31) /\
  Forall (fun q => g_write q = 0) t /\ Forall (fun q => g_addr q = 1 -> g_init q = 1 -> g_value q = 5) t /\
  In r t /\ g_read r = 1 /\ g_addr r = 1 /\ g_value r = 77.
Proof.
  exists forged_regs, (mkReg 1 77 4 0 1 0). split; [apply demo_regs_ok|]. split; [vm_compute; reflexivity|]. split; [|split].
  - apply Forall_forall. intros q I. assert (H : forallb (fun q => g_write q =? 0) forged_regs = true) by (vm_compute; reflexivity).
    rewrite forallb_forall in H. apply Z.eqb_eq, H, I.
  - apply Forall_forall. intros q I A B. assert (H : forallb (fun q => negb (g_addr q =? 1) || negb (g_init q =? 1) || (g_value q =? 5)) forged_regs = true) by (vm_compute; reflexivity).
    rewrite forallb_forall in H. specialize (H q I). rewrite A, B in H. cbn in H. apply Z.eqb_eq, H.
  - cbn. auto.
Qed.
(** ... nor does anything forbid a second initialisation row: here x2 is never written, and read as 0, then as 9. *)
Theorem C30_reinit_refuted : exists t r r', reg_accepted t /\ Forall (fun q => g_write q = 0) t /\
  In r t /\ In r' t /\ g_read r = 1 /\ g_read r' = 1 /\ g_addr r = 2 /\ g_addr r' = 2 /\ g_clk r < g_clk r' /\ g_value r = 0 /\ g_value r' = 9.
Proof.
  exists forged_regs2, (mkReg 2 0 2 0 1 0), (mkReg 2 9 3 0 1 0). split; [apply demo_regs_ok|]. split; [|cbn; repeat split; auto 8].
  apply Forall_forall. intros q I. assert (H : forallb (fun q => g_write q =? 0) forged_regs2 = true) by (vm_compute; reflexivity).
  rewrite forallb_forall in H. apply Z.eqb_eq, H, I.
Qed.
(** In every accepted table the register numbers run from 1 to 31. *)
Theorem C30_register_numbers : forall t r, reg_accepted t -> In r t -> 1 <= g_addr r <= 31.
Proof. intros t r A I. apply In_lookup in I as [k E]. apply (g_addr_31 t A k r E). Qed.
Example C30_ex : reg_accepted demo_regs /\ reg_init_first demo_regs /\ In (mkReg 1 7 4 0 1 0) demo_regs.
Proof.
  split; [apply demo_regs_ok|]. split; [|cbn; auto 8]. constructor.
  - intros r E. injection E as <-. reflexivity.
  - intros i j r r' E E' I I' A. apply Nat.nle_gt. intros LE.
    assert (H : forallb (fun '(x, y) => negb ((g_rw (snd x) =? 1) && (g_init (snd y) =? 1) && (g_addr (snd x) =? g_addr (snd y))) || (fst y <? fst x)%nat)
      (list_prod (combine (seq 0 (length demo_regs)) demo_regs) (combine (seq 0 (length demo_regs)) demo_regs)) = true) by (vm_compute; reflexivity).
    rewrite forallb_forall in H. specialize (H ((i, r), (j, r'))). cbv beta iota in H. cbn [fst snd] in H.
    rewrite I, I', A, !Z.eqb_refl in H. assert (L : (j < i)%nat); [|lia]. apply Nat.ltb_lt. apply H. apply in_prod; [apply (lookup_In _ i)|apply (lookup_In _ j)]; apply lookup_combine_seq; auto.
Qed.

(** * C31 Memory *)
(** A load returns the value of the latest earlier store to that address, or the initial value if there is none (within
    a clock cycle loads come before stores). *)
Theorem C31_loads_last_store : forall t r, mem_accepted t -> In r t -> m_load r = 1 ->
  reads_last_write t (fun r => m_init r = 1) (fun r => m_store r = 1) m_addr (fun r => 2 * m_clk r + m_store r) m_value r.
Proof.
  intros t r A I R. pose proof (mem_reads t A r I R) as H. unfold reads_last_write in *. unfold mI, mS, m_aug in *.
  assert (B : forall q, In q t -> m_store q = 1 -> m_load q = 0 /\ m_init q = 0).
  { intros q J S. apply In_lookup in J as [k E]. destruct (m_bits t A k q E) as (_ & B1 & B2 & B3 & B4 & _). unfold m_executed, bit in *. lia. }
  assert (B' : m_store r = 0 /\ m_init r = 0).
  { apply In_lookup in I as [k E]. destruct (m_bits t A k r E) as (_ & B1 & B2 & B3 & B4 & _). unfold m_executed, bit in *. lia. }
  destruct H as [(w & H1 & H2 & H3 & H4 & H5 & H6)|[H1 H2]]; [left; exists w|right; split; [|exact H2]].
  - pose proof (B w H1 H2). repeat (split; [assumption || lia|]). intros w' J1 J2 J3 J4. pose proof (B w' J1 J2). specialize (H6 w' J1 J2 J3 ltac:(lia)). lia.
  - intros w' J1 J2 J3. pose proof (B w' J1 J2). specialize (H1 w' J1 J2 J3). lia.
Qed.
(** Every accessed address is a 32-bit number, holds bytes, and is initialised exactly once; one initialised as read-only
    is never stored to. *)
Theorem C31_one_init : forall t r, mem_accepted t -> In r t -> m_load r + m_store r + m_init r = 1 ->
  u32 (m_addr r) /\ u8 (m_value r) /\ exists! i, exists q, t !! i = Some q /\ m_init q = 1 /\ m_addr q = m_addr r.
Proof.
  intros t r A I X. split; [apply (m_addr_u32 t A r I)|]. split.
  - apply (ma_u8 _ A _ (m_executed r)); [unfold mem_u8_looking; apply in_map_iff; exists r; auto|]. unfold m_executed. replace (_ + _) with 1 by lia. discriminate.
  - destruct (In_lookup _ _ I) as [k E]. destruct (mem_block t A k r E) as (i & q & _ & Eq & Iq & Aq & _); [unfold m_executed; lia|].
    exists i. split; [exists q; auto|]. intros j (q' & Eq' & Iq' & Aq'). apply (mem_init_unique t A i j q q'); auto. lia.
Qed.
Theorem C31_readonly : forall t i w, mem_accepted t -> In i t -> In w t -> m_init i = 1 -> m_writable i = 0 -> m_addr w = m_addr i -> m_store w = 0.
Proof. intros t i w A. apply (mem_readonly t A). Qed.
Example C31_ex : mem_accepted demo_mem /\ In (mkMemRow 1 4 5 0 1 0 8) demo_mem /\ In (mkMemRow 0 100 1 0 0 1 7) demo_mem.
Proof. split; [apply demo_mem_ok|]. cbn. auto 10. Qed.

Print Assumptions C29_skeleton_sound.
Print Assumptions C29_skeleton_complete.
Print Assumptions C29_vm_run.
Print Assumptions C30_reads_last_write_partial.
Print Assumptions C30_first_row_refuted.
Print Assumptions C30_reinit_refuted.
Print Assumptions C30_register_numbers.
Print Assumptions C31_loads_last_store.
Print Assumptions C31_one_init.
Print Assumptions C31_readonly.
