(** The accesses of the memory table are those the other tables ask for. *)
From Verif Require Import MemGenModel MemGenProofs MemGenSteps MemGenAccs StateSpec DeviceSpec DeviceProofs TableProofs CpuTrace StateProofs StateWitness WordProofs StepProofs ExecProofs EcallProofs RunProofs CpuProofs CpuComplete CpuGen WordProps PoseidonSpec PoseidonPerm PoseidonGen PoseidonLook DeviceProps.
Open Scope Z_scope.

Definition acc_entry (r : memrow) : list Z * Z := ([m_clk r; m_store r; m_load r; m_addr r; m_value r], m_store r + m_load r).
Lemma mult_acc_flat {A} v (f : A -> list memrow) t : mult_of v (map acc_entry (flat_map f t)) = sumZ (map (fun x => mult_of v (map acc_entry (f x))) t).
Proof. induction t as [|x t IH]; [reflexivity|]. cbn [flat_map map]. rewrite map_app, mult_of_app, sumZ_cons, IH. reflexivity. Qed.
Lemma mult_acc_omap {A} v (f : A -> option memrow) t : mult_of v (map acc_entry (omap f t)) = sumZ (map (fun x => match f x with Some r => mult_of v [acc_entry r] | None => 0 end) t).
Proof.
  induction t as [|x t IH]; [reflexivity|]. change (omap f (x :: t)) with (match f x with Some y => y :: omap f t | None => omap f t end). cbn [map]. rewrite sumZ_cons, <- IH. destruct (f x) as [r|]; [|lia]. cbn [map].
  change (acc_entry r :: map acc_entry (omap f t)) with ([acc_entry r] ++ map acc_entry (omap f t)). rewrite mult_of_app. reflexivity.
Qed.
Lemma mult_one v t w : mult_of v [(t, w)] = if decide (tuple_key t = tuple_key v) then w else 0.
Proof. rewrite mult_of_cons. change (mult_of v []) with 0. lia. Qed.
Lemma combine_nth_map {A B} (d1 : A) (d2 : B) : forall l1 l2, length l1 = length l2 -> combine l1 l2 = map (fun k => (nth k l1 d1, nth k l2 d2)) (seq 0 (length l1)).
Proof.
  induction l1 as [|x l1 IH]; intros [|y l2] L; try discriminate L; [reflexivity|]. cbn [combine length seq map nth]. f_equal. rewrite (IH l2) by (cbn in L; lia). rewrite <- seq_shift, map_map. reflexivity.
Qed.
Lemma word_mult v n t : (forall r, In r t -> length (w_addrs r) = n /\ length (w_limbs r) = n /\ (w_executed r = 0 \/ w_executed r = 1)) ->
  mult_of v (map acc_entry (flat_map mem_of_word t)) = mult_of v (word_limb_looking n t).
Proof.
  intros H. rewrite mult_acc_flat. unfold word_limb_looking. rewrite mult_flat_map.
  rewrite (sumZ_ext (fun k => mult_of v (map _ t)) (fun k => sumZ (map (fun r => if decide (tuple_key [w_clk r; w_store r; w_load r; nth k (w_addrs r) 0; nth k (w_limbs r) 0] = tuple_key v) then w_executed r else 0) t))) by (intros k _; rewrite mult_map; reflexivity).
  rewrite sumZ_swap. apply sumZ_ext. intros r I. destruct (H r I) as (L1 & L2 & X). unfold mem_of_word. destruct X as [X|X]; rewrite X.
  - cbn. symmetry. apply sumZ_zero. intros k _. destruct (decide _); reflexivity.
  - change (1 mod P =? 0) with false. cbv iota. rewrite (combine_nth_map 0 0) by congruence. rewrite !map_map, L1. unfold acc_entry. rewrite mult_map. cbn [m_clk m_store m_load m_addr m_value]. apply sumZ_ext. intros k _. destruct (decide _); [|reflexivity]. unfold w_executed in X. lia.
Qed.
Lemma sd_mult v t : (forall r, In r t -> d_store r = 0 \/ d_store r = 1) -> mult_of v (map acc_entry (omap mem_of_sd t)) = mult_of v (sd_mem_looking t).
Proof.
  intros H. rewrite mult_acc_omap. unfold sd_mem_looking. rewrite mult_map. apply sumZ_ext. intros r I. unfold mem_of_sd, acc_entry. destruct (H r I) as [X|X]; rewrite X.
  - cbn. destruct (decide _); reflexivity.
  - change (1 =? 1) with true. cbv iota. rewrite mult_one. cbn [m_clk m_store m_load m_addr m_value]. reflexivity.
Qed.
Lemma key_addr a b c d e : tuple_key [a; b; c; d mod P; e] = tuple_key [a; b; c; d; e].
Proof. unfold tuple_key. cbn [map]. rewrite Z.mod_mod by discriminate. reflexivity. Qed.
Lemma sponge_mult v t : (forall r, In r t -> s_executed r = 0 \/ s_executed r = 1) -> mult_of v (map acc_entry (flat_map mem_of_sponge t)) = mult_of v (sp_mem_looking t).
Proof.
  intros H. rewrite mult_acc_flat. unfold sp_mem_looking. rewrite mult_flat_map.
  rewrite (sumZ_ext (fun k => mult_of v (map _ t)) (fun k => sumZ (map (fun r => if decide (tuple_key [s_clk r; 0; 1; s_in r + Z.of_nat k; at_ (s_pre r) k] = tuple_key v) then s_executed r else 0) t))) by (intros k _; rewrite mult_map; reflexivity).
  rewrite sumZ_swap. apply sumZ_ext. intros r I. unfold mem_of_sponge. destruct (H r I) as [X|X]; rewrite X.
  - symmetry. apply sumZ_zero. intros k _. destruct (decide _); reflexivity.
  - change (1 mod P =? 0) with false. cbv iota. rewrite map_map. unfold acc_entry. rewrite mult_map. apply sumZ_ext. intros k _. cbn [m_clk m_store m_load m_addr m_value]. rewrite key_addr. destruct (decide _); reflexivity.
Qed.
Lemma ob_mult' v t : (forall r, In r t -> o_exe r = 0 \/ o_exe r = 1) -> mult_of v (map acc_entry (flat_map mem_of_ob t)) = mult_of v (ob_mem_looking t).
Proof.
  intros H. rewrite mult_acc_flat. unfold ob_mem_looking. rewrite mult_flat_map.
  rewrite (sumZ_ext (fun k => mult_of v (map _ t)) (fun k => sumZ (map (fun r => if decide (tuple_key [o_clk r; 1; 0; o_addr r + Z.of_nat k; at_ (o_bytes r) k] = tuple_key v) then o_exe r else 0) t))) by (intros k _; rewrite mult_map; reflexivity).
  rewrite sumZ_swap. apply sumZ_ext. intros r I. unfold mem_of_ob. destruct (H r I) as [X|X]; rewrite X.
  - symmetry. apply sumZ_zero. intros k _. destruct (decide _); reflexivity.
  - change (1 mod P =? 0) with false. cbv iota. rewrite map_map. unfold acc_entry. rewrite mult_map. apply sumZ_ext. intros k _. cbn [m_clk m_store m_load m_addr m_value]. rewrite key_addr. destruct (decide _); reflexivity.
Qed.
Section WithHash.
Variable permute : list Z -> list Z.
Hypothesis permute12 : forall l, state12 (permute l).
Variable utf8_ok : list Z -> bool.
Notation step_ok := (step_ok permute utf8_ok).
Lemma byte_mem p s i a : program_ok p -> step_ok p (s, i, a) -> (iop i = SB \/ iop i = LB \/ iop i = LBU) -> exists m, amem a = Some m.
Proof.
  intros PO [OK (s' & X)] H. assert (N : step_mem (s, i, a) <> []).
  { assert (G : load_size (iop i) = Some 1%nat \/ store_size (iop i) = Some 1%nat) by (destruct H as [-> |[-> | ->]]; auto). destruct G as [G|G].
    - destruct (MemGenSteps.load_effect permute utf8_ok s p a i s' 1 OK PO X G) as (_ & _ & ->). discriminate.
    - destruct (MemGenSteps.store_effect permute utf8_ok s p a i s' 1 OK PO X G) as (bs & LB & _ & _ & _ & _ & ->). destruct bs as [|b bs]; discriminate. }
  destruct (amem a) as [m|] eqn:E; [eauto|]. exfalso. apply N. unfold step_mem, mem_of_step. rewrite E. destruct H as [-> |[-> | ->]]; reflexivity.
Qed.
Lemma gen_mem s i a : c_clk (gen_row s i a) = clk s mod P /\ c_mem_addr (gen_row s i a) = match amem a with Some m => me_addr m | None => 0 end /\ c_mem_value_raw (gen_row s i a) = match amem a with Some m => me_raw_value m | None => 0 end.
Proof. unfold gen_row. destruct (gen_product _ _) as [[? ?] ?]. destruct (gen_div _ _ _ _ _) as [[[[[? ?] ?] ?] ?] ?]. auto. Qed.
Lemma cpu_mult p v rows : program_ok p -> Forall (step_ok p) rows -> mult_of v (map acc_entry (omap mem_of_step rows)) = mult_of v (cpu_byte_looking (generate_cpu_trace rows)).
Proof.
  intros PO F. rewrite mult_acc_omap. unfold cpu_byte_looking, generate_cpu_trace. rewrite (cpu_pad_mult permute utf8_ok). unfold cpu_mem_looking. rewrite mult_map, map_map. rewrite (sumZ_filter _ (fun x : state * instruction * aux => _)).
  - apply sumZ_ext. intros [[s i] a] I. rewrite List.Forall_forall in F. pose proof (byte_mem p s i a PO (F _ I)) as BM. destruct (gen_mem s i a) as (-> & -> & ->). rewrite !gen_ops. cbn [inst_cols i_ops]. unfold mem_of_step, acc_entry. destruct (iop i); cbn [sel_of];
      try (destruct (amem a); repeat case_decide; congruence || reflexivity);
      destruct BM as [m ->]; auto; rewrite mult_one; cbn [m_clk m_store m_load m_addr m_value]; repeat case_decide; congruence || reflexivity.
  - intros [[s i] a] I HO. rewrite !gen_ops. cbn [inst_cols i_ops]. unfold handled_elsewhere in HO. destruct (iop i); try discriminate HO; cbn [sel_of]; repeat case_decide; try congruence; reflexivity.
Qed.
Lemma into_mem p rows t v : good_program p -> Forall (step_ok p) rows -> generate_sponge_trace rows = Ok t ->
  mult_of v (map acc_entry (accs_of rows t)) =
  mult_of v (cpu_byte_looking (generate_cpu_trace rows) ++ (all_sd_mem_looking (fun o => generate_sd_trace o rows) ++ sp_mem_looking t ++ ob_mem_looking (generate_ob_trace t))
             ++ word_limb_looking 4 (generate_full_trace rows) ++ word_limb_looking 2 (generate_half_trace rows)).
Proof.
  intros GP F GT. pose proof (gp_code _ GP : program_ok p) as PO. unfold accs_of, word_accs. rewrite !map_app, !mult_of_app. rewrite (cpu_mult p v rows PO F).
  destruct (C33_generated permute utf8_ok p rows GP F) as (_ & T2 & _ & _ & T4 & _).
  rewrite (word_mult v 2 (generate_half_trace rows)), (word_mult v 4 (generate_full_trace rows)).
  2:{ intros r I. rewrite List.Forall_forall in T4. destruct (T4 r I) as (L1 & L2 & _). split; [exact L1|]. split; [exact L2|]. unfold generate_full_trace in I. apply pad_word_in in I as [I|(S & L & _)]; [right|left; unfold w_executed; rewrite S, L; reflexivity].
      apply in_map_iff in I as ([[s i] a] & <- & I). apply filter_In in I as [I HO]. rewrite List.Forall_forall in F. destruct (full_generated permute utf8_ok p s i a PO (F _ I) HO) as (_ & _ & _ & E). exact E. }
  2:{ intros r I. rewrite List.Forall_forall in T2. destruct (T2 r I) as (L1 & L2 & _). split; [exact L1|]. split; [exact L2|]. unfold generate_half_trace in I. apply pad_word_in in I as [I|(S & L & _)]; [right|left; unfold w_executed; rewrite S, L; reflexivity].
      apply in_map_iff in I as ([[s i] a] & <- & I). apply filter_In in I as [I HO]. rewrite List.Forall_forall in F. destruct (half_generated permute utf8_ok p s i a PO (F _ I) HO) as (_ & _ & _ & E). exact E. }
  destruct (sponge_shape permute permute12 utf8_ok p rows t PO F GT) as [Et _].
  rewrite sponge_mult, ob_mult'.
  - assert (ET : mult_of v (map acc_entry (tape_accs rows)) = mult_of v (all_sd_mem_looking (fun o => generate_sd_trace o rows))).
    { unfold tape_accs, all_sd_mem_looking. rewrite mult_acc_flat, mult_flat_map. apply sumZ_ext. intros o _. apply sd_mult. intros r I. unfold generate_sd_trace, pad_with in I. apply in_app_iff in I as [I|I]; [|apply repeat_spec in I; subst r; auto].
      apply in_flat_map in I as ([[c a] d] & _ & I). unfold gen_sd_rows in I. destruct I as [<-|I]; [auto|]. apply in_map_iff in I as ([k b] & <- & _). auto. }
    rewrite ET. lia.
  - intros r I. unfold generate_ob_trace, pad_with in I. apply in_app_iff in I as [I|I]; [|apply repeat_spec in I; subst r; auto]. apply in_omap in I as (q & _ & E). unfold ob_of in E. destruct (_ =? 1); [|discriminate E]. injection E as <-. auto.
  - intros r I. rewrite Et in I. unfold pad_with in I. apply in_app_iff in I as [I|I]; [|apply repeat_spec in I; subst r; auto]. unfold sp_blocks in I. apply in_flat_map in I as ([c e] & _ & I). right. apply (exe_rows c e r I).
Qed.
End WithHash.
