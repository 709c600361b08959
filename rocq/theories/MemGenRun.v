(** The memory table of a whole execution. *)
From Verif Require Import MemGenModel MemGenProofs MemGenSteps MemGenAccs MemGenLook StateSpec DeviceSpec DeviceProofs TableProofs CpuTrace StateProofs StateWitness WordProofs StepProofs ExecProofs EcallProofs RunProofs CpuProofs CpuComplete CpuGen WordProps PoseidonSpec PoseidonPerm PoseidonGen PoseidonLook DeviceProps.
Open Scope Z_scope.

(** ** Initial rows *)
Definition elf_sorted (p : program) : list meminit := sort_by (fun x y => mi_addr x <=? mi_addr y) (elf_memory_init p).
Definition fresh (rows : list exrow) (p : program) : list Z :=
  sort_by Z.leb (elements ((list_to_set (used_in_execution rows) : gset Z) ∖ list_to_set (init_in_program p))).
Definition inits_of (rows : list exrow) (p : program) : list memrow :=
  omap mem_of_init (generate_memory_init_trace p) ++ omap mem_of_zero (generate_zero_init_trace rows p).
Lemma omap_pad {A B} (h : A -> option B) d l : h d = None -> omap h (pad_with d l) = omap h l.
Proof. intros E. unfold pad_with. rewrite omap_app. generalize (padded_len (length l) - length l)%nat. intros n. replace (omap h (repeat d n)) with (@nil B); [apply app_nil_r|]. symmetry. induction n as [|n IH]; [reflexivity|]. cbn [repeat]. change (omap h (d :: repeat d n)) with (match h d with Some y => y :: omap h (repeat d n) | None => omap h (repeat d n) end). rewrite E. exact IH. Qed.
Lemma omap_total {A B} (h : A -> option B) g l : (forall x, In x l -> h x = Some (g x)) -> omap h l = map g l.
Proof. induction l as [|x l IH]; intros H; [reflexivity|]. change (omap h (x :: l)) with (match h x with Some y => y :: omap h l | None => omap h l end). rewrite (H x (or_introl eq_refl)). cbn [map]. rewrite IH; auto. intros y I. apply H. right. exact I. Qed.
Lemma elf_row p r : In r (elf_sorted p) <-> (exists a b, ro_memory p !! a = Some b /\ r = mkMemInit a b 1 0) \/ (exists a b, rw_memory p !! a = Some b /\ r = mkMemInit a b 1 1).
Proof.
  unfold elf_sorted. rewrite sort_in. unfold elf_memory_init. rewrite in_app_iff, !in_map_iff. split.
  - intros [([a b] & <- & I)|([a b] & <- & I)]; apply elem_of_list_In, elem_of_map_to_list in I; [left|right]; eauto.
  - intros [(a & b & E & ->)|(a & b & E & ->)]; [left|right]; exists (a, b); (split; [reflexivity|]); apply elem_of_list_In, elem_of_map_to_list, E.
Qed.
Definition init_mem (r : meminit) : memrow := mkMemRow (mi_writable r) (mi_addr r) 1 0 0 1 (mi_value r).
Definition zero_mem (a : Z) : memrow := mkMemRow 1 a 0 0 0 1 0.
Lemma inits_eq rows p : inits_of rows p = map init_mem (elf_sorted p) ++ map zero_mem (fresh rows p).
Proof.
  unfold inits_of, generate_memory_init_trace, generate_zero_init_trace. rewrite !omap_pad by reflexivity. fold (elf_sorted p). fold (fresh rows p). f_equal.
  - apply omap_total. intros r I. apply elf_row in I as [(a & b & _ & ->)|(a & b & _ & ->)]; reflexivity.
  - rewrite (omap_total mem_of_zero (fun r => mkMemRow 1 (zi_addr r) 0 0 0 1 0)); [rewrite map_map; reflexivity|]. intros r I. apply in_map_iff in I as (a & <- & _). reflexivity.
Qed.
Lemma in_program p : init_in_program p = map mi_addr (elf_sorted p).
Proof.
  unfold init_in_program, generate_memory_init_trace. fold (elf_sorted p). f_equal. unfold pad_with. rewrite List.filter_app.
  generalize (padded_len (length (elf_sorted p)) - length (elf_sorted p))%nat. intros n. replace (List.filter _ (repeat _ n)) with (@nil meminit); [rewrite app_nil_r|].
  - assert (H : forall r, In r (elf_sorted p) -> mi_filter r = 1) by (intros r I; apply elf_row in I as [(a & b & _ & ->)|(a & b & _ & ->)]; reflexivity). clear -H. induction (elf_sorted p) as [|r l IH]; [reflexivity|]. cbn [List.filter]. rewrite (H r (or_introl eq_refl)). cbn [Z.eqb Pos.eqb]. f_equal. apply IH. intros q I. apply H. right. exact I.
  - induction n as [|n IH]; [reflexivity|]. exact IH.
Qed.
Lemma in_elf p a : In a (map mi_addr (elf_sorted p)) <-> is_Some (ro_memory p !! a) \/ is_Some (rw_memory p !! a).
Proof.
  rewrite in_map_iff. split.
  - intros (r & <- & I). apply elf_row in I as [(x & b & E & ->)|(x & b & E & ->)]; [left|right]; cbn; eauto.
  - intros [[b E]|[b E]]; [exists (mkMemInit a b 1 0)|exists (mkMemInit a b 1 1)]; (split; [reflexivity|]); apply elf_row; [left|right]; eauto.
Qed.
Lemma in_fresh rows p a : In a (fresh rows p) <-> In a (used_in_execution rows) /\ ~ In a (map mi_addr (elf_sorted p)).
Proof.
  unfold fresh. rewrite sort_in, <- elem_of_list_In, elem_of_elements, elem_of_difference, !elem_of_list_to_set, in_program, !elem_of_list_In. reflexivity.
Qed.
Lemma init_addrs rows p : map m_addr (inits_of rows p) = map mi_addr (elf_sorted p) ++ fresh rows p.
Proof. rewrite inits_eq, map_app, !map_map. f_equal. rewrite <- (map_id (fresh rows p)) at 2. apply map_ext. reflexivity. Qed.
Lemma in_inits rows p a : In a (map m_addr (inits_of rows p)) <-> is_Some (ro_memory p !! a) \/ is_Some (rw_memory p !! a) \/ In a (used_in_execution rows).
Proof.
  rewrite init_addrs, in_app_iff, in_elf, in_fresh, in_elf. split.
  - intros [[H|H]|[H _]]; auto.
  - intros [H|[H|H]]; auto. destruct (ro_memory p !! a) as [b|] eqn:E1; [left; left; eauto|]. destruct (rw_memory p !! a) as [c|] eqn:E2; [left; right; eauto|]. right. split; [exact H|]. intros [[q Q]|[q Q]]; discriminate.
Qed.
Lemma init_nodup rows p : ro_memory p ##ₘ rw_memory p -> List.NoDup (map m_addr (inits_of rows p)).
Proof.
  intros D. rewrite init_addrs. apply NoDup_ListNoDup, NoDup_app. split; [|split].
  - apply NoDup_ListNoDup. eapply Permutation_NoDup; [apply Permutation_map, Permutation_sym, sort_perm|]. unfold elf_memory_init. rewrite map_app, !map_map. apply NoDup_ListNoDup, NoDup_app.
    assert (EQ : forall w (m : gmap Z Z), map (fun x => mi_addr (let '(a, b) := x in mkMemInit a b 1 w)) (map_to_list m) = (map_to_list m).*1) by (intros w m; apply map_ext; intros [a b]; reflexivity).
    rewrite !EQ. split; [apply NoDup_fst_map_to_list|]. split; [|apply NoDup_fst_map_to_list]. intros a I1 I2. apply elem_of_list_fmap in I1 as ([x b] & -> & I1). apply elem_of_list_fmap in I2 as ([y c] & E & I2). cbn in E. subst y. apply elem_of_map_to_list in I1, I2. exact (proj1 (map_disjoint_spec _ _) D _ _ _ I1 I2).
  - intros a I1 I2. apply elem_of_list_In in I1, I2. apply in_fresh in I2 as [_ N]. exact (N I1).
  - apply NoDup_ListNoDup. eapply Permutation_NoDup; [apply Permutation_sym, sort_perm|]. apply NoDup_ListNoDup, NoDup_elements.
Qed.
Section WithHash.
Variable permute : list Z -> list Z.
Hypothesis permute12 : forall l, state12 (permute l).
Variable utf8_ok : list Z -> bool.
Notation step_ok := (step_ok permute utf8_ok).
Variables (limit : option Z) (p : program) (fuel : nat) (t : raw_tapes) (rec : record).
Hypothesis GP : good_program p.
Hypothesis GT : good_tapes t.
Hypothesis DJ : ro_memory p ##ₘ rw_memory p.
Hypothesis RUN : step permute utf8_ok limit p fuel (state_new p t) = Ok rec.
Let rows := run_rows rec.
Hypothesis SHORT : Z.of_nat (length rows) <= 2 ^ 30 - 2.
Variable sponge : list sprow.
Hypothesis SP : generate_sponge_trace rows = Ok sponge.
Hypothesis DF : digests_fit rows.
Definition value_at (c a : Z) : Z := match state_at rec (Z.to_nat (c - 2)) with Some s => load_u8 s a | None => 0 end.
Definition is_ro (a : Z) : bool := bool_decide (is_Some (ro_memory p !! a)).

Lemma PO : program_ok p. Proof. exact (good_program_ok _ GP). Qed.
Lemma OK0 : state_ok (state_new p t). Proof. exact (state_new_ok p t GP GT). Qed.
Lemma rows_ok : Forall (step_ok p) rows.
Proof. exact (step_rows_ok permute utf8_ok limit p fuel _ rec OK0 GP RUN). Qed.
Lemma row_facts s i a : In (s, i, a) rows -> exists k s', executed rec !! k = Some (mkRow s a i) /\ clk s = 2 + Z.of_nat k /\ (k < length rows)%nat /\ state_at rec k = Some s /\ state_at rec (S k) = Some s' /\
  execute_instruction permute utf8_ok s p = Ok (a, i, s') /\ state_ok s /\ is_read_only (smem s) = dom (ro_memory p).
Proof.
  intros I. apply in_map_iff in I as ([s0 a0 i0] & E & I). injection E as -> -> ->. destruct (run_record permute utf8_ok limit p fuel _ rec OK0 PO RUN) as (_ & HR & _). destruct (run_reach permute utf8_ok limit p fuel (state_new p t) (state_new p t) rec) as [FR _]; [constructor|exact RUN|].
  rewrite List.Forall_forall in FR. pose proof (FR _ I) as RE. cbn [rstate] in RE. apply In_lookup in I as [k E]. destruct (HR k _ E) as (_ & C & s' & SA & X). cbn [rstate raux rinst] in *. exists k, s'. split; [exact E|]. split; [rewrite C; reflexivity|].
  split; [unfold rows, run_rows; rewrite map_length; apply lookup_lt_Some in E; exact E|]. split; [unfold state_at; rewrite E; reflexivity|]. split; [exact SA|]. split; [exact X|]. split; [exact (reach_ok permute utf8_ok p _ _ OK0 PO RE)|]. destruct (reach_ro permute utf8_ok p _ _ OK0 PO RE) as [-> _]. reflexivity.
Qed.
Lemma first_state : state_at rec 0 = Some (state_new p t).
Proof.
  unfold state_at. unfold step in RUN. pose proof (run_unfold permute utf8_ok _ _ _ _ _ RUN) as [[H ->]|(H & f' & a & i & s' & rec' & _ & _ & _ & -> & _)]; reflexivity.
Qed.
Lemma fits_row s i a : In (s, i, a) rows -> fits s i.
Proof.
  intros J Q A0. apply (DF (clk s) (reg s REG_A1) (reg s REG_A3) (message s)). unfold hash_calls. apply in_omap. exists (s, i, a). split; [exact J|]. unfold hash_call. rewrite bool_decide_eq_true_2, A0 by exact Q. reflexivity.
Qed.
Lemma used_row s i a x : In (s, i, a) rows -> In x (mem_addresses_used a) -> In x (used_in_execution rows).
Proof. intros J I. unfold used_in_execution. apply in_or_app. left. apply in_flat_map. exists (s, i, a). auto. Qed.
Lemma used_range x : In x (used_in_execution rows) -> u32 x.
Proof.
  intros I. unfold used_in_execution in I. apply in_app_iff in I as [I|I]; [|destruct I as [<-|[<-|[]]]; unfold u32; lia]. apply in_flat_map in I as ([[s i] a] & J & I). destruct (row_facts s i a J) as (k & s' & _ & _ & _ & _ & _ & X & OK & _).
  pose proof (used_u32 permute utf8_ok s p a i s' OK PO X) as U. rewrite List.Forall_forall in U. exact (U x I).
Qed.
Lemma clk_mod s i a : In (s, i, a) rows -> clk s mod P = clk s /\ 2 <= clk s < 2 + Z.of_nat (length rows).
Proof. intros J. destruct (row_facts s i a J) as (k & s' & _ & C & L & _). rewrite C. split; [apply Z.mod_small; unfold P; lia|lia]. Qed.
Lemma run_history : history (inits_of rows p) (accs_of rows sponge) value_at is_ro (2 + Z.of_nat (length rows)).
Proof.
  pose proof PO as PO. pose proof rows_ok as RO.
  constructor.
  - intros r I. rewrite inits_eq in I. apply in_app_iff in I as [I|I].
    + apply in_map_iff in I as (q & <- & I). unfold value_at. change (Z.to_nat (2 - 2)) with 0%nat. rewrite first_state. apply elf_row in I as [(a & b & E & ->)|(a & b & E & ->)]; cbn.
      * destruct (gp_ro _ GP a b E) as [U1 U2]. repeat split; auto; try (apply U1); try (apply U2). unfold load_u8. cbn. rewrite (lookup_union_Some_l _ _ _ _ E). reflexivity.
      * destruct (gp_rw _ GP a b E) as [U1 U2]. repeat split; auto; try (apply U1); try (apply U2). unfold load_u8. cbn. rewrite (lookup_union_Some_r _ _ _ _ DJ E). reflexivity.
    + apply in_map_iff in I as (a & <- & I). apply in_fresh in I as [I N]. rewrite in_elf in N. cbn. pose proof (used_range a I) as U. repeat split; auto; try (apply U); try lia. unfold value_at. change (Z.to_nat (2 - 2)) with 0%nat. rewrite first_state. unfold load_u8. cbn.
      replace ((ro_memory p ∪ rw_memory p) !! a) with (@None Z); [reflexivity|]. symmetry. apply lookup_union_None. split; apply eq_None_not_Some; auto.
  - apply init_nodup, DJ.
  - rewrite !in_inits. unfold used_in_execution. split; right; right; apply in_or_app; right; cbn; auto.
  - intros r I. apply (in_accs permute permute12 utf8_ok p rows sponge r PO RO SP DF) in I as (s & i & a & J & C). destruct (row_facts s i a J) as (k & s' & _ & CK & L & SA & SA' & X & OK & ROE). destruct (clk_mod s i a J) as [CM CB].
    destruct (contributes_ok permute permute12 utf8_ok s p a i s' r OK PO X (fits_row s i a J) C) as (I0 & C1 & IU & UA & UV & H). split; [exact I0|]. rewrite C1, CM. split; [exact CB|].
    split; [apply in_inits; right; right; exact (used_row s i a _ J IU)|]. split; [exact UV|]. unfold value_at. replace (Z.to_nat (clk s - 2)) with k by lia. replace (Z.to_nat (clk s + 1 - 2)) with (S k) by lia. rewrite SA, SA'.
    destruct H as [(L1 & S0 & V & _)|(S1 & L0 & V & NR & _)]; [left; auto|right]. split; [exact S1|]. split; [exact L0|]. split; [exact V|]. unfold is_ro. apply bool_decide_eq_false. rewrite ROE in NR. intros Q. apply NR, elem_of_dom, Q.
  - intros c a B N. unfold value_at in N. set (k := Z.to_nat (c - 2)) in N. assert (Lk : (k < length (executed rec))%nat) by (unfold rows, run_rows in B; rewrite map_length in B; unfold k; lia). apply lookup_lt_is_Some in Lk as [[s a0 i] E].
    assert (J : In (s, i, a0) rows) by (unfold rows, run_rows; apply in_map_iff; exists (mkRow s a0 i); split; [reflexivity|]; eapply CpuTrace.lookup_In; exact E).
    destruct (row_facts s i a0 J) as (k' & s' & E' & CK & L & SA & SA' & X & OK & ROE). destruct (clk_mod s i a0 J) as [CM CB].
    assert (EK : k' = k). { destruct (run_record permute utf8_ok limit p fuel _ rec OK0 PO RUN) as (_ & HR & _). destruct (HR k _ E) as (_ & C & _). cbn [rstate] in C. change (clk (state_new p t)) with 2 in C. lia. } subst k'.
    replace (Z.to_nat (c + 1 - 2)) with (S k) in N by (unfold k; lia). rewrite SA, SA' in N. destruct (changes_stored permute permute12 utf8_ok s p a0 i s' a OK PO X (fits_row s i a0 J) N) as (r & C & S1 & A1).
    exists r. split; [apply (in_accs permute permute12 utf8_ok p rows sponge r PO RO SP DF); exists s, i, a0; auto|]. split; [exact S1|]. split; [|exact A1]. destruct (contributes_ok permute permute12 utf8_ok s p a0 i s' r OK PO X (fits_row s i a0 J) C) as (_ & C1 & _). rewrite C1, CM, CK. unfold k. lia.
  - apply (accs_order permute permute12 utf8_ok p rows sponge PO RO SP DF). intros s i a s' i' a' J J' E. destruct (clk_mod s i a J) as [C1 _]. destruct (clk_mod s' i' a' J') as [C2 _]. rewrite C1, C2 in E.
    destruct (row_facts s i a J) as (k & _ & E1 & CK & _). destruct (row_facts s' i' a' J') as (k' & _ & E2 & CK' & _). assert (k = k') as <- by lia. rewrite E1 in E2. injection E2 as -> -> ->. auto.
  - lia.
Qed.
(** the generated table is the table of this history *)
Lemma read_only_addrs a : (a ∈ map mi_addr (List.filter (fun r => negb (mi_filter r mod P =? 0) && (mi_writable r mod P =? 0)) (generate_memory_init_trace p))) <-> is_Some (ro_memory p !! a).
Proof.
  rewrite elem_of_list_In, in_map_iff. unfold generate_memory_init_trace. fold (elf_sorted p). split.
  - intros (r & <- & I). apply filter_In in I as [I H]. unfold pad_with in I. apply in_app_iff in I as [I|I]; [|apply repeat_spec in I; subst r; discriminate H]. apply elf_row in I as [(x & b & E & ->)|(x & b & E & ->)]; [cbn; eauto|discriminate H].
  - intros [b E]. exists (mkMemInit a b 1 0). split; [reflexivity|]. apply filter_In. split; [|reflexivity]. unfold pad_with. apply in_or_app. left. apply elf_row. left. eauto.
Qed.
Definition mem_trace : list memrow :=
  generate_memory_trace rows (generate_memory_init_trace p) (generate_zero_init_trace rows p) (generate_half_trace rows) (generate_full_trace rows) (fun o => generate_sd_trace o rows) sponge (generate_ob_trace sponge).
Lemma mem_trace_eq : mem_trace = mem_table (inits_of rows p) (accs_of rows sponge) is_ro.
Proof.
  unfold mem_trace, generate_memory_trace, mem_table, mem_sorted. cbv zeta. f_equal.
  match goal with |- map ?f (sort_by _ ?l) = map ?g (sort_by _ ?m) => replace l with m by (unfold inits_of, accs_of, word_accs, tape_accs; rewrite <- !app_assoc; reflexivity); apply map_ext; intros r end.
  f_equal. f_equal. f_equal. unfold is_ro. apply bool_decide_ext. apply read_only_addrs.
Qed.
Lemma mem_trace_ok : trace_sat mem_air mem_trace /\ Forall mem_canon mem_trace /\ range_checked (mem_rc_looking mem_trace) /\
  (forall v w, In ([v], w) (mem_u8_looking mem_trace) -> ~ fzero w -> u8 v) /\
  Forall (fun r => m_init r = 1 -> m_clk r = 0 \/ m_clk r = 1) mem_trace /\ Forall (fun r => m_store r + m_load r = 1 -> m_clk r < 2 + Z.of_nat (length rows)) mem_trace.
Proof. rewrite mem_trace_eq. exact (mem_table_ok _ _ _ _ _ run_history). Qed.
Lemma mem_trace_into v : mult_of v (mem_looked mem_trace) =
  mult_of v (cpu_byte_looking (generate_cpu_trace rows) ++ (all_sd_mem_looking (fun o => generate_sd_trace o rows) ++ sp_mem_looking sponge ++ ob_mem_looking (generate_ob_trace sponge))
             ++ word_limb_looking 4 (generate_full_trace rows) ++ word_limb_looking 2 (generate_half_trace rows)).
Proof.
  rewrite mem_trace_eq. unfold mem_looked. rewrite (table_mult _ _ _ _ _ run_history v (fun r => [m_clk r; m_store r; m_load r; m_addr r; m_value r]) (fun r => m_store r + m_load r)) by reflexivity.
  rewrite map_app, mult_of_app. rewrite mult_of_zero.
  - rewrite Z.add_0_l, <- (MemGenLook.into_mem permute permute12 utf8_ok p rows sponge v GP rows_ok SP). reflexivity.
  - intros e I. apply in_map_iff in I as (r & <- & I). destruct (hy_init _ _ _ _ _ run_history r I) as (_ & S0 & L0 & _). cbn. rewrite S0, L0. reflexivity.
Qed.
Lemma mem_trace_init v : mult_of v (mem_init_looked mem_trace) = mult_of v (meminit_looking (generate_memory_init_trace p) ++ zeroinit_looking (generate_zero_init_trace rows p)).
Proof.
  rewrite mem_trace_eq. unfold mem_init_looked. rewrite (table_mult _ _ _ _ _ run_history v (fun r => [m_writable r; m_addr r; m_clk r; m_value r]) (fun r => m_init r)) by reflexivity.
  rewrite map_app, !mult_of_app. rewrite (mult_of_zero v (map _ (accs_of _ _))).
  2:{ intros e I. apply in_map_iff in I as (r & <- & I). destruct (hy_acc _ _ _ _ _ run_history r I) as (I0 & _). cbn. rewrite I0. reflexivity. }
  rewrite Z.add_0_r, inits_eq, map_app, mult_of_app. unfold meminit_looking, zeroinit_looking, generate_memory_init_trace, generate_zero_init_trace, pad_with. rewrite !map_app, !mult_of_app. rewrite (mult_of_zero v (map _ (repeat _ _))), (mult_of_zero v (map _ (repeat (mkZeroInit _ _) _))).
  2:{ intros e I. apply in_map_iff in I as (q & <- & I). apply repeat_spec in I. subst q. reflexivity. }
  2:{ intros e I. apply in_map_iff in I as (q & <- & I). apply repeat_spec in I. subst q. reflexivity. }
  rewrite !Z.add_0_r. fold (elf_sorted p). fold (fresh rows p). rewrite !map_map. f_equal.
  - rewrite !mult_map. apply sumZ_ext. intros r I. apply elf_row in I as [(a & b & E & ->)|(a & b & E & ->)]; cbn [init_mem set_writable m_addr m_writable m_clk m_value m_init mi_addr mi_value mi_writable mi_filter]; unfold is_ro.
    + rewrite bool_decide_eq_true_2 by eauto. reflexivity.
    + rewrite bool_decide_eq_false_2; [reflexivity|]. intros [c Q]. exact (proj1 (map_disjoint_spec _ _) DJ _ _ _ Q E).
  - rewrite !mult_map. apply sumZ_ext. intros a I. cbn [zero_mem set_writable m_addr m_writable m_clk m_value m_init zi_addr zi_filter]. unfold is_ro. rewrite bool_decide_eq_false_2; [reflexivity|]. intros Q. apply in_fresh in I as [_ N]. apply N, in_elf. auto.
Qed.
End WithHash.
